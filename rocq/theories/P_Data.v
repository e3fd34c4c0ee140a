(** * C38: data written as text loads back equal. *)
From Coq Require Import String Ascii List ZArith NArith Bool Arith Lia SpecFloat.
From Verif Require Import Float64 DataModel DataSpec DataProofs.
Import ListNotations.
Local Open Scope string_scope.
Local Open Scope nat_scope.
Local Open Scope list_scope.

(** Also where text is written for people ([print], [str]), strings inside of other values are quoted. *)
Theorem C38_inside : forall L n stk json v w, In w [DSome v; DOk v; DErr v] \/ (exists l, w = DArray l) \/ (exists l, w = DObject l) ->
  write L n stk json w = write L n stk true w.
Proof.
  intros L n stk json v w H. destruct n; auto. destruct H as [[<- |[<- |[<- |[]]]]|[(l & ->)|(l & ->)]]; reflexivity.
Qed.
Print Assumptions C38_inside.

(** Every data value can be written, and what is written loads as the same value, with nothing left.
    Partial: keys of objects must not be empty (see the refutation), and the laws of the libraries
    are assumed. *)
Theorem C38_load_partial : forall L stk v, laws L -> datum stk v ->
  (exists n t, write L n stk true v = Some t) /\
  forall n t, write L n stk true v = Some t -> exists v', load_data L t = POk v' [] /\ same stk v v'.
Proof.
  intros L stk v HL Hd. destruct (round_all L HL stk v Hd) as (n0 & t0 & v' & A & [B R] & C).
  split; [eauto|]. intros n t H.
  assert (t = t0) as ->.
  { apply (write_mono L stk n (Nat.max n n0)) in H; [|lia]. apply (write_mono L stk n0 (Nat.max n n0)) in A; [|lia]. congruence. }
  exists v'. split; auto. unfold load_data. rewrite <- (app_nil_r t0) at 2. rewrite (opt_w_solid L) by (apply starts_solid; auto).
  apply R; [lia|exact I].
Qed.
Print Assumptions C38_load_partial.
(** Text after the value changes nothing, as long as the value is seen to end. *)
Theorem C38_rest : forall L stk v n t r, laws L -> datum stk v -> ends r -> write L n stk true v = Some t ->
  exists v', load_data L (t ++ r) = POk v' r /\ same stk v v'.
Proof.
  intros L stk v n t r HL Hd Hr H. destruct (round_all L HL stk v Hd) as (n0 & t0 & v' & A & [B R] & C).
  assert (t = t0) as ->.
  { apply (write_mono L stk n (Nat.max n n0)) in H; [|lia]. apply (write_mono L stk n0 (Nat.max n n0)) in A; [|lia]. congruence. }
  exists v'. split; auto. unfold load_data. rewrite (opt_w_solid L) by (apply starts_solid; auto).
  apply R; [rewrite app_length; lia|exact Hr].
Qed.
Print Assumptions C38_rest.

(** ** A library with these laws

    Strings are quoted with a backslash before quotes and backslashes. Numbers are printed as
    digits: the sign ("-" or "0"), then 6 for zero, or 7, the bits of the mantissa and the exponent. *)
Fixpoint escape (s : text) : text :=
  match s with
  | [] => []
  | c :: s => if N.eqb c 34 || N.eqb c 92 then 92%N :: c :: escape s else c :: escape s
  end.
Fixpoint unescape (t : text) : option (text * text) :=
  match t with
  | [] => None
  | c :: t =>
      if N.eqb c 34 then Some ([], t)
      else if N.eqb c 92 then
        match t with
        | [] => None
        | d :: t => match unescape t with Some (s, r) => Some (d :: s, r) | None => None end
        end
      else match unescape t with Some (s, r) => Some (c :: s, r) | None => None end
  end.
Fixpoint bits (p : positive) : text :=
  match p with xH => [50%N] | xO p => 48%N :: bits p | xI p => 49%N :: bits p end.
Fixpoint unbits (t : text) : option (positive * text) :=
  match t with
  | [] => None
  | c :: t =>
      if N.eqb c 50 then Some (xH, t)
      else match unbits t with Some (p, r) => Some (if N.eqb c 48 then xO p else xI p, r) | None => None end
  end.
Definition digits_Z (z : Z) : text := match z with Z0 => [51%N] | Zpos p => 52%N :: bits p | Zneg p => 53%N :: bits p end.
Definition undigits_Z (t : text) : option (Z * text) :=
  match t with
  | [] => None
  | c :: t =>
      if N.eqb c 51 then Some (0%Z, t)
      else match unbits t with Some (p, r) => Some (if N.eqb c 52 then Zpos p else Zneg p, r) | None => None end
  end.
Definition show0 (x : f64) : text :=
  match x with
  | S754_nan => tx "NaN"
  | S754_infinity s => if s then tx "-inf" else tx "inf"
  | S754_zero s => (if s then 45%N else 48%N) :: [54%N]
  | S754_finite s m e => (if s then 45%N else 48%N) :: 55%N :: bits m ++ digits_Z e
  end.
Definition num0 (t : text) : option (option (f64 * text)) :=
  match t with
  | [] => None
  | c :: t =>
      if existsb (N.eqb c) (tx "+-." ++ digits) then
        match t with
        | d :: t =>
            if N.eqb d 54 then Some (Some (S754_zero (N.eqb c 45), t))
            else if N.eqb d 55 then
              match unbits t with
              | Some (m, t) => match undigits_Z t with Some (e, t) => Some (Some (S754_finite (N.eqb c 45) m e, t)) | None => Some None end
              | None => Some None
              end
            else Some None
        | [] => Some None
        end
      else None
  end.
Definition letter0 (c : char) : bool :=
  (N.leb 48 c && N.leb c 57 || N.leb 65 c && N.leb c 90 || N.leb 97 c && N.leb c 122)%bool.
Definition lib0 : lib :=
  Lib (fun c => N.eqb c 32 || N.eqb c 10) letter0
    (fun s => 34%N :: escape s ++ [34%N])
    (fun t => match t with c :: t => if N.eqb c 34 then Some (unescape t) else None | [] => None end)
    show0 show0 num0 (fun _ => Some (f1, f1, f1, f1)).

Lemma unescape_escape : forall s r, unescape (escape s ++ 34%N :: r) = Some (s, r).
Proof.
  induction s as [|c s IH]; intros r; [reflexivity|]. cbn [escape]. destruct (N.eqb c 34 || N.eqb c 92) eqn:E.
  - cbn [app unescape]. rewrite IH. reflexivity.
  - apply orb_false_elim in E. destruct E as [E1 E2]. cbn [app unescape]. rewrite E1, E2, IH. reflexivity.
Qed.
Lemma unbits_bits : forall p r, unbits (bits p ++ r) = Some (p, r).
Proof. induction p as [p IH|p IH|]; intros r; cbn [bits app unbits]; [rewrite IH; reflexivity|rewrite IH; reflexivity|reflexivity]. Qed.
Lemma undigits_digits : forall z r, undigits_Z (digits_Z z ++ r) = Some (z, r).
Proof. intros [|p|p] r; cbn [digits_Z app undigits_Z]; [reflexivity| |]; rewrite unbits_bits; reflexivity. Qed.
Lemma num_show : forall x r, finite x -> num0 (show0 x ++ r) = Some (Some (x, r)).
Proof.
  intros [s|s| |s m e] r H; try destruct H; unfold num0, show0.
  - destruct s; reflexivity.
  - cbn [app]. replace (existsb _ _) with true by (destruct s; reflexivity). cbn [N.eqb Pos.eqb].
    rewrite <- app_assoc, unbits_bits, undigits_digits. destruct s; reflexivity.
Qed.
Lemma show_head : forall x, finite x -> exists c r, show0 x = c :: r /\ In c (tx "-" ++ digits).
Proof. intros [s|s| |s m e] H; try destruct H; do 2 eexists; (split; [reflexivity|]); destruct s; simpl; auto. Qed.
(** An [f32] is not rounded. *)
Lemma round32 : forall x, finite32 x -> f32_of_f64 x = x.
Proof.
  intros [s|s| |s m e] [F V]; try destruct F; [reflexivity|]. cbn [f32_of_f64 valid_binary] in *. unfold bounded in V.
  apply andb_prop in V. destruct V as [C B]. unfold canonical_mantissa in C. apply Zeq_bool_eq in C. apply Zle_bool_imp_le in B.
  unfold binary_normalize.
  assert (binary_round 24 128 s m e = S754_finite s m e) as R.
  { unfold binary_round. rewrite C. unfold shl_align. replace (e - e)%Z with 0%Z by lia. cbv beta iota.
    unfold binary_round_aux, shr_fexp. cbn [Zdigits2]. rewrite C. replace (e - e)%Z with 0%Z by lia.
    cbn [shr shr_record_of_loc shr_m loc_of_shr_record round_nearest_even Zdigits2]. rewrite C. replace (e - e)%Z with 0%Z by lia.
    cbn [shr shr_m]. apply Zle_imp_le_bool in B. rewrite B. reflexivity. }
  destruct s; exact R.
Qed.
Theorem C38_laws : laws lib0.
Proof.
  constructor; cbn [white alnum quote str show64 show32 num color lib0].
  - reflexivity.
  - intros c H. destruct (N.eqb_spec c 32), (N.eqb_spec c 10); try reflexivity; lia.
  - intros c H. unfold letter0 in H. assert (letter c) as L.
    { unfold letter. repeat rewrite orb_true_iff in H. repeat rewrite andb_true_iff in H. repeat rewrite N.leb_le in H. tauto. }
    split; auto. unfold letter in L. destruct (N.eqb_spec c 32), (N.eqb_spec c 10); try reflexivity; lia.
  - eauto.
  - intros s r. cbn [app N.eqb Pos.eqb]. rewrite <- app_assoc. cbn [app]. rewrite unescape_escape. reflexivity.
  - intros c r H. destruct (N.eqb_spec c 34); [contradiction|reflexivity].
  - apply show_head.
  - intros. apply num_show. auto.
  - intros x [H _]. apply show_head. auto.
  - intros x r H _. exists x. split; [apply num_show; apply H|apply round32; auto].
  - intros c r H. unfold num0. destruct (existsb _ _) eqn:E; [|reflexivity]. apply existsb_exists in E. destruct E as (d & D & E).
    apply N.eqb_eq in E. subst. contradiction.
Qed.
Print Assumptions C38_laws.

(** ** Examples: an object with keys `a`, `b c` and `v`: an array with a reference to a string, an
    optional link with a backslash in a string, and a vector. *)
Definition one_ : f32 := g_of_Z 1.
Definition sample : data :=
  DObject [(tx "a", DArray [DNum f1; DRef 0]); (tx "b c", DSome (DLink [DBool true; DStr (tx "q\")])); (tx "v", DVec4 one_ f0 f0 one_)].
Example C38_example : datum [DStr (34%N :: tx "x")] sample.
Proof.
  assert (finite32 one_) by (split; vm_compute; auto). assert (finite32 f0) by (split; vm_compute; auto).
  repeat first [constructor | eapply d_ref; [reflexivity|] | exact I | assumption | discriminate];
    simpl; intuition discriminate.
Qed.
Definition text_ (stk : list data) (v : data) : text := match write lib0 9 stk true v with Some t => t | None => [] end.
Example C38_example_load : exists t, write lib0 9 [DStr (34%N :: tx "x")] true sample = Some t /\
  load_data lib0 t = POk (DObject [(tx "a", DArray [DNum f1; DStr (34%N :: tx "x")]);
    (tx "b c", DSome (DLink [DBool true; DStr (tx "q\")])); (tx "v", DVec4 one_ f0 f0 one_)]) [].
Proof. exists (text_ [DStr (34%N :: tx "x")] sample). split; vm_compute; reflexivity. Qed.
Example C38_example_rest : ends (tx ", 2]") /\ exists t, write lib0 9 [] true DNone = Some t /\ load_data lib0 (t ++ tx ", 2]") = POk DNone (tx ", 2]").
Proof. split; [simpl; auto|]. eexists. split; reflexivity. Qed.
(** Comments and spaces are skipped. *)
Example C38_comments : load_data lib0 (tx " /* a /* b */ c */ [ // x" ++ 10%N :: tx " none() ,true ]") = POk (DArray [DNone; DBool true]) [].
Proof. vm_compute. reflexivity. Qed.

(** ** Refutations *)
Definition fails_to_load (v : data) : Prop := exists t, write lib0 9 [] true v = Some t /\ load_data lib0 t = PErr.
(** An empty key is written without quotes. *)
Theorem C38_key_refuted : fails_to_load (DObject [([], DBool true)]).
Proof. exists (text_ [] (DObject [([], DBool true)])). split; vm_compute; reflexivity. Qed.
(** Results and matrices have no syntax in data files. *)
Theorem C38_result_refuted : fails_to_load (DOk (DBool true)) /\ fails_to_load (DErr (DStr (tx "e"))).
Proof.
  split; [exists (text_ [] (DOk (DBool true)))|exists (text_ [] (DErr (DStr (tx "e"))))]; split; vm_compute; reflexivity.
Qed.
Theorem C38_mat4_refuted : fails_to_load (DMat4 [[f1; f0; f0; f0]; [f0; f1; f0; f0]; [f0; f0; f1; f0]; [f0; f0; f0; f1]]).
Proof. exists (text_ [] (DMat4 [[f1; f0; f0; f0]; [f0; f1; f0; f0]; [f0; f0; f1; f0]; [f0; f0; f0; f1]])). split; vm_compute; reflexivity. Qed.
(** Numbers that are not finite are written as words. *)
Theorem C38_nan_refuted : fails_to_load (DArray [DNum fnan]).
Proof. exists (text_ [] (DArray [DNum fnan])). split; vm_compute; reflexivity. Qed.
(** A negative zero in the third component is lost. *)
Theorem C38_zero_refuted : exists t, write lib0 9 [] true (DVec4 one_ one_ (S754_zero true) f0) = Some t /\
  load_data lib0 t = POk (DVec4 one_ one_ f0 f0) [].
Proof. exists (text_ [] (DVec4 one_ one_ (S754_zero true) f0)). split; vm_compute; reflexivity. Qed.
(** A color is read without being consumed (data.rs 66-79), so it cannot be in an array. *)
Theorem C38_color_refuted : load_data lib0 (tx "#ffffff") = POk (DVec4 f1 f1 f1 f1) (tx "ffffff") /\
  load_data lib0 (tx "[#ffffff]") = PErr.
Proof. split; vm_compute; reflexivity. Qed.
(** What follows a value is ignored. *)
Theorem C38_trailing_refuted : load_data lib0 (tx "true] nonsense") = POk (DBool true) (tx "] nonsense").
Proof. vm_compute. reflexivity. Qed.
