(** * C44: values pass between Rust and Dyon. *)
From Coq Require Import String List ZArith Bool Arith Lia Floats.SpecFloat.
From Verif Require Import Float64 Syntax FloatProofs InterpModel EmbedModel EmbedSpec P_Array.
Import ListNotations.
Local Open Scope string_scope.
Local Open Scope nat_scope.
Local Open Scope list_scope.

(** ** f32 in f64 *)
Section F32.
Local Open Scope Z_scope.
Lemma digits_shift : forall q j p, 0 <= j -> Z.pos p = Z.pos q * 2 ^ j -> Z.pos (digits2_pos p) = Z.pos (digits2_pos q) + j.
Proof.
  intros q j p J E. apply digits_unique; [|lia]. destruct (digits_spec q) as [A B]. rewrite E.
  replace (Z.pos (digits2_pos q) + j - 1) with (Z.pos (digits2_pos q) - 1 + j) by lia.
  rewrite !Z.pow_add_r by lia. assert (0 < 2 ^ j) by lia. nia.
Qed.
(** A number in canonical form, written with a smaller exponent, is rounded to itself. *)
Lemma round_canon : forall prec emax s q e j p, 0 <= j -> Z.pos p = Z.pos q * 2 ^ j ->
  fexp prec emax (Z.pos (digits2_pos q) + e) = e -> e <= emax - prec ->
  binary_round prec emax s p (e - j) = S754_finite s q e.
Proof.
  intros prec emax s q e j p J E C L. pose proof (digits_shift q j p J E) as D.
  assert (F : fexp prec emax (Z.pos (digits2_pos p) + (e - j)) = e).
  { rewrite D. replace (Z.pos (digits2_pos q) + j + (e - j)) with (Z.pos (digits2_pos q) + e) by lia. exact C. }
  unfold binary_round, shl_align. rewrite F. replace (e - (e - j)) with j by lia.
  assert (match j with Z.neg d => (shift_pos d p, e) | _ => (p, e - j) end = (p, e - j)) as -> by (destruct j; auto; lia).
  assert (G : forall m k, fexp prec emax (Zdigits2 (Z.pos m) + k) = k -> shr_fexp prec emax (Z.pos m) k loc_Exact = (Build_shr_record (Z.pos m) false false, k)).
  { intros m k K. unfold shr_fexp. rewrite K, Z.sub_diag. reflexivity. }
  assert (H : shr_fexp prec emax (Z.pos p) (e - j) loc_Exact = (Build_shr_record (Z.pos q) false false, e)).
  { unfold shr_fexp. change (Zdigits2 (Z.pos p)) with (Z.pos (digits2_pos p)). rewrite F. replace (e - (e - j)) with j by lia. unfold shr. cbn [shr_record_of_loc].
    destruct j as [|j|j]; [|rewrite E, shr_iter; f_equal; lia|lia]. rewrite Z.mul_1_r in E. rewrite E. f_equal. lia. }
  unfold binary_round_aux. rewrite H. cbn [shr_m loc_of_shr_record round_nearest_even].
  rewrite G by exact C. cbn [shr_m]. destruct (Z.leb_spec e (emax - prec)); [reflexivity|lia].
Qed.
Lemma f32_through : forall x, is_f32 x -> f32_of_f64 (f64_of_f32 x) = x.
Proof.
  intros [s|s| |s m e] V; try reflexivity. unfold is_f32, valid_binary, bounded, canonical_mantissa in V.
  apply andb_prop in V. destruct V as [V B]. apply Zeq_bool_eq in V. apply Z.leb_le in B.
  pose proof V as V0. unfold fexp, emin in V. set (j := 53 - Z.pos (digits2_pos m)). assert (0 <= j) by (unfold j; lia).
  assert (P : exists p, Z.pos p = Z.pos m * 2 ^ j).
  { assert (0 < Z.pos m * 2 ^ j) by (apply Z.mul_pos_pos; lia). exists (Z.to_pos (Z.pos m * 2 ^ j)). rewrite Z2Pos.id; lia. }
  destruct P as [p P]. pose proof (digits_shift m j p H P) as D.
  assert (W : f64_of_f32 (S754_finite s m e) = S754_finite s p (e - j)).
  { assert (f64_of_f32 (S754_finite s m e) = binary_round 53 1024 s m e) as -> by (destruct s; reflexivity).
    assert (N : norm 53 1024 p (e - j)) by (split; [unfold j in D; lia|unfold emin, j in *; lia]).
    apply (round_exact 53 1024 eq_refl s m e p (e - j) N). exists j. split; [assumption|]. right. split; [congruence|reflexivity]. }
  rewrite W. assert (f32_of_f64 (S754_finite s p (e - j)) = binary_round 24 128 s p (e - j)) as -> by (destruct s; reflexivity).
  apply round_canon; assumption.
Qed.
End F32.

(** ** C44 *)
Lemma rty_ind' (P : rty -> Prop) :
  P TBool -> P TStr -> P TU32 -> P TUsize -> P TF32 -> P TF64 -> P TRust -> P TVec4 -> P TMat4 ->
  (forall t, P t -> P (TOption t)) -> (forall t u, P t -> P u -> P (TResult t u)) -> (forall n t, P t -> P (TArr n t)) ->
  (forall l, Forall P l -> P (TTup l)) -> (forall t, P t -> P (TVec t)) -> (forall l, Forall (fun p => P (snd p)) l -> P (TObj l)) -> forall t, P t.
Proof.
  intros H1 H2 H3 H4 H5 H6 H7 H8 H9 H10 H11 H12 H13 H14 H15. fix IH 1. intro t.
  refine (match t with
    | TBool => H1 | TStr => H2 | TU32 => H3 | TUsize => H4 | TF32 => H5 | TF64 => H6 | TRust => H7 | TVec4 => H8 | TMat4 => H9
    | TOption t => H10 t (IH t) | TResult t u => H11 t u (IH t) (IH u) | TArr n t => H12 n t (IH t)
    | TTup l => H13 l _ | TVec t => H14 t (IH t) | TObj l => H15 l _ end).
  - induction l as [|x l IHl]; [constructor|]. constructor; [apply IH|exact IHl].
  - induction l as [|[k x] l IHl]; [constructor|]. constructor; [apply IH|exact IHl].
Qed.
(** Pushed values have no references. *)
Lemma push_look : forall stk r, look stk (push_var r) = Got (push_var r).
Proof. intros stk []; reflexivity. Qed.
Lemma assoc_app : forall {A} (a b : list (string * A)) k, assoc k (a ++ b) = match assoc k a with Some v => Some v | None => assoc k b end.
Proof. induction a as [|[k0 v0] a IH]; intros b k; [reflexivity|]. cbn [app assoc]. destruct (String.eqb k0 k); [reflexivity|apply IH]. Qed.
Lemma assoc_insert : forall {A} (o : list (string * A)) k v k', assoc k (insert k' v o) = if String.eqb k' k then Some v else assoc k o.
Proof.
  intros A o k v k'. unfold insert. destruct (assoc k' o) as [w|] eqn:E.
  - revert E. induction o as [|[k0 v0] o IH]; [discriminate|]. cbn [assoc assoc_set].
    destruct (String.eqb_spec k0 k') as [->|N]; intro E; cbn [assoc]; [destruct (String.eqb k' k); reflexivity|].
    rewrite IH by exact E. destruct (String.eqb_spec k0 k) as [->|]; [|reflexivity]. destruct (String.eqb_spec k' k); [congruence|reflexivity].
  - rewrite assoc_app. cbn [assoc]. destruct (String.eqb_spec k' k) as [->|]; [rewrite E; reflexivity|]. destruct (assoc k o); reflexivity.
Qed.
Lemma fold_set : forall l (o : list (string * value)) k, assoc k (fold_left (fun o p => insert (fst p) (snd p) o) l o) =
  match assoc k (rev l) with Some v => Some v | None => assoc k o end.
Proof.
  induction l as [|[k0 v0] l IH]; intros o k; [reflexivity|]. cbn [fold_left fst snd]. rewrite IH, assoc_insert. cbn [rev].
  rewrite assoc_app. cbn [assoc]. destruct (assoc k (rev l)); [reflexivity|]. destruct (String.eqb k0 k); reflexivity.
Qed.
Lemma assoc_in : forall (l : list (string * value)) k v, NoDup (map fst l) -> In (k, v) l -> assoc k l = Some v.
Proof.
  induction l as [|[k0 v0] l IH]; intros k v N I; [destruct I|]. cbn in N. inversion N as [|x y N1 N2]; subst. cbn [assoc].
  destruct I as [I|I]; [injection I as <- <-; rewrite String.eqb_refl; reflexivity|].
  destruct (String.eqb_spec k0 k) as [->|]; [|apply IH; assumption]. elim N1. apply in_map_iff. exists (k, v). auto.
Qed.
Lemma each_length : forall w ts l, each_typed w ts l -> length l = length ts.
Proof. intros w ts l H. induction H; cbn; congruence. Qed.

Definition sent (w : Z -> Prop) (t : rty) : Prop := forall stk r, typed w t r -> pop_var stk t (push_var r) = Got r.
Lemma each_sent : forall w ts, Forall (sent w) ts -> forall stk l, each_typed w ts l ->
  in_turn stk (map (pop_var stk) ts) (map push_var l) = Got l.
Proof.
  intros w ts F stk l H. induction H as [|t r ts l T E IH]; [reflexivity|]. inversion F; subst. cbn [map in_turn].
  rewrite push_look. cbn [and_then]. rewrite H1 by assumption. cbn [and_then]. rewrite IH by assumption. reflexivity.
Qed.
(** Any value whose [usize] parts are up to 2^53 comes back unchanged. *)
Definition exact_usize (z : Z) : Prop := (z <= 2 ^ 53)%Z.
Lemma sent_all : forall t, sent exact_usize t.
Proof.
  apply rty_ind'.
  1-9: intros stk r H; inversion H; subst; cbn [pop_var push_var]; try reflexivity.
  - unfold f64_to_u32. rewrite C09_position by lia. repeat f_equal. lia.
  - rewrite C09_position by (unfold exact_usize in *; lia). reflexivity.
  - rewrite f32_through by assumption. reflexivity.
  - intros t IH stk r H. inversion H; subst; cbn [pop_var push_var]; [reflexivity|]. rewrite push_look. cbn [and_then]. rewrite IH by assumption. reflexivity.
  - intros t u IH1 IH2 stk r H. inversion H; subst; cbn [pop_var push_var]; rewrite push_look; cbn [and_then]; [rewrite IH1|rewrite IH2]; auto.
  - intros n t IH stk r H. inversion H; subst; cbn [pop_var push_var].
    assert (repeat (pop_var stk t) (length l) = map (pop_var stk) (repeat t (length l))) as ->.
    { generalize (length l). intro k. induction k; cbn; congruence. }
    rewrite (each_sent exact_usize); [reflexivity| |assumption]. apply Forall_forall. intros x I. apply repeat_spec in I. subst. exact IH.
  - intros ts IH stk r H. inversion H; subst; cbn [pop_var push_var]. rewrite (each_sent exact_usize); auto.
  - intros t IH stk r H. inversion H; subst; cbn [pop_var push_var]. rewrite map_length.
    assert (repeat (pop_var stk t) (length l) = map (pop_var stk) (repeat t (length l))) as ->.
    { generalize (length l). intro k. induction k; cbn; congruence. }
    rewrite (each_sent exact_usize); [reflexivity| |assumption]. apply Forall_forall. intros x I. apply repeat_spec in I. subst. exact IH.
  - intros ts IH stk r H. inversion H as [| | | | | | | | | | | | | | | |ts' l N K E]; subst; cbn [pop_var push_var look and_then].
    set (ps := map (fun p => (fst p, push_var (snd p))) l).
    assert (A : forall k v, In (k, v) ps -> assoc k (fold_left (fun o p => insert (fst p) (snd p) o) ps []) = Some v).
    { intros k v I. rewrite fold_set. rewrite (assoc_in (rev ps) k v); [reflexivity| |apply -> in_rev; exact I].
      rewrite map_rev. apply NoDup_rev. unfold ps. rewrite map_map. cbn [fst]. change (NoDup (map fst l)). rewrite K. exact N. }

    assert (G : forall ts l, Forall (fun p => sent exact_usize (snd p)) ts -> map fst l = map fst ts -> each_typed exact_usize (map snd ts) (map snd l) ->
      (forall p, In p l -> In (fst p, push_var (snd p)) ps) ->
      fields (fold_left (fun o p => insert (fst p) (snd p) o) ps []) (map (fun p => (fst p, pop_var stk (snd p))) ts) = Got l).
    { clear - A. intros ts m. revert ts. induction m as [|[k r] m IHm]; intros [|[k' t] ts] F K E I; try discriminate; [reflexivity|].
      cbn in K. injection K as <- K. cbn [map fields fst snd]. cbn in E. inversion E as [|t0 r0 ts0 l0 E1 E2]; subst. inversion F as [|x0 y0 F1 F2]; subst. cbn [snd] in F1.
      rewrite (A k (push_var r)); [|apply (I (k, r)); left; reflexivity]. cbn [snd]. rewrite F1 by assumption. cbn [and_then].
      rewrite IHm; auto. intros p J. apply I. right. exact J. }
    rewrite G with (l := l); auto. intros p I. apply in_map_iff. exists p. auto.
Qed.
Theorem C44_unchanged_partial : forall t r stk, typed exact_usize t r -> pop (push stk r) t = (Got r, stk).
Proof.
  intros t r stk H. unfold pop, push. rewrite rev_app_distr, removelast_last. cbn [rev app]. rewrite push_look. cbn [and_then].
  rewrite sent_all by assumption. reflexivity.
Qed.
Print Assumptions C44_unchanged_partial.

(** What is popped has the shape of the type. *)
Lemma look_inside : forall stk t v w, look stk v = Got w -> shape stk t w -> inside stk t v.
Proof.
  intros stk t v w L S. destruct v; cbn [look] in L;
    try (injection L as <-; apply I_val; [discriminate|exact S]).
  destruct (nth_error stk i) eqn:E; [|discriminate]. injection L as <-. eapply I_ref; eassumption.
Qed.
Definition shaped (t : rty) : Prop := forall stk v r, pop_var stk t v = Got r -> shape stk t v.
Lemma turn_shaped : forall stk ts, Forall shaped ts -> forall arr l, in_turn stk (map (pop_var stk) ts) arr = Got l ->
  exists a b, arr = a ++ b /\ each_inside stk ts a.
Proof.
  intros stk ts F. induction F as [|t ts T F IH]; intros arr l H; [exists [], arr; split; [reflexivity|constructor]|].
  cbn [map in_turn] in H. destruct arr as [|v arr]; [discriminate|].
  destruct (look stk v) as [w| |] eqn:L; try discriminate. cbn [and_then] in H.
  destruct (pop_var stk t w) as [r| |] eqn:P; try discriminate. cbn [and_then] in H.
  destruct (in_turn stk (map (pop_var stk) ts) arr) as [l'| |] eqn:R; try discriminate.
  destruct (IH _ _ R) as (a & b & -> & E). exists (v :: a), b. split; [reflexivity|]. constructor; [|exact E].
  eapply look_inside; [exact L|]. eapply T. exact P.
Qed.
Lemma repeat_map : forall {A B} (f : A -> B) x n, repeat (f x) n = map f (repeat x n).
Proof. induction n; cbn; congruence. Qed.
Lemma repeat_all : forall (P : rty -> Prop) t n, P t -> Forall P (repeat t n).
Proof. intros P t n H. apply Forall_forall. intros x I. apply repeat_spec in I. subst. exact H. Qed.
Lemma each_inside_length : forall stk ts l, each_inside stk ts l -> length l = length ts.
Proof. intros stk ts l H. induction H; cbn; congruence. Qed.
Lemma shaped_all : forall t, shaped t.
Proof.
  apply rty_ind'.
  1-9: intros stk v r H; cbn [pop_var] in H; destruct v; try discriminate; constructor.
  - intros t IH stk v r H. cbn [pop_var] in H. destruct v; try discriminate; [constructor|].
    destruct (look stk v) as [w| |] eqn:L; try discriminate. cbn [and_then] in H. destruct (pop_var stk t w) eqn:P; try discriminate.
    constructor. eapply look_inside; [exact L|]. eapply IH. exact P.
  - intros t u IH1 IH2 stk v r H. cbn [pop_var] in H. destruct v; try discriminate.
    + destruct (look stk v) as [w| |] eqn:L; try discriminate. cbn [and_then] in H. destruct (pop_var stk t w) eqn:P; try discriminate.
      constructor. eapply look_inside; [exact L|]. eapply IH1. exact P.
    + destruct (look stk v) as [w| |] eqn:L; try discriminate. cbn [and_then] in H. destruct (pop_var stk u w) eqn:P; try discriminate.
      constructor. eapply look_inside; [exact L|]. eapply IH2. exact P.
  - intros n t IH stk v r H. cbn [pop_var] in H. destruct v; try discriminate. rewrite repeat_map in H.
    destruct (in_turn stk (map (pop_var stk) (repeat t n)) l) as [l'| |] eqn:R; try discriminate.
    destruct (turn_shaped stk _ (repeat_all _ t n IH) _ _ R) as (a & b & -> & E). constructor. exact E.
  - intros ts IH stk v r H. cbn [pop_var] in H. destruct v; try discriminate.
    destruct (in_turn stk (map (pop_var stk) ts) l) as [l'| |] eqn:R; try discriminate.
    destruct (turn_shaped stk _ IH _ _ R) as (a & b & -> & E). constructor. exact E.
  - intros t IH stk v r H. cbn [pop_var] in H. destruct v; try discriminate. rewrite repeat_map in H.
    destruct (in_turn stk (map (pop_var stk) (repeat t (length l))) l) as [l'| |] eqn:R; try discriminate.
    destruct (turn_shaped stk _ (repeat_all _ t (length l) IH) _ _ R) as (a & b & E0 & E).
    pose proof (each_inside_length _ _ _ E) as Q. rewrite repeat_length in Q.
    assert (b = []) as -> by (apply length_zero_iff_nil; apply (f_equal (@length value)) in E0; rewrite app_length in E0; lia).
    rewrite app_nil_r in E0. subst a. constructor. exact E.
  - intros ts IH stk v r H. cbn [pop_var] in H. destruct (look stk v) as [w| |] eqn:L; try discriminate. cbn [and_then] in H.
    destruct w as [| | | | | | | |o| | | | | | | | | |]; try discriminate.
    destruct (fields o _) as [l'| |] eqn:R; try discriminate.
    assert (E : each_field stk ts o).
    { clear - R IH. revert l' R. induction IH as [|[k t] ts T F IH]; intros l' R; [constructor|]. cbn [map fields fst snd] in R.
      destruct (assoc k o) as [v|] eqn:A; [|discriminate]. destruct (pop_var stk t v) as [r| |] eqn:P; try discriminate. cbn [and_then] in R.
      destruct (fields o (map (fun p => (fst p, pop_var stk (snd p))) ts)) as [l''| |] eqn:Q; try discriminate.
      econstructor; [exact A|eapply T; exact P|eapply IH; reflexivity]. }
    destruct v; cbn [look] in L; try discriminate.
    + destruct (nth_error stk i) eqn:N; [|discriminate]. injection L as ->. eapply S_objref; eassumption.
    + injection L as ->. constructor. exact E.
Qed.
Theorem C44_shape : forall t v r stk, pop_var stk t v = Got r -> shape stk t v.
Proof. intros t v r stk H. eapply shaped_all. exact H. Qed.
Print Assumptions C44_shape.

(** If nothing looked at is missing, there is no panic: the result is a value or an error. *)
Definition calm (t : rty) : Prop := forall stk v, fine stk t v -> pop_var stk t v <> Crash.
Lemma seen_look : forall stk P v, seen stk P v -> exists w, look stk v = Got w /\ P w.
Proof.
  intros stk P v H. destruct v; cbn [seen look] in *; try (eexists; split; [reflexivity|exact H]).
  destruct (nth_error stk i) as [w|]; [|destruct H]. exists w. auto.
Qed.
Lemma turn_calm : forall stk ts, Forall calm ts -> forall arr, all2 (map (fun t => seen stk (fine stk t)) ts) arr ->
  in_turn stk (map (pop_var stk) ts) arr <> Crash.
Proof.
  intros stk ts F. induction F as [|t ts T F IH]; intros arr H; [discriminate|]. destruct arr as [|v arr]; [destruct H|].
  destruct H as [H1 H2]. cbn [map in_turn]. destruct (seen_look _ _ _ H1) as (w & -> & W). cbn [and_then].
  specialize (T stk w W). destruct (pop_var stk t w); [|discriminate|congruence]. cbn [and_then].
  specialize (IH arr H2). destruct (in_turn stk (map (pop_var stk) ts) arr); [discriminate|discriminate|congruence].
Qed.
Lemma calm_all : forall t, calm t.
Proof.
  apply rty_ind'.
  1-9: intros stk v H; cbn [pop_var]; destruct v; discriminate.
  - intros t IH stk v H. cbn [pop_var]. destruct v; try discriminate. destruct (seen_look _ _ _ H) as (w & -> & W). cbn [and_then].
    specialize (IH stk w W). destruct (pop_var stk t w); [discriminate|discriminate|congruence].
  - intros t u IH1 IH2 stk v H. cbn [pop_var]. destruct v; try discriminate; destruct (seen_look _ _ _ H) as (w & -> & W); cbn [and_then].
    + specialize (IH1 stk w W). destruct (pop_var stk t w); [discriminate|discriminate|congruence].
    + specialize (IH2 stk w W). destruct (pop_var stk u w); [discriminate|discriminate|congruence].
  - intros n t IH stk v H. cbn [pop_var]. destruct v; try discriminate. rewrite repeat_map. cbn [fine] in H.
    rewrite (repeat_map (fun t => seen stk (fine stk t))) in H.
    pose proof (turn_calm stk _ (repeat_all _ t n IH) _ H) as R. destruct (in_turn stk _ l); [discriminate|discriminate|congruence].
  - intros ts IH stk v H. cbn [pop_var]. destruct v; try discriminate. cbn [fine] in H.
    pose proof (turn_calm stk _ IH _ H) as R. destruct (in_turn stk _ l); [discriminate|discriminate|congruence].
  - intros t IH stk v H. cbn [pop_var]. destruct v; try discriminate. rewrite repeat_map. cbn [fine] in H.
    rewrite (repeat_map (fun t => seen stk (fine stk t))) in H.
    pose proof (turn_calm stk _ (repeat_all _ t (length l) IH) _ H) as R. destruct (in_turn stk _ l); [discriminate|discriminate|congruence].
  - intros ts IH stk v H. cbn [pop_var]. change (seen stk (fun v => match v with
      | VObject o => fold_right (fun p R => match assoc (fst p) o with Some v => fine stk (snd p) v | None => True end /\ R) True ts
      | _ => True end) v) in H. destruct (seen_look _ _ _ H) as (w & -> & W). cbn [and_then].
    destruct w as [| | | | | | | |o| | | | | | | | | |]; try discriminate. clear H.
    assert (fields o (map (fun p => (fst p, pop_var stk (snd p))) ts) <> Crash) as R; [|destruct (fields o _); [discriminate|discriminate|congruence]].
    revert W. induction IH as [|[k t] ts T F IH]; [discriminate|]. cbn [fold_right map fields fst snd]. intros [W1 W2].
    destruct (assoc k o) as [x|]; [|discriminate]. specialize (T stk x W1). cbn [snd] in T. destruct (pop_var stk t x); [|discriminate|congruence].
    cbn [and_then]. specialize (IH W2). destruct (fields o _); [discriminate|discriminate|congruence].
Qed.
(** A different shape is an error. Partial: for values that are [fine] for the type, see the refutation. *)
Theorem C44_error_partial : forall t v stk, fine stk t v -> ~ shape stk t v -> pop_var stk t v = Wrong.
Proof.
  intros t v stk F S. pose proof (calm_all t stk v F) as C. destruct (pop_var stk t v) as [r| |] eqn:P; [|reflexivity|congruence].
  elim S. eapply C44_shape. exact P.
Qed.
Print Assumptions C44_error_partial.
(** Types without arrays, tuples and structures never panic at the top, with any reference-free value. *)
Fixpoint flat (t : rty) : bool := match t with TOption t => flat t | TResult t u => flat t && flat u | TArr _ _ | TTup _ | TVec _ | TObj _ => false | _ => true end.
Fixpoint unreferenced (v : value) : bool := match v with VRef _ => false | VSome v | VOk v | VErr v _ => unreferenced v | _ => true end.
Theorem C44_flat : forall t v stk, flat t = true -> unreferenced v = true -> ~ shape stk t v -> pop_var stk t v = Wrong.
Proof.
  intros t v stk F U S. apply C44_error_partial; [|exact S]. clear S. revert v F U.
  assert (G : forall (P : value -> Prop) v, (unreferenced v = true -> P v) -> unreferenced v = true -> seen stk P v) by (intros P v H U; destruct v; try discriminate; apply H; exact U).
  induction t; intros v F U; try discriminate; try exact I; cbn [fine flat] in *; destruct v; try exact I; cbn [unreferenced] in U.
  - apply G; [intro|]; auto.
  - apply andb_prop in F. destruct F. apply G; [intro|]; auto.
  - apply andb_prop in F. destruct F. apply G; [intro|]; auto.
Qed.
Print Assumptions C44_flat.

(** *** Vectors *)
Theorem C44_vec4 : forall l n, length l = n -> 2 <= n <= 4 -> of_vec4 n (to_vec4 l) = l.
Proof.
  intros l n E [A B]. subst n. unfold of_vec4, to_vec4.
  destruct l as [|a [|b [|c [|d [|? ?]]]]]; cbn in *; try lia; reflexivity.
Qed.
Print Assumptions C44_vec4.
Theorem C44_vec4_f64 : forall l n, length l = n -> 2 <= n <= 4 -> of_vec4_64 n (to_vec4_64 l) = map (fun x => f64_of_f32 (f32_of_f64 x)) l.
Proof.
  intros l n E N. unfold of_vec4_64, to_vec4_64. rewrite C44_vec4; [apply map_map| |exact N]. rewrite map_length. exact E.
Qed.
Print Assumptions C44_vec4_f64.

(** *** References and current objects *)
(** A reference to a variable is read as the variable. *)
Theorem C44_reference : forall t stk i v, nth_error stk i = Some v -> var_ stk t (VRef i) = pop_var stk t v.
Proof. intros t stk i v H. unfold var_. cbn [look]. rewrite H. reflexivity. Qed.
Print Assumptions C44_reference.
(** A current object is the innermost one of its name. *)
Theorem C44_current : forall stk a b name i r t, (forall j, ~ In (name, j) a) -> nth_error stk i = Some (push_var r) -> typed exact_usize t r ->
  current_object stk (a ++ (name, i) :: b) t name = Got r.
Proof.
  intros stk a b name i r t A N T. unfold current_object. rewrite assoc_app. cbn [assoc]. rewrite String.eqb_refl.
  assert (assoc name a = None) as ->.
  { induction a as [|[k j] a IH]; [reflexivity|]. cbn [assoc]. destruct (String.eqb_spec k name) as [->|]; [elim (A j); left; reflexivity|].
    apply IH. intros x I. apply (A x). right. exact I. }
  rewrite N, push_look. cbn [and_then]. apply sent_all. exact T.
Qed.
Print Assumptions C44_current.

(** *** Example: a vector of (u32, Option<[f32; 2]>) and a structure with it *)
Definition third : f32 := gdiv (g_of_Z 1) (g_of_Z 3).
Definition t_ex : rty := TObj [("id", TUsize); ("at", TVec (TTup [TU32; TOption (TArr 2 TF32)])); ("state", TResult TBool TStr)].
Definition r_ex : rval := RObj [("id", RInt 7);
  ("at", RList [RList [RInt 4294967295; RSome (RList [RF32 third; RF32 (SFopp third)])]; RList [RInt 0; RNone]]); ("state", RErr (RStr "no"))].
Example C44_example : typed exact_usize t_ex r_ex /\ pop (push [VStr "below"] r_ex) t_ex = (Got r_ex, [VStr "below"]).
Proof.
  split; [|vm_compute; reflexivity]. unfold t_ex, r_ex.
  apply T_obj; [repeat constructor; cbn; intuition discriminate|reflexivity|]. cbn [map snd].
  repeat (constructor; cbn [repeat length]); try lia; try reflexivity; unfold exact_usize; lia.
Qed.
Example C44_shape_example : pop_var [] t_ex (push_var (RObj [("id", RStr "x"); ("at", RList []); ("state", ROk (RBool true))])) = Wrong.
Proof. reflexivity. Qed.

(** *** Refutations *)
(** usize above 2^53 may change. *)
Theorem C44_usize_refuted : fst (pop (push [] (RInt (2 ^ 53 + 1))) TUsize) = Got (RInt (2 ^ 53)).
Proof. vm_compute. reflexivity. Qed.
(** A short array panics. *)
Theorem C44_short_refuted : pop_var [] (TArr 3 TF64) (push_var (RList [RF64 f0; RF64 f0])) = Crash /\
  pop_var [] (TTup [TBool; TBool]) (VArray []) = Crash.
Proof. split; reflexivity. Qed.
(** A long one is cut, and numbers are rounded or limited. *)
Theorem C44_long_refuted : pop_var [] (TArr 2 TBool) (push_var (RList [RBool true; RBool false; RBool true])) = Got (RList [RBool true; RBool false]).
Proof. reflexivity. Qed.
Theorem C44_number_refuted : pop_var [] TU32 (push_var (RF64 (f_of_Z (-1)))) = Got (RInt 0) /\
  pop_var [] TU32 (push_var (RF64 fnan)) = Got (RInt 0) /\ pop_var [] TU32 (push_var (RF64 (fdiv (f_of_Z 5) (f_of_Z 2)))) = Got (RInt 2).
Proof. repeat split; vm_compute; reflexivity. Qed.
(** A reference as a field of a structure is not followed. *)
Theorem C44_field_refuted : pop_var [VBool true None] (TObj [("x", TBool)]) (VObject [("x", VRef 0)]) = Wrong /\
  pop_var [VBool true None] (TArr 1 TBool) (VArray [VRef 0]) = Got (RList [RBool true]).
Proof. split; reflexivity. Qed.
