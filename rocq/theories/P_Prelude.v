(** * C58: the functions of the standard library keep their declared types. C59: indexing vectors and matrices. *)
From Coq Require Import String Ascii List ZArith Bool Arith Lia Floats.SpecFloat.
From Verif Require Import Float64 Syntax InterpModel StdModel ColorModel TypeModel LifetimeModel TypecheckModel PreludeModel PreludeSpec
  PreludeProofs PreludeCalls TypecheckInv P_Color.
Import ListNotations.
Local Open Scope string_scope.
Local Open Scope nat_scope.
Local Open Scope list_scope.

Section Types.
Variables (O : math) (L : libm) (n : nat) (S : option (list value) -> Prop) (stk : list value).

(** Operators and functions of one or two values: a result is of the declared type, for every signature; they do not panic. *)
Theorem C58_operators : forall e f sg a b, In e (std O L n) -> e_impl e = IBin f -> In sg (signatures (e_decl e)) ->
  Forall2 (plain S stk) [a; b] (sargs sg) -> may_compute (fun v => fits S stk v (sret sg)) (f a b).
Proof. exact (bin_may S stk O L n). Qed.
Theorem C58_functions_of_one : forall e f sg a, In e (std O L n) -> e_impl e = IUn f -> In sg (signatures (e_decl e)) ->
  Forall2 (plain S stk) [a] (sargs sg) -> may_compute (fun v => fits S stk v (sret sg)) (f a).
Proof. exact (un_may S stk O L n). Qed.
(** For the special signatures there always is a result, except that options may hold values that cannot be compared. *)
Theorem C58_operators_defined : forall e f sg a b, In e (std O L n) -> e_impl e = IBin f -> In sg (p_ext (e_decl e)) ->
  sargs sg <> [TOption TAny; TOption TAny] ->
  Forall2 (plain S stk) [a; b] (sargs sg) -> computes (fun v => fits S stk v (sret sg)) (f a b).
Proof. exact (bin_computes S stk O L n). Qed.
Theorem C58_functions_of_one_defined : forall e f sg a, In e (std O L n) -> e_impl e = IUn f -> In sg (signatures (e_decl e)) ->
  sargs sg <> [TAny] ->
  Forall2 (plain S stk) [a] (sargs sg) -> computes (fun v => fits S stk v (sret sg)) (f a).
Proof. exact (un_computes S stk O L n). Qed.

Hypothesis HS : Forall (sound (length stk)) stk.
(** Functions on the stack: with arguments of the types of a signature they do not panic, take their arguments away, change only
    arrays, and a result is of the declared type. *)
Theorem C58_calls_partial : (forall l, S (Some l)) ->
  forall e f sg args s, In e (std O L n) -> e_impl e = IRet f -> In sg (signatures (e_decl e)) ->
  ~ In (e_name e) ["cv"; "str__color"] ->
  fit_args S stk args (sargs sg) -> r_stack s = stk ++ args -> gives stk s (fun stk' v => fits S stk' v (sret sg)) (f s).
Proof. intros H. exact (ret_gives S stk HS O L n H). Qed.
Theorem C58_procedures_partial : forall e f sg args s, In e (std O L n) -> e_impl e = IVoid f -> In sg (signatures (e_decl e)) ->
  e_name e <> "swap(mut,_,_)" ->
  fit_args S stk args (sargs sg) -> r_stack s = stk ++ args -> gives stk s (fun _ _ => True) (f s).
Proof. exact (void_gives S stk HS O L n). Qed.
(** Most of them always answer, and change nothing. *)
Theorem C58_calls_defined : forall e f sg args s, In e (std O L n) -> e_impl e = IRet f -> In sg (signatures (e_decl e)) ->
  ~ In (e_name e) ["why"; "where"; "pop(mut)"; "remove(mut,_)"; "unwrap"; "unwrap_err"; "unwrap_or"; "s"; "rv"; "cv"; "str__color";
                   "clone"; "some"; "ok"; "err"; "explain_why"; "explain_where"] ->
  fit_args S stk args (sargs sg) -> r_stack s = stk ++ args -> answers stk s (fun v => fits S stk v (sret sg)) (f s).
Proof. exact (ret_answers S stk HS O L n). Qed.
End Types.
Print Assumptions C58_operators.
Print Assumptions C58_functions_of_one.
Print Assumptions C58_operators_defined.
Print Assumptions C58_functions_of_one_defined.
Print Assumptions C58_calls_partial.
Print Assumptions C58_procedures_partial.
Print Assumptions C58_calls_defined.

(** ** The table *)

(** A declaration is well formed: as many lifetimes as arguments, in every signature; lifetimes name an argument. *)
Definition well_formed (d : decl) : Prop :=
  length (p_lts d) = length (p_tys d) /\ (forall sg, In sg (p_ext d) -> length (sargs sg) = length (p_tys d)) /\
  (forall i, In (LtArg i) (p_lts d) -> i < length (p_tys d)).
Definition well_formedb (d : decl) : bool :=
  Nat.eqb (length (p_lts d)) (length (p_tys d)) && forallb (fun sg => Nat.eqb (length (sargs sg)) (length (p_tys d))) (p_ext d) &&
  forallb (fun l => match l with LtArg i => Nat.ltb i (length (p_tys d)) | _ => true end) (p_lts d).
Lemma well_formedb_ok : forall d, well_formedb d = true -> well_formed d.
Proof.
  intros d H. unfold well_formedb in H. rewrite !andb_true_iff, !forallb_forall in H. destruct H as [[H1 H2] H3].
  apply Nat.eqb_eq in H1. split; [exact H1|]. split.
  - intros sg Hs. apply Nat.eqb_eq, H2, Hs.
  - intros i Hi. apply H3 in Hi. apply Nat.ltb_lt, Hi.
Qed.
Theorem C58_well_formed : forall O L n e, In e (std O L n) -> well_formed (e_decl e).
Proof.
  intros O L n e H. apply well_formedb_ok.
  assert (forallb (fun e => well_formedb (e_decl e)) (std O L n) = true) as K by (vm_compute; reflexivity).
  rewrite forallb_forall in K. apply K, H.
Qed.
Print Assumptions C58_well_formed.

(** Every function is found by its name. *)
Lemma find_decl_skip : forall l name r, ~ In name (map e_name l) -> fold_left (fun r e => if (e_name e =? name)%string then Some (e_decl e) else r) l r = r.
Proof.
  induction l as [|e l IH]; intros name r H; [reflexivity|]. simpl in *.
  destruct (String.eqb_spec (e_name e) name) as [E|E]; [exfalso; auto|]. apply IH. auto.
Qed.
Lemma find_decl_in : forall l, NoDup (map e_name l) -> forall e, In e l -> find_decl l (e_name e) = Some (e_decl e).
Proof.
  unfold find_decl. intros l H e He. generalize (@None decl). revert H He. induction l as [|e' l IH]; intros H He r; [contradiction|].
  simpl in H. inversion H as [|? ? H1 H2]; subst. destruct He as [->|He].
  - simpl. rewrite String.eqb_refl. apply find_decl_skip. exact H1.
  - simpl. destruct (String.eqb_spec (e_name e') (e_name e)) as [E|E]; [exfalso; apply H1; rewrite E; apply in_map; exact He|].
    apply IH; assumption.
Qed.
Lemma names_distinct : forall O L n, NoDup (map e_name (std O L n)).
Proof.
  intros O L n. assert (nodup string_dec (map e_name (std O L n)) = map e_name (std O L n)) as <- by (vm_compute; reflexivity).
  apply NoDup_nodup.
Qed.
Theorem C58_found : forall O L n e, In e (std O L n) -> find_decl (std O L n) (e_name e) = Some (e_decl e).
Proof. intros. apply find_decl_in; [apply names_distinct|assumption]. Qed.
Print Assumptions C58_found.

(** The special signatures are cases of the general one: their arguments are arguments of it, and so are their results; and the
    type checker, which compares with the general one first, lets them through. *)
Definition under (t u : ty) : bool := ty_eqb u TAny || ty_eqb t u || ty_eqb t (TSecret u).
Lemma under_typed : forall S stk t u v, under t u = true -> fits S stk v t -> fits S stk v u.
Proof.
  intros S stk t u v H [H1 H2]. split; [exact H1|]. unfold under in H. rewrite !orb_true_iff, !ty_eqb_iff in H.
  destruct H as [[->| ->]| ->]; [constructor|exact H2|]. clear H1.
  remember (TSecret u) as t eqn:E. induction H2; inversion E; subst; try (constructor; fail).
  econstructor; eauto.
Qed.
Theorem C58_special : forall O L n e sg, In e (std O L n) -> In sg (p_ext (e_decl e)) ->
  Forall2 (fun t u => goes_with u t = true /\ forall S stk v, fits S stk v t -> fits S stk v u) (sargs sg) (p_tys (e_decl e)) /\
  forall S stk v, fits S stk v (sret sg) -> fits S stk v (p_ret (e_decl e)).
Proof.
  intros O L n e sg He Hs.
  assert (forallb (fun e => forallb (fun sg => Nat.eqb (length (sargs sg)) (length (p_tys (e_decl e))) &&
    forallb (fun tu => goes_with (snd tu) (fst tu) && under (fst tu) (snd tu)) (combine (sargs sg) (p_tys (e_decl e))) &&
    under (sret sg) (p_ret (e_decl e))) (p_ext (e_decl e))) (std O L n) = true) as K by (vm_compute; reflexivity).
  rewrite forallb_forall in K. specialize (K e He). rewrite forallb_forall in K. specialize (K sg Hs).
  rewrite !andb_true_iff in K. destruct K as [[K1 K2] K3]. split; [|intros; eapply under_typed; eassumption].
  apply Nat.eqb_eq in K1. revert K1 K2. generalize (sargs sg) (p_tys (e_decl e)). clear.
  induction l as [|t l IH]; intros [|u m] K1 K2; try discriminate; constructor; simpl in K2; rewrite !andb_true_iff in K2; destruct K2 as [[A B] C].
  - split; [exact A|]. intros. eapply under_typed; eassumption.
  - apply IH; auto.
Qed.
Print Assumptions C58_special.

(** Functions with a result are declared with one, and the others without. *)
Theorem C58_results : forall O L n e, In e (std O L n) ->
  match e_impl e with IOther => True | IVoid _ => p_ret (e_decl e) = TVoid | _ => p_ret (e_decl e) <> TVoid end.
Proof.
  intros O L n e H. simpl in H. repeat (destruct H as [<- | H]; [simpl; try exact I; try reflexivity; discriminate|]). contradiction.
Qed.
Print Assumptions C58_results.

(** ** Colours *)
Theorem C58_color : forall L n S stk v w s, Forall (sound (length stk)) stk -> fits S stk v TVec4 ->
  v = VVec4 w \/ (exists i, v = VRef i /\ nth_error stk i = Some (VVec4 w)) ->
  is_f32 (vx w) -> is_f32 (vy w) -> is_f32 (vz w) -> is_f32 (vw w) -> r_stack s = stk ++ [v] ->
  forall O e, In e (std O L n) -> e_name e = "str__color" -> exists f, e_impl e = IRet f /\ answers stk s (fun x => fits S stk x TStr) (f s).
Proof.
  intros L n S stk v w s HS Hv Hw X Y Z W Hr O e He Hn.
  assert (e = Entry "str__color" (IRet str__color) (nl [TVec4] TStr)) as ->.
  { simpl in He. repeat (destruct He as [<- | He]; [try discriminate Hn; try reflexivity|]). contradiction. }
  exists str__color. split; [reflexivity|]. rewrite <- (set_stack_id s _ Hr).
  unfold str__color, arg. rewrite e_assoc, e_pop. rewrite e_assoc.
  assert (forall B (k : value -> M B), bind (getv v) k (set_stack stk s) = k (VVec4 w) (set_stack stk s)) as ->.
  { intros B k. unfold bind. destruct Hw as [->|(i & -> & E)]; [reflexivity|]. simpl. unfold slot. simpl. rewrite E. reflexivity. }
  simpl. rewrite e_ret, (C45_print w X Y Z W). eexists. split; [reflexivity|]. split; constructor.
Qed.
Print Assumptions C58_color.
(** ** What is not kept *)

(** [cv] is declared to return a column, but gives the whole matrix. *)
Definition rt_of (l : list value) : rt := RT 0 l [] [] [] (World [] [] []).
Definition e_cv : entry := Entry "cv" (IRet cv) (nl [TMat4; TF64] TVec4).
Definition a_mat : mat4 := M4 (V4 g1 f0 f0 f0) (V4 f0 g1 f0 f0) (V4 f0 f0 g1 f0) (V4 f0 f0 f0 g1).
Theorem C58_calls_refuted : forall O L n,
  In e_cv (std O L n) /\ fit_args (fun _ => True) [] [VMat4 a_mat; vf64 f1] (p_tys (e_decl e_cv)) /\
  cv (rt_of [VMat4 a_mat; vf64 f1]) = Ok (VMat4 a_mat) (rt_of []) /\ ~ fits (fun _ => True) [] (VMat4 a_mat) (p_ret (e_decl e_cv)).
Proof.
  intros O L n. split; [simpl; tauto|]. split; [repeat constructor; discriminate|]. split; [reflexivity|].
  intros [_ H]. inversion H.
Qed.
Print Assumptions C58_calls_refuted.
(** [swap] ends the program when an index is too large. *)
Definition e_swap : entry := Entry "swap(mut,_,_)" (IVoid array_swap) (nl [TArray TAny; TF64; TF64] TVoid).
Theorem C58_procedures_refuted : forall O L n,
  In e_swap (std O L n) /\ fit_args (fun _ => True) [VArray [vf64 f1]] [VRef 0; vf64 f1; vf64 f1] (p_tys (e_decl e_swap)) /\
  array_swap (rt_of [VArray [vf64 f1]; VRef 0; vf64 f1; vf64 f1]) = Panic "swap".
Proof.
  intros O L n. split; [simpl; tauto|]. split; [|reflexivity].
  constructor; [|repeat constructor; discriminate]. split; [constructor; simpl; lia|].
  eapply Ty_ref; [reflexivity|intros [i E]; discriminate|repeat constructor].
Qed.
Print Assumptions C58_procedures_refuted.
(** [push] and [insert] take any value: an array of numbers does not stay one. *)
Definition e_push (n : nat) : entry := Entry "push(mut,_)" (IVoid (array_push n)) (nl [TArray TAny; TAny] TVoid).
Theorem C58_elements_refuted : forall O L n,
  let stk := [VArray [vf64 f1]] in let stk' := [VArray [vf64 f1; VStr "a"]] in
  In (e_push n) (std O L n) /\ typed (fun _ => True) stk (TArray TF64) (VRef 0) /\
  Forall2 (fun v t => fits (fun _ => True) stk v t) [VRef 0; VStr "a"] (p_tys (e_decl (e_push n))) /\
  array_push n (rt_of (stk ++ [VRef 0; VStr "a"])) = Ok tt (rt_of stk') /\ ~ typed (fun _ => True) stk' (TArray TF64) (VRef 0).
Proof.
  intros O L n stk stk'. split; [simpl; tauto|]. split; [|split; [|split]].
  - eapply Ty_ref; [reflexivity|intros [i E]; discriminate|repeat constructor].
  - constructor; [|constructor; [split; constructor|constructor]]. split; [constructor; simpl; lia|].
    eapply Ty_ref; [reflexivity|intros [i E]; discriminate|repeat constructor].
  - destruct n; reflexivity.
  - intros H. inversion H as [i w t E _ T| | | | | | | | | | | | | | | | | |]; subst. injection E as <-.
    inversion T as [| | | | | | | | | | |t l F| | | | | | |]; subst. inversion F as [|? ? _ F']; subst. inversion F' as [|? ? K _]; subst. inversion K.
Qed.
Print Assumptions C58_elements_refuted.
(** Comparing options may be an error, though the signature accepts them. *)
Theorem C58_options_refuted : forall O L n S, exists e f sg a b, In e (std O L n) /\ e_impl e = IBin f /\ In sg (p_ext (e_decl e)) /\
  Forall2 (plain S []) [a; b] (sargs sg) /\ exists m, f a b = PErr m.
Proof.
  intros O L n S. eexists _, equal, (mkSig [] [TOption TAny; TOption TAny] TBool), (VSome (VStr "a")), (VSome (vf64 f1)).
  split; [simpl; do 4 right; left; reflexivity|]. split; [reflexivity|]. split; [simpl; tauto|]. split.
  - repeat constructor; try discriminate; intros [i E]; discriminate.
  - eexists. reflexivity.
Qed.
Print Assumptions C58_options_refuted.

(** ** Cases *)
Definition O0 : math := Math fadd fadd gadd gadd (fun a _ => a) (fun _ v => v).
Definition L0 : libm := Libm (fun x => x) (fun x => x) (fun x => x) (fun x => x) (fun x => x) (fun x => x) (fun x => x) (fun x _ => x)
  (fun x => x) (fun x => x) (fun x => x) (fun x => x) (fun x => x) (fun x => x) (fun x => x) f1 f1 (fun _ _ => f0) (fun _ => f0) (fun _ => f0) (fun m => m)
  (fun s => s) (fun s => s) (fun s => s) (fun _ => None) (fun s => [s]).
Example C58_example_secret :
  let sg := mkSig [] [TSecret TF64; TF64] (TSecret TBool) in let a := VF64 f1 (Some [VStr "why"]) in
  In sg (p_ext (e_decl (nth 0 (std O0 L0 5) e_cv))) /\ Forall2 (plain (fun sec => sec <> None) []) [a; vf64 f0] (sargs sg) /\
  less a (vf64 f0) = POk (VBool false (Some [VStr "why"])).
Proof.
  split; [simpl; tauto|]. split; [|reflexivity].
  constructor; [|constructor; [|constructor]]; (split; [split|intros [i E]; discriminate]); constructor; try discriminate.
  intros l E. injection E as <-. repeat constructor.
Qed.
Example C58_example_min :
  let stk := [VArray [vf64 f1; VRef 1]; vf64 f0] in
  Forall (sound 2) stk /\ fit_args (fun _ => True) stk [VRef 0] [TArray TF64] /\ array_min (rt_of (stk ++ [VRef 0])) = Ok (vf64 f0) (rt_of stk).
Proof.
  split; [|split].
  - constructor; [|constructor; [|constructor]]; repeat (constructor; auto); discriminate.
  - constructor; [|constructor]. split; [constructor; simpl; lia|]. eapply Ty_ref; [reflexivity|intros [i E]; discriminate|].
    constructor. constructor; [constructor|]. constructor; [|constructor]. eapply Ty_ref; [reflexivity|intros [i E]; discriminate|constructor].
  - reflexivity.
Qed.
Example C58_example_remove :
  let stk := [VArray [vf64 f1; VStr "b"]] in
  Forall (sound 1) stk /\ fit_args (fun _ => True) stk [VRef 0; vf64 f0] [TArray TAny; TF64] /\
  array_remove (rt_of (stk ++ [VRef 0; vf64 f0])) = Ok (vf64 f1) (rt_of [VArray [VStr "b"]]).
Proof.
  split; [|split].
  - constructor; [|constructor]; repeat (constructor; auto); discriminate.
  - constructor; [|constructor; [|constructor]]; (split; [constructor; try discriminate; simpl; lia|]); [|constructor].
    eapply Ty_ref; [reflexivity|intros [i E]; discriminate|]. repeat constructor.
  - reflexivity.
Qed.
Example C58_example_color :
  fits (fun _ => True) [] (VVec4 (V4 g1 f0 f0 g1)) TVec4 /\ is_f32 g1 /\ is_f32 f0 /\
  str__color (rt_of [VVec4 (V4 g1 f0 f0 g1)]) = Ok (VStr "#ff0000") (rt_of []).
Proof. split; [split; constructor|]. split; [reflexivity|]. split; reflexivity. Qed.
