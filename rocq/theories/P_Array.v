(** * C09, C46: array intrinsics, [why] and [where]. *)
From Coq Require Import String List ZArith Bool Arith Lia Floats.SpecFloat.
From Verif Require Import Float64 FloatProofs Syntax InterpModel BalanceBase ControlSpec LoopSpec StdModel StdSpec Samples.
Import ListNotations.
Local Open Scope string_scope.
Local Open Scope nat_scope.
Local Open Scope list_scope.

Lemma pop_run : forall s stk v, r_stack s = stk ++ [v] -> pop s = Ok v (set_stack stk s).
Proof.
  intros s stk v H. unfold pop. rewrite H, rev_app_distr. simpl. rewrite removelast_app by discriminate. simpl.
  rewrite app_nil_r. reflexivity.
Qed.
Lemma getv_run : forall s x v, denotes s x v -> getv x s = Ok v s.
Proof. intros s x v H. destruct x; simpl in *; subst; auto. unfold slot. rewrite H. reflexivity. Qed.
Lemma number_run : forall s x y sec, denotes s x (VF64 y sec) -> number_arg x s = Ok y s.
Proof. intros s x y sec H. unfold number_arg, bind. rewrite (getv_run _ _ _ H). reflexivity. Qed.
Lemma set_set : forall s a b, set_stack a (set_stack b s) = set_stack a s.
Proof. intros []; reflexivity. Qed.

Lemma nth_set_eq : forall {A} (l : list A) i v, i < length l -> nth_error (list_set i v l) i = Some v.
Proof. induction l as [|w l IH]; intros [|i] v H; simpl in *; try lia; auto. apply IH. lia. Qed.
Lemma nth_set_ne : forall {A} (l : list A) i j v, j <> i -> nth_error (list_set i v l) j = nth_error l j.
Proof. induction l as [|w l IH]; intros [|i] [|j] v H; simpl; auto; try lia. Qed.
Lemma set_only : forall i l l' stk, nth_error stk i = Some (VArray l) -> only_array i l' stk (list_set i (VArray l') stk).
Proof.
  intros i l l' stk H. split; [apply list_set_length|]. split.
  - apply nth_set_eq. apply nth_error_Some. congruence.
  - intros j Hj. apply nth_set_ne. auto.
Qed.
Lemma at_array_run : forall {A} i l (f : list value -> M (list value * A)) l' a stk s,
  nth_error stk i = Some (VArray l) -> f l (set_stack stk s) = Ok (l', a) (set_stack stk s) ->
  at_array (VRef i) f (set_stack stk s) = Ok a (set_stack (list_set i (VArray l') stk) s).
Proof.
  intros A i l f l' a stk s H Hf. unfold at_array, bind, slot. simpl. rewrite H, Hf. unfold modify. simpl. destruct s; reflexivity.
Qed.
Lemma at_array_fail : forall {A} i l (f : list value -> M (list value * A)) e stk s,
  nth_error stk i = Some (VArray l) -> f l (set_stack stk s) = Err e (set_stack stk s) ->
  at_array (VRef i) f (set_stack stk s) = Err e (set_stack stk s).
Proof. intros A i l f e stk s H Hf. unfold at_array, bind, slot. simpl. rewrite H, Hf. reflexivity. Qed.

(** ** Positions *)

(** A number denotes the position it rounds down to. *)
Definition pos_of (x : f64) : nat := Z.to_nat (f64_to_usize x).
Theorem C09_position : forall z, (0 <= z <= 2 ^ 53)%Z -> f64_to_usize (f_of_Z z) = z.
Proof.
  intros z Hz. destruct (of_Z_repr64 z) as [[-> E]|(q & ex & Nz & E & Hq & Hx)]; [unfold small_int; lia|rewrite E; reflexivity|].
  rewrite E. assert (z <? 0 = false)%Z as -> by (apply Z.ltb_ge; lia). unfold f64_to_usize.
  rewrite Z.abs_eq in Hx by lia. assert (2 ^ 53 < USIZE_MAX)%Z by (unfold USIZE_MAX; reflexivity).
  destruct Hx as [[H1 H2]|[H1 H2]].
  - rewrite (proj2 (Z.leb_le 0 ex) H1). assert (ex <= 1024)%Z as Hex.
    { destruct (Z.le_gt_cases ex 1024) as [|G]; auto. assert (2 ^ 1024 <= 2 ^ ex)%Z by (apply Z.pow_le_mono_r; lia).
      assert (2 ^ 53 < 2 ^ 1024)%Z by reflexivity. nia. }
    rewrite (proj2 (Z.ltb_ge 1024 ex) Hex). rewrite Z.shiftl_mul_pow2 by auto. rewrite <- H2. apply Z.min_l. lia.
  - rewrite (proj2 (Z.leb_gt 0 ex) H1). rewrite Z.shiftr_div_pow2 by lia. rewrite <- H2.
    rewrite Z.div_mul by (apply Z.pow_nonzero; lia). apply Z.min_l. lia.
Qed.
Print Assumptions C09_position.
(** Negative numbers and NaN denote the first position. *)
Theorem C09_position_zero : forall x, fis_nan x = true \/ flt x f0 = true -> f64_to_usize x = 0%Z.
Proof. intros x [H|H]; destruct x as [s|[]| |[] m e]; try discriminate; try reflexivity. Qed.
Print Assumptions C09_position_zero.

(** ** C09 *)

Section C09.
Context (s : rt) (stk : list value) (i : nat) (l : list value).
Context (Harr : nth_error stk i = Some (VArray l)).

(** [push(mut a, x)] and [push_ref]: at the end; [push] puts a deep copy. *)
Theorem C09_push : forall n item x y, r_stack s = stk ++ [VRef i; item] ->
  denotes (set_stack (stk ++ [VRef i]) s) item x -> deep_clone n (stk ++ [VRef i]) x = DOk y ->
  exists stk', array_push n s = Ok tt (set_stack stk' s) /\ only_array i (l ++ [y]) stk stk'.
Proof.
  intros n item x y Hs D C. exists (list_set i (VArray (l ++ [y])) stk). split; [|eapply set_only; eauto].
  unfold array_push. unfold bind at 1. rewrite (pop_run s (stk ++ [VRef i]) item) by (rewrite Hs, <- app_assoc; reflexivity).
  unfold bind at 1. rewrite (getv_run _ _ _ D). unfold bind at 1, deep. simpl. rewrite C.
  unfold bind at 1. rewrite (pop_run _ stk (VRef i)) by reflexivity. rewrite set_set.
  unfold push_core. eapply at_array_run; eauto.
Qed.
Theorem C09_push_ref : forall item, r_stack s = stk ++ [VRef i; item] ->
  exists stk', array_push_ref s = Ok tt (set_stack stk' s) /\ only_array i (l ++ [item]) stk stk'.
Proof.
  intros item Hs. exists (list_set i (VArray (l ++ [item])) stk). split; [|eapply set_only; eauto].
  unfold array_push_ref. unfold bind at 1. rewrite (pop_run s (stk ++ [VRef i]) item) by (rewrite Hs, <- app_assoc; reflexivity).
  unfold bind at 1. rewrite (pop_run _ stk (VRef i)) by reflexivity. rewrite set_set.
  unfold push_core. eapply at_array_run; eauto.
Qed.

Lemma insert_ok : forall p x, pos_of p <= length l -> inserted (pos_of p) x l (insert_at (pos_of p) x l).
Proof.
  intros p x H. exists (firstn (pos_of p) l), (skipn (pos_of p) l). rewrite firstn_skipn. split; auto. split; auto.
  apply firstn_length_le. auto.
Qed.
Lemma usize_nonneg : forall p, (0 <= f64_to_usize p)%Z.
Proof.
  intros p. unfold f64_to_usize. destruct p as [b|[]| |[] m e]; try lia; try (unfold USIZE_MAX; lia).
  apply Z.min_glb; [|unfold USIZE_MAX; lia]. destruct (0 <=? e)%Z; [destruct (1024 <? e)%Z; [unfold USIZE_MAX; lia|]|].
  - apply Z.shiftl_nonneg. lia.
  - apply Z.shiftr_nonneg. lia.
Qed.
Lemma insert_core_run : forall p x,
  insert_core (VRef i) p x (set_stack stk s) =
  (if Nat.leb (pos_of p) (length l) then Ok tt (set_stack (list_set i (VArray (insert_at (pos_of p) x l)) stk) s)
   else Err "Index out of bounds" (set_stack stk s)).
Proof.
  intros p x. unfold insert_core. pose proof (usize_nonneg p). destruct (Nat.leb_spec (pos_of p) (length l)) as [H1|H1].
  - eapply at_array_run; eauto. rewrite (proj2 (Z.ltb_ge _ _)); [reflexivity|]. unfold pos_of in H1. lia.
  - eapply at_array_fail; eauto. rewrite (proj2 (Z.ltb_lt _ _)); [reflexivity|]. unfold pos_of in H1. lia.
Qed.
(** [insert(mut a, p, x)]: at position [p], if not beyond the end; otherwise an error, and nothing
    changed. *)
Theorem C09_insert : forall n idx item p sec x y, r_stack s = stk ++ [VRef i; idx; item] ->
  denotes (set_stack (stk ++ [VRef i; idx]) s) item x -> deep_clone n (stk ++ [VRef i; idx]) x = DOk y ->
  denotes (set_stack (stk ++ [VRef i]) s) idx (VF64 p sec) ->
  (pos_of p <= length l -> exists stk' l', array_insert n s = Ok tt (set_stack stk' s) /\
     inserted (pos_of p) y l l' /\ only_array i l' stk stk') /\
  (length l < pos_of p -> exists e, array_insert n s = Err e (set_stack stk s)).
Proof.
  intros n idx item p sec x y Hs D C Dp.
  assert (array_insert n s = insert_core (VRef i) p y (set_stack stk s)) as ->.
  { unfold array_insert. unfold bind at 1. rewrite (pop_run s (stk ++ [VRef i; idx]) item) by (rewrite Hs, <- app_assoc; reflexivity).
    unfold bind at 1. rewrite (getv_run _ _ _ D). unfold bind at 1, deep. simpl. rewrite C.
    unfold bind at 1. rewrite (pop_run _ (stk ++ [VRef i]) idx) by (simpl; rewrite <- app_assoc; reflexivity). rewrite set_set.
    unfold bind at 1. rewrite (number_run _ _ _ _ Dp).
    unfold bind at 1. rewrite (pop_run _ stk (VRef i)) by reflexivity. rewrite set_set. reflexivity. }
  rewrite insert_core_run. split; intros H.
  - rewrite (proj2 (Nat.leb_le _ _) H). eexists _, _. split; [reflexivity|]. split; [apply insert_ok; auto|]. eapply set_only; eauto.
  - rewrite (proj2 (Nat.leb_gt _ _) H). eauto.
Qed.
Theorem C09_insert_ref : forall idx item p sec, r_stack s = stk ++ [VRef i; idx; item] ->
  denotes (set_stack (stk ++ [VRef i]) s) idx (VF64 p sec) ->
  (pos_of p <= length l -> exists stk' l', array_insert_ref s = Ok tt (set_stack stk' s) /\
     inserted (pos_of p) item l l' /\ only_array i l' stk stk') /\
  (length l < pos_of p -> exists e, array_insert_ref s = Err e (set_stack stk s)).
Proof.
  intros idx item p sec Hs Dp.
  assert (array_insert_ref s = insert_core (VRef i) p item (set_stack stk s)) as ->.
  { unfold array_insert_ref. unfold bind at 1. rewrite (pop_run s (stk ++ [VRef i; idx]) item) by (rewrite Hs, <- app_assoc; reflexivity).
    unfold bind at 1. rewrite (pop_run _ (stk ++ [VRef i]) idx) by (simpl; rewrite <- app_assoc; reflexivity). rewrite set_set.
    unfold bind at 1. rewrite (number_run _ _ _ _ Dp).
    unfold bind at 1. rewrite (pop_run _ stk (VRef i)) by reflexivity. rewrite set_set. reflexivity. }
  rewrite insert_core_run. split; intros H.
  - rewrite (proj2 (Nat.leb_le _ _) H). eexists _, _. split; [reflexivity|]. split; [apply insert_ok; auto|]. eapply set_only; eauto.
  - rewrite (proj2 (Nat.leb_gt _ _) H). eauto.
Qed.

Remark remove_split : forall (l1 : list value) x l2,
  firstn (length l1) (l1 ++ x :: l2) ++ skipn (S (length l1)) (l1 ++ x :: l2) = l1 ++ l2.
Proof. induction l1 as [|a l1 IH]; intros x l2; [reflexivity|]. simpl app. cbn [length firstn app]. f_equal. exact (IH x l2). Qed.

(** [pop(mut a)]: the last element; an error on an empty array. *)
Theorem C09_pop : r_stack s = stk ++ [VRef i] ->
  (forall l1 x, l = l1 ++ [x] -> exists stk', array_pop s = Ok x (set_stack stk' s) /\ only_array i l1 stk stk') /\
  (l = [] -> exists e, array_pop s = Err e (set_stack stk s)).
Proof.
  intros Hs. unfold array_pop. unfold bind. rewrite (pop_run _ stk (VRef i)) by auto. split.
  - intros l1 x Q. exists (list_set i (VArray l1) stk). split; [|eapply set_only; eauto].
    eapply at_array_run; eauto. rewrite Q, rev_app_distr. simpl. rewrite removelast_app by discriminate. simpl. rewrite app_nil_r. reflexivity.
  - intros Q. eexists. eapply at_array_fail; eauto. rewrite Q. reflexivity.
Qed.

Theorem C09_remove : forall idx p sec, r_stack s = stk ++ [VRef i; idx] ->
  denotes (set_stack (stk ++ [VRef i]) s) idx (VF64 p sec) ->
  (pos_of p < length l -> exists x stk' l', array_remove s = Ok x (set_stack stk' s) /\
     removed (pos_of p) x l l' /\ only_array i l' stk stk') /\
  (length l <= pos_of p -> exists e, array_remove s = Err e (set_stack stk s)).
Proof.
  intros idx p sec Hs Dp.
  match goal with |- (_ -> exists _ _ _, ?t = _ /\ _) /\ _ => assert (Q0 : t = at_array (VRef i) (fun l0 => if (Z.of_nat (length l0) <=? f64_to_usize p)%Z then fail "Index out of bounds"
      else match nth_error l0 (Z.to_nat (f64_to_usize p)) with Some x => ret (remove_at (Z.to_nat (f64_to_usize p)) l0, x) | None => panic "remove" end) (set_stack stk s)) end.
  { unfold array_remove. unfold bind at 1.
    rewrite (pop_run s (stk ++ [VRef i]) idx) by (rewrite Hs, <- app_assoc; reflexivity).
    unfold bind at 1. rewrite (number_run _ _ _ _ Dp). unfold bind at 1. rewrite (pop_run _ stk (VRef i)) by reflexivity. rewrite set_set. reflexivity. }
  rewrite Q0.
  pose proof (usize_nonneg p). split; intros H1.
  - destruct (nth_error l (pos_of p)) as [x|] eqn:Q; [|apply nth_error_None in Q; lia].
    destruct (nth_error_split l (pos_of p) Q) as (l1 & l2 & Hl & Hlen).
    exists x, (list_set i (VArray (l1 ++ l2)) stk), (l1 ++ l2). split; [|split; [exists l1, l2; auto|eapply set_only; eauto]].
    eapply at_array_run; eauto. rewrite (proj2 (Z.leb_gt _ _)); [|unfold pos_of in H1; lia].
    change (Z.to_nat (f64_to_usize p)) with (pos_of p). rewrite Q. unfold remove_at. rewrite <- Hlen, Hl, (remove_split l1 x l2). reflexivity.
  - eexists. eapply at_array_fail; eauto. rewrite (proj2 (Z.leb_le _ _)); [reflexivity|]. unfold pos_of in H1. lia.
Qed.

Theorem C09_reverse : r_stack s = stk ++ [VRef i] ->
  exists stk', array_reverse s = Ok tt (set_stack stk' s) /\ only_array i (rev l) stk stk'.
Proof.
  intros Hs. unfold array_reverse, bind. rewrite (pop_run _ stk (VRef i)) by auto. eexists. split; [eapply at_array_run; eauto; reflexivity|].
  eapply set_only; eauto.
Qed.
Theorem C09_clear : r_stack s = stk ++ [VRef i] ->
  exists stk', array_clear s = Ok tt (set_stack stk' s) /\ only_array i [] stk stk'.
Proof.
  intros Hs. unfold array_clear, bind. rewrite (pop_run _ stk (VRef i)) by auto. eexists. split; [eapply at_array_run; eauto; reflexivity|].
  eapply set_only; eauto.
Qed.
(** [swap(mut a, p, q)], both positions inside. *)
Theorem C09_swap : forall ip iq p q sp sq, r_stack s = stk ++ [VRef i; ip; iq] ->
  denotes (set_stack (stk ++ [VRef i]) s) iq (VF64 q sq) -> denotes (set_stack (stk ++ [VRef i]) s) ip (VF64 p sp) ->
  pos_of p < length l -> pos_of q < length l ->
  exists stk' l', array_swap s = Ok tt (set_stack stk' s) /\ swapped (pos_of p) (pos_of q) l l' /\ only_array i l' stk stk'.
Proof.
  intros ip iq p q sp sq Hs Dq Dp Hp Hq. unfold array_swap. unfold bind at 1.
  rewrite (pop_run s (stk ++ [VRef i; ip]) iq) by (rewrite Hs, <- app_assoc; reflexivity).
  unfold bind at 1. rewrite (pop_run _ (stk ++ [VRef i]) ip) by (simpl; rewrite <- app_assoc; reflexivity). rewrite set_set.
  unfold bind at 1. rewrite (number_run _ _ _ _ Dq). unfold bind at 1. rewrite (number_run _ _ _ _ Dp).
  unfold bind at 1. rewrite (pop_run _ stk (VRef i)) by reflexivity. rewrite set_set.
  pose proof (usize_nonneg p). pose proof (usize_nonneg q).
  destruct (nth_error l (pos_of p)) as [a|] eqn:Qa; [|apply nth_error_None in Qa; lia].
  destruct (nth_error l (pos_of q)) as [b|] eqn:Qb; [|apply nth_error_None in Qb; lia].
  exists (list_set i (VArray (list_set (pos_of q) a (list_set (pos_of p) b l))) stk), (list_set (pos_of q) a (list_set (pos_of p) b l)).
  split; [|split; [|eapply set_only; eauto]].
  - eapply at_array_run; eauto. cbv zeta. rewrite !(proj2 (Z.ltb_lt _ _)) by (unfold pos_of in *; lia). cbn [andb].
    change (Z.to_nat (f64_to_usize p)) with (pos_of p). change (Z.to_nat (f64_to_usize q)) with (pos_of q). rewrite Qa, Qb. reflexivity.
  - split; [rewrite !list_set_length; auto|]. intros k.
    destruct (Nat.eq_dec k (pos_of q)) as [->|Nq].
    + rewrite nth_set_eq by (rewrite list_set_length; auto). destruct (Nat.eqb_spec (pos_of q) (pos_of p)) as [E|E].
      * rewrite E in Qb. congruence.
      * rewrite Nat.eqb_refl. auto.
    + rewrite nth_set_ne by auto. rewrite (proj2 (Nat.eqb_neq _ _) Nq). destruct (Nat.eqb_spec k (pos_of p)) as [->|E].
      * rewrite nth_set_eq by auto. auto.
      * rewrite nth_set_ne by auto. auto.
Qed.
(** ... outside it is no error: the interpreter panics. *)
Theorem C09_swap_refuted : forall ip iq p q sp sq, r_stack s = stk ++ [VRef i; ip; iq] ->
  denotes (set_stack (stk ++ [VRef i]) s) iq (VF64 q sq) -> denotes (set_stack (stk ++ [VRef i]) s) ip (VF64 p sp) ->
  length l <= pos_of p \/ length l <= pos_of q -> array_swap s = Panic "swap".
Proof.
  intros ip iq p q sp sq Hs Dq Dp HO. unfold array_swap. unfold bind at 1.
  rewrite (pop_run s (stk ++ [VRef i; ip]) iq) by (rewrite Hs, <- app_assoc; reflexivity).
  unfold bind at 1. rewrite (pop_run _ (stk ++ [VRef i]) ip) by (simpl; rewrite <- app_assoc; reflexivity). rewrite set_set.
  unfold bind at 1. rewrite (number_run _ _ _ _ Dq). unfold bind at 1. rewrite (number_run _ _ _ _ Dp).
  unfold bind at 1. rewrite (pop_run _ stk (VRef i)) by reflexivity. rewrite set_set.
  unfold at_array, bind, slot. simpl. rewrite Harr. unfold pos_of in HO.
  pose proof (usize_nonneg p). pose proof (usize_nonneg q).
  destruct ((f64_to_usize p <? Z.of_nat (length l))%Z && (f64_to_usize q <? Z.of_nat (length l))%Z) eqn:Q; [|reflexivity].
  apply andb_prop in Q. destruct Q as [Q1 Q2]. apply Z.ltb_lt in Q1, Q2. lia.
Qed.
End C09.
Print Assumptions C09_push. Print Assumptions C09_push_ref. Print Assumptions C09_insert. Print Assumptions C09_insert_ref.
Print Assumptions C09_pop. Print Assumptions C09_remove. Print Assumptions C09_reverse. Print Assumptions C09_clear.
Print Assumptions C09_swap. Print Assumptions C09_swap_refuted.

Theorem C09_len : forall l, len (VArray l) = POk (vf64 (f_of_Z (Z.of_nat (length l)))).
Proof. reflexivity. Qed.
(** The length is exact, so it is a valid position to insert at. *)
Theorem C09_len_exact : forall l : list value, (Z.of_nat (length l) <= 2 ^ 53)%Z -> pos_of (f_of_Z (Z.of_nat (length l))) = length l.
Proof. intros l H. unfold pos_of. rewrite C09_position by lia. apply Nat2Z.id. Qed.
Print Assumptions C09_len_exact.

(** What does not refer to an array gives an error and only the arguments are consumed. *)
Theorem C09_not_array : forall s stk v, r_stack s = stk ++ [v] ->
  (forall i, v = VRef i -> exists w, nth_error stk i = Some w /\ forall l, w <> VArray l) ->
  exists e, array_pop s = Err e (set_stack stk s) /\ array_reverse s = Err e (set_stack stk s) /\
            array_clear s = Err e (set_stack stk s).
Proof.
  intros s stk v Hs Hv. exists "Expected reference to array".
  assert (forall A (f : list value -> M (list value * A)), at_array v f (set_stack stk s) = Err "Expected reference to array" (set_stack stk s)) as HA.
  { intros A f. unfold at_array. destruct v; try reflexivity. destruct (Hv i eq_refl) as (w & Hw & Hn).
    unfold bind, slot. simpl. rewrite Hw. destruct w; try reflexivity. exfalso. eapply Hn; reflexivity. }
  unfold array_pop, array_reverse, array_clear, bind. rewrite (pop_run _ stk v) by auto. rewrite !HA. auto.
Qed.
Print Assumptions C09_not_array.

(** Position -1 is not out of bounds: the first element is removed. *)
Theorem C09_negative_refuted :
  array_remove (RT 0 [VArray [VStr "a"; VStr "b"]; VRef 0; vf64 (f_of_Z (-1))] [] [] [] (World [] [] [])) =
  Ok (VStr "a") (RT 0 [VArray [VStr "b"]] [] [] [] (World [] [] [])).
Proof. vm_compute. reflexivity. Qed.

Definition O_ : math := Math (fun a _ => a) (fun a _ => a) (fun a _ => a) (fun a _ => a) (fun a _ => a) (fun _ a => a).
Definition std_ : env := std_env O_ 10 [Modl [] []] (fun _ _ => Panic "no") (fun _ _ => Panic "no") (fun _ _ _ => PErr "no")
  (fun _ _ => PErr "no") (fun _ => true).
(** a := ["x"]; b := "y"; push(mut a, b); insert(mut a, 1, "z"); swap(mut a, 0, 2); a *)
Example C09_example :
  exists s', eval std_ 20 (EBlock
    [decl "a" false (EArray [EVar (VStr "x")]); decl "b" false (EVar (VStr "y"));
     ECall (FVoid "push") "push" [loc "a" 2; loc "b" 2];
     ECall (FVoid "insert") "insert" [loc "a" 2; num 1; EVar (VStr "z")];
     ECall (FVoid "swap") "swap" [loc "a" 2; num 0; num 2];
     ECall (FRet "pop") "pop" [loc "a" 2]]) Right (RT 0 [] [Call "main" 0 0 0 0] [] [] (World [] [] [])) =
  Ok (Some (VStr "x"), FContinue) s'.
Proof. eexists. vm_compute. reflexivity. Qed.

(** ** C46 *)

(** [why] gives the path from the outermost loop inwards: the secret backwards. *)
Theorem C46_why : forall s stk v b sec, r_stack s = stk ++ [v] -> denotes (set_stack stk s) v (VBool b sec) ->
  (forall p, b = true -> sec = Some p -> why s = Ok (VArray (rev p)) (set_stack stk s)) /\
  (b = false \/ sec = None -> exists e, why s = Err e (set_stack stk s)).
Proof.
  intros s stk v b sec Hs D. unfold why, bind. rewrite (pop_run _ _ _ Hs), (getv_run _ _ _ D). split.
  - intros p -> ->. reflexivity.
  - intros [->| ->]; [eauto|]. destruct b; eauto.
Qed.
Print Assumptions C46_why.
Theorem C46_where : forall s stk v x sec, r_stack s = stk ++ [v] -> denotes (set_stack stk s) v (VF64 x sec) ->
  (forall p, fis_nan x = false -> sec = Some p -> where_ s = Ok (VArray (rev p)) (set_stack stk s)) /\
  (fis_nan x = true \/ sec = None -> exists e, where_ s = Err e (set_stack stk s)).
Proof.
  intros s stk v x sec Hs D. unfold where_, bind. rewrite (pop_run _ _ _ Hs), (getv_run _ _ _ D). split.
  - intros p -> ->. reflexivity.
  - intros [N| ->]; [|eauto]. destruct sec; [rewrite N|]; eauto.
Qed.
Print Assumptions C46_where.
(** A loop adds its own index in front of what the body's value explains ([path] is what C12 and C13
    attach to the result of a loop), and so does [explain_why]. *)
Theorem C46_outermost_first : forall sec i p, path sec i = Some p ->
  rev p = i :: match sec with Some q => rev q | None => [] end.
Proof.
  intros sec i p H. unfold path in H. inversion H. rewrite rev_app_distr. simpl. destruct sec; reflexivity.
Qed.
Print Assumptions C46_outermost_first.
Theorem C46_explain : forall n s stk v w w', r_stack s = stk ++ [v; w] -> deep_clone n stk w = DOk w' ->
  (forall b sec, denotes (set_stack stk s) v (VBool b sec) -> explain_why n s = Ok (VBool b (path sec w')) (set_stack stk s)) /\
  (forall x sec, denotes (set_stack stk s) v (VF64 x sec) -> explain_where n s = Ok (VF64 x (path sec w')) (set_stack stk s)).
Proof.
  intros n s stk v w w' Hs C. 
  assert (r_stack s = (stk ++ [v]) ++ [w]) as Hs' by (rewrite Hs, <- app_assoc; reflexivity).
  split; intros x sec D; [unfold explain_why|unfold explain_where]; unfold bind; rewrite (pop_run _ _ _ Hs');
    rewrite (pop_run _ stk v) by reflexivity; rewrite set_set, (getv_run _ _ _ D); unfold deep; simpl; rewrite C; unfold path;
    destruct sec; reflexivity.
Qed.
Print Assumptions C46_explain.
(** Conjunction and disjunction, when both sides are evaluated: the value is that of the connective and
    the explanation is that of the left side; what is not a bool is an error and both are consumed. *)
Theorem C46_logic : forall s stk a b va vb, r_stack s = stk ++ [a; b] ->
  denotes (set_stack stk s) a va -> denotes (set_stack stk s) b vb ->
  (forall x sec y sec', va = VBool x sec -> vb = VBool y sec' ->
     and_also s = Ok (VBool (andb x y) sec) (set_stack stk s) /\
     or_else s = Ok (VBool (orb x y) sec) (set_stack stk s)) /\
  ((forall x sec, va <> VBool x sec) \/ (forall y sec, vb <> VBool y sec) ->
     exists e, and_also s = Err e (set_stack stk s) /\ or_else s = Err e (set_stack stk s)).
Proof.
  intros s stk a b va vb Hs Da Db.
  assert (r_stack s = (stk ++ [a]) ++ [b]) as Hs' by (rewrite Hs, <- app_assoc; reflexivity).
  assert (forall op, logic op s = match va, vb with
    | VBool x sec, VBool y _ => Ok (VBool (op x y) sec) (set_stack stk s)
    | _, _ => Err "Expected `bool`" (set_stack stk s) end) as L.
  { intros op. unfold logic, bind. rewrite (pop_run _ _ _ Hs'), (pop_run _ stk a) by reflexivity.
    rewrite set_set, (getv_run _ _ _ Da), (getv_run _ _ _ Db). destruct va; try reflexivity. destruct vb; reflexivity. }
  unfold and_also, or_else. rewrite !L. split.
  - intros x sec y sec' -> ->. auto.
  - intros H. exists "Expected `bool`". destruct va; auto. destruct vb; auto. exfalso. destruct H as [H | H]; eapply H; reflexivity.
Qed.
Print Assumptions C46_logic.
(** [why((any i 4 { 1 < i }) && true)] is [[2]]. *)
Example C46_logic_example :
  exists s', eval std_ 20 (ECall (FRet "why") "why" [ECall (FLazy "and_also") "and_also"
    [EForN KAny None "i" None (num 4) [less_ (num 1) (loc "i" 1)]; EVar (vbool true)]]) Right
    (RT 0 [] [Call "main" 0 0 0 0] [] [] (World [] [] [])) =
  Ok (Some (VArray [vf64 (f_of_Z 2)]), FContinue) s'.
Proof. eexists. vm_compute. reflexivity. Qed.
(** [why(any i 4 { any j 2 { 1 < i } })] is [[2, 0]]. *)
Example C46_example :
  exists s', eval std_ 20 (ECall (FRet "why") "why" [EForN KAny None "i" None (num 4)
    [EForN KAny None "j" None (num 2) [less_ (num 1) (loc "i" 2)]]]) Right (RT 0 [] [Call "main" 0 0 0 0] [] [] (World [] [] [])) =
  Ok (Some (VArray [vf64 (f_of_Z 2); vf64 (f_of_Z 0)]), FContinue) s'.
Proof. eexists. vm_compute. reflexivity. Qed.
