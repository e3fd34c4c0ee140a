(** * C23: current objects. *)
From Coq Require Import String List ZArith Bool Arith Lia.
From Verif Require Import Float64 Syntax InterpModel WfSpec BalanceBase BalanceProofs Samples P_Path P_Balance.
Import ListNotations.
Local Open Scope string_scope.
Local Open Scope nat_scope.
Local Open Scope list_scope.

(** The live declarations, newest first. *)
Definition newest (cu : list (string * nat)) (x : string) (i : nat) : Prop :=
  exists a b, cu = a ++ (x, i) :: b /\ ~ In x (map fst a).
Definition absent (cu : list (string * nat)) (x : string) : Prop := ~ In x (map fst cu).
Lemma assoc_newest : forall cu x i, newest cu x i <-> assoc x cu = Some i.
Proof.
  induction cu as [|[y j] cu IH]; intros x i; split; intros H; cbn [assoc] in *.
  - destruct H as ([|? a] & b & Q & _); discriminate.
  - discriminate.
  - destruct H as ([|[z k] a] & b & Q & N); inversion Q; subst.
    + rewrite String.eqb_refl. reflexivity.
    + destruct (String.eqb_spec z x) as [->|D]; [exfalso; apply N; left; reflexivity|]. apply IH. exists a, b. split; auto. intros F. apply N. right. exact F.
  - destruct (String.eqb_spec y x) as [->|D].
    + inversion H; subst. exists [], cu. split; auto.
    + apply IH in H. destruct H as (a & b & -> & N). exists ((y, j) :: a), b. split; auto. intros [F|F]; [exact (D F)|exact (N F)].
Qed.
Lemma assoc_absent : forall cu x, absent cu x <-> assoc x cu = None.
Proof.
  intros cu x. split; intros H.
  - destruct (assoc x cu) as [i|] eqn:Q; auto. apply assoc_newest in Q. destruct Q as (a & b & -> & _). exfalso. apply H.
    rewrite map_app. apply in_or_app. right. left. reflexivity.
  - intros F. induction cu as [|[y j] cu IH]; [destruct F|]. cbn [assoc] in H. destruct (String.eqb_spec y x); [discriminate|]. destruct F; [contradiction|auto].
Qed.

(** The arguments evaluated in order and put on the stack. *)
Inductive passed (E : env) (n : nat) : list expr -> rt -> list value -> rt -> Prop :=
| Pa_nil : forall s, passed E n [] s [] s
| Pa_cons : forall e es s x s1 xs s', eval E n e Right s = Ok (Some x, FContinue) s1 ->
    passed E n es (set_stack (r_stack s1 ++ [x]) s1) xs s' -> passed E n (e :: es) s (x :: xs) s'.
Definition strict (f : func) : Prop := Forall (fun l => l = []) (fn_lazy f).
Lemma passed_run : forall E n args inv i s xs s' k, Forall (fun l => l = []) inv -> passed E n args s xs s' ->
  push_loaded (eval E n) inv i args k s = k s'.
Proof.
  intros E n args inv i s xs s' k HI H. revert i. induction H; intros i; cbn [push_loaded]; auto.
  unfold bind at 1. rewrite H. unfold bind at 1. unfold lazy_check. destruct (nth_error inv i) as [l|] eqn:N.
  - rewrite Forall_forall in HI. apply nth_error_In in N. rewrite (HI _ N). unfold ret. unfold bind, push, modify. apply IHpassed.
  - unfold ret. unfold bind, push, modify. apply IHpassed.
Qed.

Lemma currents_missing : forall names s, Exists (absent (r_currents s)) names ->
  exists s', push_currents names s = Err "could not find current variable" s'.
Proof.
  intros names. induction names as [|c names IH]; intros s H; [inversion H|]. cbn [push_currents]. unfold bind at 1, gets at 1.
  destruct (assoc c (r_currents s)) as [i|] eqn:Q.
  - inversion H; subst; [exfalso; apply assoc_absent in H1; congruence|].
    unfold bind, stack_len, gets, push_local, push, modify. apply IH. exact H1.
  - eexists. reflexivity.
Qed.
(** What the callee is given. *)
Fixpoint given (names : list string) (n : nat) (ls : list (string * nat)) : list (string * nat) :=
  match names with [] => ls | c :: names => given names (S n) ((c, n) :: ls) end.
Lemma currents_found : forall names is s, Forall2 (newest (r_currents s)) names is ->
  push_currents names s = Ok tt (set_stack (r_stack s ++ map VRef is) (set_locals (given names (length (r_stack s)) (r_locals s)) s)).
Proof.
  intros names. induction names as [|c names IH]; intros is s H; inversion H as [|c' i names' is' H1 H2]; subst; cbn [push_currents given map].
  - rewrite app_nil_r. destruct s; reflexivity.
  - unfold bind at 1, gets at 1. apply assoc_newest in H1. rewrite H1. unfold bind, stack_len, gets, push_local, push, modify.
    rewrite (IH is'); [|exact H2]. cbn. f_equal. rewrite app_length. cbn. rewrite Nat.add_1_r, <- app_assoc. reflexivity.
Qed.
Lemma deep_all_frame : forall n vs s,
  match deep_all n vs s with Ok _ s' => s' = s | Err _ _ => False | _ => True end.
Proof.
  intros n vs s. induction vs as [|v vs IH]; cbn [deep_all]; [reflexivity|].
  unfold bind at 1. unfold deep. destruct (deep_clone n (r_stack s) v); auto.
  unfold bind. destruct (deep_all n vs s); auto.
Qed.
Lemma send_args_frame : forall n fi st s,
  match send_args n fi st s with Ok _ s' => exists w, s' = set_world w s | Err _ _ => False | _ => True end.
Proof.
  intros n fi st s. unfold send_args, bind, gets. set (chans := map snd _). clearbody chans. destruct chans as [|c chans].
  - exists (r_world s). destruct s; reflexivity.
  - pose proof (deep_all_frame n (skipn st (r_stack s)) s) as F. destruct (deep_all n (skipn st (r_stack s)) s); auto. subst. eexists. reflexivity.
Qed.

(** The function a call in state [s] means. *)
Definition callee_of (E : env) (z : Z) (s : rt) (fi : nat) (f : func) : Prop :=
  (z + Z.of_nat (match r_calls s with [] => 0 | c :: _ => c_index c end) = Z.of_nat fi)%Z /\
  exists m, nth_error (e_mods E) (r_mod s) = Some m /\ nth_error (m_funs m) fi = Some f.
Definition with_slot (f : func) (s : rt) : rt := if fn_ret f then set_stack (r_stack s ++ [VReturn]) s else s.

(** If the function uses a current object of which no declaration is live, the call fails. *)
Theorem C23_missing : forall E n z name args sd s fi f xs s1,
  callee_of E z s fi f -> strict f -> passed E n args (with_slot f s) xs s1 -> Exists (absent (r_currents s1)) (fn_currents f) ->
  exists e s', eval E (S n) (ECall (FLoaded z) name args) sd s = Err e s'.
Proof.
  intros E n z name args sd s fi f xs s1 (Z1 & m & M1 & F1) HS P X.
  destruct (currents_missing _ _ X) as (s' & Q). exists "could not find current variable", s'.
  cbn [eval expression call_internal]. unfold call_loaded. unfold bind at 1, top_index, gets at 1. cbv zeta. rewrite Z1.
  unfold bind at 1, gets at 1. rewrite M1. replace (Z.of_nat fi <? 0)%Z with false by (symmetry; apply Z.ltb_ge; lia).
  rewrite Nat2Z.id, F1.
  assert ((if fn_ret f then push VReturn else ret tt) s = Ok tt (with_slot f s)) as W.
  { unfold with_slot. destruct (fn_ret f); reflexivity. }
  eapply eq_trans; [apply bind_ok; exact W|].
  unfold bind at 1, stack_len, gets at 1. unfold bind at 1, local_len, gets at 1. unfold bind at 1, current_len, gets at 1.
  rewrite (passed_run E n args _ 0 _ xs s1 _ HS P). unfold bind. rewrite Q. reflexivity.
Qed.
Print Assumptions C23_missing.
(** Otherwise each name means the newest live declaration, whoever made it: the body runs with a
    reference to that slot after the arguments. The first disjunct is the only one in which
    the body runs; the others are panics and non-termination while copying arguments to channels. *)
Theorem C23_newest : forall E n z name args sd s fi f xs s1 is,
  callee_of E z s fi f -> strict f -> passed E n args (with_slot f s) xs s1 -> Forall2 (newest (r_currents s1)) (fn_currents f) is ->
  (exists s2, r_stack s2 = r_stack s1 ++ map VRef is /\ r_currents s2 = r_currents s1 /\ r_mod s2 = r_mod s1 /\
     (exists c, r_calls s2 = c :: r_calls s1) /\
     eval E (S n) (ECall (FLoaded z) name args) sd s =
     bind (block (eval E n) (fn_block f)) (fun r => bind (body_flow (snd r)) (fun _ => bind (pop_fn name) (fun _ =>
       finish (caller_source E) (fn_ret f) (fst r)))) s2) \/
  (exists m, eval E (S n) (ECall (FLoaded z) name args) sd s = Panic m) \/
  eval E (S n) (ECall (FLoaded z) name args) sd s = OOF.
Proof.
  intros E n z name args sd s fi f xs s1 is (Z1 & m & M1 & F1) HS P X.
  set (out := eval E (S n) (ECall (FLoaded z) name args) sd s).
  set (st := length (r_stack (with_slot f s))). set (lc := length (r_locals (with_slot f s))). set (cu := length (r_currents (with_slot f s))).
  assert (out = bind (send_args n fi st) (fun _ => bind (push_fn (Call name fi st lc cu)) (fun _ =>
    bind (if fn_ret f then push_local "return" (st - 1) else ret tt) (fun _ => bind (push_arg_locals st 0 (fn_args f)) (fun _ =>
    bind (block (eval E n) (fn_block f)) (fun r => bind (body_flow (snd r)) (fun _ => bind (pop_fn name) (fun _ =>
       finish (caller_source E) (fn_ret f) (fst r))))))))
    (set_stack (r_stack s1 ++ map VRef is) (set_locals (given (fn_currents f) (length (r_stack s1)) (r_locals s1)) s1))) as Q.
  { subst out. cbn [eval expression call_internal]. unfold call_loaded. unfold bind at 1, top_index, gets at 1. cbv zeta. rewrite Z1.
    unfold bind at 1, gets at 1. rewrite M1. replace (Z.of_nat fi <? 0)%Z with false by (symmetry; apply Z.ltb_ge; lia).
    rewrite Nat2Z.id, F1.
    assert ((if fn_ret f then push VReturn else ret tt) s = Ok tt (with_slot f s)) as W.
    { unfold with_slot. destruct (fn_ret f); reflexivity. }
    eapply eq_trans; [apply bind_ok; exact W|].
    unfold bind at 1, stack_len, gets at 1. unfold bind at 1, local_len, gets at 1. unfold bind at 1, current_len, gets at 1.
    rewrite (passed_run E n args _ 0 _ xs s1 _ HS P). eapply eq_trans; [apply bind_ok; exact (currents_found _ _ _ X)|]. reflexivity. }
  clearbody out. set (s3 := set_stack _ _) in Q. pose proof (send_args_frame n fi st s3) as SF. unfold bind at 1 in Q.
  destruct (send_args n fi st s3) as [u s4|e s4|m'|].
  - destruct SF as (w & ->). left.
    assert (forall names i s, push_arg_locals st i names s = Ok tt (set_locals
      ((fix go i names ls := match names with [] => ls | a :: names => go (S i) names ((a, st + i) :: ls) end) i names (r_locals s)) s)) as AL.
    { intros names. induction names as [|a names IH]; intros i s9; cbn [push_arg_locals]; [destruct s9; reflexivity|].
      unfold bind, push_local, modify. rewrite IH. reflexivity. }
    unfold bind at 1, push_fn, modify in Q.
    destruct (fn_ret f); cbn in Q; unfold bind at 1 in Q; unfold push_local, modify, ret in Q; unfold bind at 1 in Q; rewrite AL in Q;
      (eexists; split; [|split; [|split; [|split; [|exact Q]]]]; [reflexivity|reflexivity|reflexivity|eexists; reflexivity]).
  - destruct SF.
  - right. left. eauto.
  - right. right. auto.
Qed.
Print Assumptions C23_newest.
(** In the body the name at place [k] of the list reads as a reference to that slot. *)
Theorem C23_use : forall E n stk (names : list string) is k c i s c0 cs,
  e_look E = BySlot -> length names = length is -> nth_error names k = Some c -> nth_error is k = Some i ->
  r_stack s = stk ++ map VRef is -> r_calls s = c0 :: cs -> c_local c0 <= length (r_locals s) ->
  eval E (S n) (EItem (Item c (Some (length names - k)) false false [] [])) Right s = Ok (Some (VRef i), FContinue) s.
Proof.
  intros E n stk names is k c i s c0 cs HD HL Nk Ni HS HC Hl. cbn [eval expression item_]. unfold bind at 1, find_slot. rewrite HD. unfold find_by_slot. rewrite HC.
  rewrite (proj2 (Nat.leb_le _ _) Hl).
  assert (k < length is) as Hk by (apply nth_error_Some; congruence).
  assert (length (r_stack s) = length stk + length is) as LS by (rewrite HS, app_length, map_length; auto).
  rewrite (proj2 (Nat.leb_le _ _)) by lia.
  replace (length (r_stack s) - (length names - k)) with (length stk + k) by lia. unfold bind at 1, slot. rewrite HS.
  rewrite nth_error_app2 by lia. replace (length stk + k - length stk) with k by lia.
  rewrite (map_nth_error VRef k is Ni). reflexivity.
Qed.
Print Assumptions C23_use.
(** [~ x := e] makes the new variable the newest declaration of [x]; others keep their meaning. *)
Theorem C23_declare : forall E n x sid right s b s1 v,
  eval E n right Right s = Ok (Some b, FContinue) s1 ->
  (b = v /\ (forall r, b <> VRef r)) \/ (exists r, b = VRef r /\ nth_error (r_stack s1) r = Some v) ->
  exists s', eval E (S n) (EAssign OpAssign (EItem (Item x sid true false [] [])) right) Right s = Ok (None, FContinue) s' /\
    r_stack s' = r_stack s1 ++ [v] /\ newest (r_currents s') x (length (r_stack s1)) /\
    forall y i, y <> x -> (newest (r_currents s') y i <-> newest (r_currents s1) y i).
Proof.
  intros E n x sid right s b s1 v Hr Hb.
  assert (match b with VRef i => slot i | _ => ret b end s1 = Ok v s1) as G.
  { destruct Hb as [[-> NR]|(r0 & -> & N0)]; [destruct v; try reflexivity; exfalso; eapply NR; reflexivity|]. unfold slot. rewrite N0. auto. }
  assert (assign E (eval E n) OpAssign (EItem (Item x sid true false [] [])) right s = Ok (None, FContinue)
    (set_stack (r_stack s1 ++ [v]) (set_currents ((x, length (r_stack s1)) :: r_currents s1) (set_locals ((x, length (r_stack s1)) :: r_locals s1) s1)))) as A.
  { unfold assign. eapply eq_trans; [apply bind_ok; exact Hr|]. cbv beta iota. eapply eq_trans; [apply bind_ok; exact G|]. reflexivity. }
  eexists. split; [exact A|]. cbn. split; auto. split.
  - exists [], (r_currents s1). split; auto.
  - intros y i D. rewrite !assoc_newest. cbn. destruct (String.eqb_spec x y); [congruence|tauto].
Qed.
Print Assumptions C23_declare.
(** Declarations end with their block, loop, function: after anything but the declaration itself the
    live declarations are those there were before. Missing in the whole: what [wf] excludes, see C16;
    [C23_loop_refuted] and [C23_link_refuted] show it is false there. *)
Theorem C23_scope_partial : forall E arity n md fi cs e sd s x s',
  wf_mods false E arity -> ext_ok false E arity ->
  wf false E arity md fi [] cs e -> wf_state false E arity s -> r_mod s = md -> top_of s = fi ->
  eval E n e sd s = Ok (x, FContinue) s' ->
  (forall nm sid tf tids r, e <> EAssign OpAssign (EItem (Item nm sid true tf [] tids)) r) ->
  r_currents s' = r_currents s.
Proof.
  intros E arity n md fi cs e sd s x s' HM HX Hw Hs Hmd Hfi He NA.
  destruct (C16_balanced_partial E arity n md fi cs e sd s x s' HM HX Hw Hs Hmd Hfi He) as (_ & _ & H).
  destruct e; try (apply H); try (destruct H as (_ & _ & _ & H); exact H).
  destruct op; try (apply H). destruct e1; try (apply H). destruct it as [nm sid cur tf ids tids]. destruct ids; [|destruct cur; apply H].
  destruct cur; [exfalso; eapply NA; reflexivity|]. apply H.
Qed.
Print Assumptions C23_scope_partial.
(** Whatever the body does, a block keeps no declaration made inside. *)
Theorem C23_block : forall E n es sd s r s', eval E (S n) (EBlock es) sd s = Ok r s' -> length (r_currents s') <= length (r_currents s).
Proof.
  intros E n es sd s r s' H. cbn [eval expression] in H. unfold block in H. unfold bind, stack_len, local_len, current_len, gets in H.
  destruct (block_go (eval E n) es None s) as [r1 s1| | |]; try discriminate. unfold trunc_stack, trunc_locals, trunc_currents, modify, ret in H.
  inversion H; subst. cbn. unfold trunc_top. rewrite skipn_length. lia.
Qed.
Print Assumptions C23_block.

(** get() ~ x -> x + 0 is called by middle(), which is called where x is declared twice. *)
Definition get_ : func := Func "get" [] [] ["x"] [add_ (loc "x" 1) (num 0)] true.
Definition mid_ : func := Func "middle" [] [] [] [ECall (FLoaded (-1)) "get" []] true.
Example C23_example :
  (exists s', eval (env_ [get_; mid_; Func "main" [] [] [] [] false]) 30
     (EBlock [decl "x" true (num 1); decl "x" true (num 2); EBlock [decl "x" true (num 3)]; ECall (FLoaded (-1)) "middle" []]) Right
     (RT 0 [] [Call "main" 2 0 0 0] [] [] (World [] [] [])) = Ok (Some (vf64 (f_of_Z 2)), FContinue) s') /\
  (exists e s', eval (env_ [get_; mid_; Func "main" [] [] [] [] false]) 30
     (EBlock [EBlock [decl "x" true (num 3)]; ECall (FLoaded (-1)) "middle" []]) Right
     (RT 0 [] [Call "main" 2 0 0 0] [] [] (World [] [] [])) = Err e s').
Proof. split; eexists; [|eexists]; vm_compute; reflexivity. Qed.
(** A current object declared in the header of a loop outlives it, and afterwards means whatever
    variable has got its slot (mod.rs for_expr does not truncate [current_stack]).
    for ~ x := 0; x < 2; x += 1 {} y := 9; get(): 9 *)
Theorem C23_loop_refuted :
  exists s', eval (env_ [get_; Func "main" [] [] [] [] false]) 30
     (EBlock [EFor None (decl "x" true (num 0)) (less_ (loc "x" 1) (num 2)) (EAssign OpAdd (loc "x" 1) (num 1)) [];
              decl "y" false (num 9); ECall (FLoaded (-1)) "get" []]) Right
     (RT 0 [] [Call "main" 1 0 0 0] [] [] (World [] [] [])) = Ok (Some (vf64 (f_of_Z 9)), FContinue) s'.
Proof. eexists. vm_compute. reflexivity. Qed.
(** The same for an object declared directly in a [link] inside a [link] loop. *)
Theorem C23_link_refuted :
  exists s', eval (env_ [get_; Func "main" [] [] [] [] false]) 30
     (EBlock [EForN KLink None "i" None (num 2) [ELink [decl "x" true (num 7); num 1]];
              decl "y" false (num 8); decl "z" false (num 9); ECall (FLoaded (-1)) "get" []]) Right
     (RT 0 [] [Call "main" 1 0 0 0] [] [] (World [] [] [])) = Ok (Some (vf64 (f_of_Z 9)), FContinue) s'.
Proof. eexists. vm_compute. reflexivity. Qed.
