(** * C34, C16, C19, C22: the call stack, for every program. *)
From Coq Require Import String List ZArith Bool Arith Lia.
From Verif Require Import Float64 Syntax InterpModel SyntaxProofs BalanceBase CallsProofs Samples.
Import ListNotations.
Local Open Scope string_scope.
Local Open Scope nat_scope.
Local Open Scope list_scope.
Local Notation wpq := (wp anyp).

(** The record of function [i] is on top. *)
Definition running (i : nat) (s : rt) : Prop := exists c cs, r_calls s = c :: cs /\ c_index c = i.

(** External functions leave the module and the call stack alone. *)
Definition tame (E : env) : Prop := (forall f, keep (e_void E f)) /\ (forall f, keep (e_ret E f)).

(** Evaluating any expression, also an ill-formed one, changes neither the module nor the call
    stack; when it fails, records are at most added. *)
Theorem C34_frame : forall E n e sd s, tame E ->
  match eval E n e sd s with
  | Ok _ s' => r_mod s' = r_mod s /\ r_calls s' = r_calls s
  | Err _ s' => r_mod s' = r_mod s /\ exists l, r_calls s' = l ++ r_calls s
  | _ => True
  end.
Proof.
  intros E n e sd s [T1 T2]. pose proof (eval_keep E T1 T2 n e sd s) as K. unfold wp in K.
  destruct (eval E n e sd s); auto; destruct K as (A & B & _); auto.
Qed.
Print Assumptions C34_frame.

Definition agree (i : nat) (ev ev' : expr -> side -> M res) (e : expr) : Prop :=
  forall sd s, running i s -> ev e sd s = ev' e sd s.

Lemma running_kept : forall i s s', running i s -> kept s s' -> running i s'.
Proof. intros i s s' (c & cs & H1 & H2) (_ & K & _). exists c, cs. split; congruence. Qed.
Lemma bind_agree : forall {A B} i (m m' : M A) (k k' : A -> M B) s, keep m -> m s = m' s ->
  (forall a s', running i s' -> k a s' = k' a s') -> running i s -> bind m k s = bind m' k' s.
Proof.
  intros A B i m m' k k' s Hm E Hk Hs. unfold bind. rewrite <- E. pose proof (Hm s) as K. unfold wp in K.
  destruct (m s) as [a s'| | |]; auto. apply Hk. eapply running_kept; eauto.
Qed.
Lemma push_loaded_agree : forall i ev ev' inv args j k k' s, (forall e sd, keep (ev e sd)) ->
  Forall (agree i ev ev') args -> (forall s', running i s' -> k s' = k' s') -> running i s ->
  push_loaded ev inv j args k s = push_loaded ev' inv j args k' s.
Proof.
  intros i ev ev' inv args. induction args as [|e args IH]; intros j k k' s Hk Ha Hkk Hs; cbn [push_loaded]; auto.
  apply Forall_cons_iff in Ha. destruct Ha as [He Ha].
  apply (bind_agree i); auto. intros [x fl] s1 H1. destruct x as [x|], fl; auto.
  apply (bind_agree i); auto; [apply keep_lazy_check|].
  intros [y|] s2 H2; auto. apply (bind_agree i); auto. apply keep_push.
Qed.
Lemma block_go_agree : forall i ev ev' es l s, (forall e sd, keep (ev e sd)) -> Forall (agree i ev ev') es ->
  running i s -> block_go ev es l s = block_go ev' es l s.
Proof.
  intros i ev ev' es. induction es as [|e es IH]; intros l s Hk Ha Hs; cbn [block_go]; auto.
  apply Forall_cons_iff in Ha. destruct Ha as [He Ha]. apply (bind_agree i); auto.
  intros [x fl] s1 H1. destruct fl; auto.
Qed.
Lemma bind_first : forall {A B} (m m' : M A) (k : A -> M B) s, m s = m' s -> bind m k s = bind m' k s.
Proof. intros A B m m' k s H. unfold bind. rewrite H. reflexivity. Qed.
Lemma block_agree : forall i ev ev' es s, (forall e sd, keep (ev e sd)) -> Forall (agree i ev ev') es ->
  running i s -> block ev es s = block ev' es s.
Proof.
  intros i ev ev' es s Hk Ha Hs. unfold block.
  do 3 (apply (bind_agree i); [apply keep_gets|reflexivity| |exact Hs]; clear s Hs; intros ? s Hs).
  apply bind_first. eapply block_go_agree; eauto.
Qed.

(** A call of a loaded function evaluates its arguments while the caller's record is on top and
    the body of the callee while the callee's record is on top: what the evaluator does with them in
    other states has no influence. The indices stored in the body are therefore added to the
    position of the function that they were computed for. *)
Theorem C34_call : forall E ev ev' n i z args name md m f, (forall e sd, keep (ev e sd)) ->
  nth_error (e_mods E) md = Some m -> (0 <= z + Z.of_nat i)%Z ->
  nth_error (m_funs m) (Z.to_nat (z + Z.of_nat i)) = Some f ->
  Forall (agree i ev ev') args -> Forall (agree (Z.to_nat (z + Z.of_nat i)) ev ev') (fn_block f) ->
  forall s, running i s -> r_mod s = md ->
  call_loaded E ev n args z name false s = call_loaded E ev' n args z name false s.
Proof.
  intros E ev ev' n i z args name md m f Hk Hm Hz Hf Ha Hb s Hs Hmd. unfold call_loaded.
  assert (top_index s = Ok i s) as T.
  { destruct Hs as (c & cs & H1 & H2). unfold top_index, gets. rewrite H1, H2. reflexivity. }
  unfold bind at 1. rewrite T. symmetry. unfold bind at 1. rewrite T. cbv beta iota zeta. symmetry.
  unfold bind at 1. symmetry. unfold bind at 1. unfold gets at 1 2. cbv beta iota. symmetry. rewrite Hmd, Hm.
  destruct (Z.ltb_spec (z + Z.of_nat i) 0); [lia|]. rewrite Hf.
  apply (bind_agree i); [destruct (fn_ret f); [apply keep_push|apply keep_ret]|reflexivity| |exact Hs]. clear s Hs T Hmd. intros _ s Hs.
  do 3 (apply (bind_agree i); [apply keep_gets|reflexivity| |exact Hs]; clear s Hs; intros ? s Hs).
  apply (push_loaded_agree i); auto. clear s Hs. intros s Hs.
  apply (bind_agree i); [apply keep_push_currents|reflexivity| |exact Hs]. clear s Hs. intros _ s Hs.
  apply (bind_agree i); [apply keep_send_args|reflexivity| |exact Hs]. clear s Hs. intros _ s Hs.
  unfold bind at 1. symmetry. unfold bind at 1. unfold push_fn at 1 2. unfold modify. cbv beta iota. symmetry.
  match goal with |- _ ?s1 = _ => assert (running (Z.to_nat (z + Z.of_nat i)) s1) as H1 by (eexists; eexists; split; reflexivity);
    generalize dependent s1 end. clear s Hs. intros s Hs.
  set (j := Z.to_nat (z + Z.of_nat i)) in *.
  apply (bind_agree j); [destruct (fn_ret f); [apply keep_push_local|apply keep_ret]|reflexivity| |exact Hs]. clear s Hs. intros _ s Hs.
  apply (bind_agree j); [apply keep_push_arg_locals|reflexivity| |exact Hs]. clear s Hs. intros _ s Hs.
  apply bind_first. apply (block_agree j); auto.
Qed.
Print Assumptions C34_call.

(** A closure records the function that is running where it is made and the module; its body is
    evaluated with both. *)
Theorem C34_closure : forall E ev n args cur body i s v s', (forall e sd, keep (ev e sd)) -> running i s ->
  expression E ev n (EClosure (Closure args cur body)) Right s = Ok (Some v, FContinue) s' ->
  exists b, v = VClosure (Closure args cur b) (r_mod s) i.
Proof.
  intros E ev n args cur body i s v s' Hk (c & cs & H1 & H2) H. cbn [expression closure_] in H.
  unfold bind at 1, top_index at 1, gets at 1 in H. rewrite H1 in H. cbv beta iota in H.
  pose proof (proj1 (proj2 (keep_grab ev Hk)) body n 1 s) as K. unfold wp in K. unfold bind at 1 in H.
  destruct (grab_expr ev n 1 body s) as [[b|x] s1| | |]; try discriminate.
  - cbn in H. injection H as <- <-. exists b. destruct K as (K & _). rewrite K, H2. reflexivity.
Qed.
Print Assumptions C34_closure.
Theorem C34_closure_call : forall E ev ev' it args j md cargs cur body s x s1, (forall e sd, keep (ev e sd)) ->
  item_ E ev it Right s = Ok (Some x, FContinue) s1 -> item_ E ev' it Right s = Ok (Some x, FContinue) s1 ->
  getv x s1 = Ok (VClosure (Closure cargs cur body) md j) s1 ->
  forall i, running i s1 -> Forall (agree i ev ev') args ->
  (forall sd s, running j s -> r_mod s = md -> ev body sd s = ev' body sd s) ->
  call_closure E ev it args s = call_closure E ev' it args s.
Proof.
  intros E ev ev' it args j md cargs cur body s x s1 Hk Hi Hi' Hg i Hs Ha Hb. unfold call_closure.
  unfold bind at 1. rewrite Hi. symmetry. unfold bind at 1. rewrite Hi'. cbv beta iota. symmetry.
  unfold bind at 1. rewrite Hg. symmetry. unfold bind at 1. rewrite Hg. cbv beta iota zeta. symmetry.
  destruct (Nat.eqb _ _); [|reflexivity]. clear Hi Hi' Hg. rename s1 into t. clear s. rename t into s.
  apply (bind_agree i); [apply keep_push|reflexivity| |exact Hs]. clear s Hs. intros _ s Hs.
  do 3 (apply (bind_agree i); [apply keep_gets|reflexivity| |exact Hs]; clear s Hs; intros ? s Hs).
  apply (push_loaded_agree i); auto. clear s Hs. intros s Hs.
  apply (bind_agree i); [apply keep_push_currents|reflexivity| |exact Hs]. clear s Hs. intros _ s Hs.
  unfold bind at 1. symmetry. unfold bind at 1. unfold push_fn at 1 2. unfold modify. cbv beta iota. symmetry.
  match goal with |- _ ?s1 = _ => assert (running j s1) as H1 by (eexists; eexists; split; reflexivity);
    generalize dependent s1 end. clear s Hs. intros s Hs.
  apply (bind_agree j); [apply keep_push_local|reflexivity| |exact Hs]. clear s Hs. intros _ s Hs.
  apply (bind_agree j); [apply keep_push_arg_locals|reflexivity| |exact Hs]. clear s Hs. intros _ s Hs.
  apply bind_first. unfold expression_module. rewrite Hb; [reflexivity| |reflexivity].
  destruct Hs as (c & cs & H1 & H2). exists c, cs. split; [exact H1|exact H2].
Qed.
Print Assumptions C34_closure_call.

(** A thread starts with the record of the function that spawned it. *)
Theorem C34_thread : forall E ev n name args i s t s', (forall e sd, keep (ev e sd)) -> running i s ->
  expression E ev n (EGo name args) Right s = Ok (Some (VThread t), FContinue) s' ->
  exists sp l, w_threads (r_world s') = w_threads (r_world s) ++ l ++ [sp] /\ sp_mod sp = r_mod s /\ forall w, running i (thread_rt w sp).
Proof.
  intros E ev n name args i s t s' Hk (c & cs & H1 & H2) H. cbn [expression go_] in H. unfold go_ in H.
  unfold bind at 1, gets at 1 in H. rewrite H1 in H. cbv beta iota in H.
  unfold bind at 1, gets at 1 in H. cbv beta iota in H. destruct (nth_error _ _) as [m|]; [|discriminate].
  pose proof (keep_go_args ev Hk n args [] s) as K. unfold wp in K. unfold bind at 1 in H.
  destruct (go_args ev n args [] s) as [[stk|x] s1| | |]; try discriminate.
  destruct K as (K1 & K2 & _ & _ & l & K3). cbv zeta in H.
  unfold bind, gets, modify, ret in H. injection H as <- <-. cbn. rewrite K3.
  eexists. exists l. split; [rewrite <- app_assoc; reflexivity|]. split; [reflexivity|].
  intros w. eexists. eexists. split; [reflexivity|]. exact H2.
Qed.
Print Assumptions C34_thread.

(** ** Example: main (0) calls twice (1), which calls inc (2) two times; the indices are relative. *)
Definition inc_ : func := Func "inc" ["x"] [] [] [add_ (loc "x" 1) (num 1)] true.
Definition twice_ : func := Func "twice" ["x"] [] []
  [add_ (ECall (FLoaded 1) "inc" [loc "x" 2]) (ECall (FLoaded 1) "inc" [loc "x" 2])] true.
Definition main_ : func := Func "main" [] [] [] [ECall (FLoaded 1) "twice" [num 4]] false.
Definition three : env := env_ [main_; twice_; inc_].
Definition at_ (i : nat) : rt := RT 0 [] [Call "main" i 0 0 0] [] [] (World [] [] []).

Lemma three_tame : tame three. Proof. split; intros f; [intros s; exact I|apply keep_pop]. Qed.
Example C34_frame_example : exists s',
  eval three 10 (ECall (FLoaded 1) "twice" [num 4]) Right (at_ 0) = Ok (Some (vf64 (f_of_Z 10)), FContinue) s' /\
  r_calls s' = r_calls (at_ 0).
Proof. eexists. split; vm_compute; reflexivity. Qed.

(** An evaluator that looks at the argument only in main and at the body only in twice. *)
Definition picky (e : expr) (sd : side) : M res := fun s =>
  match r_calls s with
  | Call _ 0 _ _ _ :: _ => match e with EVar _ => eval three 10 e sd s | _ => Panic "not in main" end
  | Call _ 1 _ _ _ :: _ => match e with ECall _ _ _ => eval three 10 e sd s | _ => Panic "not in twice" end
  | _ => Panic "elsewhere"
  end.
Example C34_call_example :
  call_loaded three (eval three 10) 10 [num 4] 1 "twice" false (at_ 0) =
  call_loaded three picky 10 [num 4] 1 "twice" false (at_ 0).
Proof.
  apply (C34_call three _ _ _ 0 1 _ _ 0 (Modl [main_; twice_; inc_] []) twice_);
    [apply eval_keep; apply three_tame|reflexivity|discriminate|reflexivity| | | |reflexivity].
  - repeat constructor. intros sd s (c & cs & H1 & H2). unfold picky. rewrite H1. destruct c. cbn in H2. subst. reflexivity.
  - repeat constructor. intros sd s (c & cs & H1 & H2). unfold picky. rewrite H1. destruct c. cbn in H2. subst. reflexivity.
  - exists (Call "main" 0 0 0 0), []. split; reflexivity.
Qed.

(** A closure made in twice (1) and called from main (0) calls inc (2). *)
Definition made : value := VClosure (Closure [] [] (ECall (FLoaded 1) "inc" [num 7])) 0 1.
Example C34_closure_example :
  expression three (eval three 5) 5 (EClosure (Closure [] [] (ECall (FLoaded 1) "inc" [num 7]))) Right (at_ 1) =
    Ok (Some made, FContinue) (at_ 1) /\
  exists s', eval three 10 (ECallClosure (Item "c" (Some 1) false false [] []) []) Right (set_stack [made] (at_ 0)) =
    Ok (Some (vf64 (f_of_Z 8)), FContinue) s'.
Proof. split; [reflexivity|]. eexists. vm_compute. reflexivity. Qed.
Example C34_thread_example : exists s',
  expression three (eval three 5) 5 (EGo "inc" [num 7]) Right (at_ 1) = Ok (Some (VThread (Some 0)), FContinue) s' /\
  w_threads (r_world s') = [Spawn 0 [vf64 (f_of_Z 7)] (Call "main" 1 0 0 0) (FLoaded 1) "inc" [EVar (VRef 0)]].
Proof. eexists. split; vm_compute; reflexivity. Qed.

(** C35: the message holds the current objects that the function uses, after the arguments (the
    loop in mod.rs 1567 runs to the top of the stack, where 1535-1561 has put them).
    fn f(x) ~ y { } called as f(7) with current object y = "y". *)
Definition cur_ : func := Func "f" ["x"] [] ["y"] [] false.
Theorem C35_currents_refuted : exists s',
  eval (env_ [cur_]) 10 (ECall (FLoaded 0) "f" [num 7]) Right
    (RT 0 [VStr "y"] [Call "main" 0 0 0 0] [] [("y", 0)] (World [[]] [(0, 0, 0)] [])) = Ok (None, FContinue) s' /\
  w_queues (r_world s') = [[VArray [vf64 (f_of_Z 7); VStr "y"]]].
Proof. eexists. split; vm_compute; reflexivity. Qed.
Print Assumptions C35_currents_refuted.
