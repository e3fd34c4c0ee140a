(** * C25: closures and [grab]. *)
From Coq Require Import String List ZArith Bool Arith Lia.
From Verif Require Import Float64 Syntax InterpModel SyntaxProofs BalanceBase GrabSpec GrabProofs PathProofs P_Path Samples P_Array StdModel.
Import ListNotations.
Local Open Scope string_scope.
Local Open Scope nat_scope.
Local Open Scope list_scope.

(** The expressions evaluated one after the other, each once, and their values copied (see C05). *)
Inductive taken (E : env) (n : nat) : list expr -> rt -> list value -> rt -> Prop :=
| Tk_nil : forall s, taken E n [] s [] s
| Tk_cons : forall x xs s v s1 w ws s', eval E n x Right s = Ok (Some v, FContinue) s1 -> deep_clone n (r_stack s1) v = DOk w ->
    taken E n xs s1 ws s' -> taken E n (x :: xs) s (w :: ws) s'.

Lemma take_ok : forall E n x s w s', take (eval E n) n x s = Ok (GOk w) s' <->
  exists v, eval E n x Right s = Ok (Some v, FContinue) s' /\ deep_clone n (r_stack s') v = DOk w.
Proof.
  intros E n x s w s'. unfold take, vexpr, bind, deep. split.
  - intros H. destruct (eval E n x Right s) as [[[v|] []] s1| | |] eqn:Q; try discriminate.
    destruct (deep_clone n (r_stack s1) v) eqn:D; try discriminate. unfold gret, ret in H. inversion H; subst. eauto.
  - intros (v & -> & ->). reflexivity.
Qed.
Lemma taken_run : forall E n xs s ws s', gmap (take (eval E n) n) xs s = Ok (GOk ws) s' <-> taken E n xs s ws s'.
Proof.
  intros E n. induction xs as [|x xs IH]; intros s ws s'; split; intros H; cbn [gmap] in *.
  - unfold gret, ret in H. inversion H; subst. constructor.
  - inversion H; subst. reflexivity.
  - unfold gbind at 1 in H. unfold bind in H. destruct (take (eval E n) n x s) as [[a|o] s1| | |] eqn:Q; try discriminate.
    unfold gbind, bind in H. destruct (gmap (take (eval E n) n) xs s1) as [[l|o] s2| | |] eqn:Q2; try discriminate.
    unfold gret, ret in H. inversion H; subst. apply take_ok in Q. destruct Q as (v & Q & D). econstructor; eauto. apply IH. exact Q2.
  - inversion H; subst. assert (take (eval E n) n x s = Ok (GOk w) s1) as Q by (apply take_ok; eauto).
    unfold gbind at 1. unfold bind. rewrite Q. unfold gbind, bind. rewrite (proj2 (IH _ _ _) H7). reflexivity.
Qed.
Lemma taken_len : forall E n xs s ws s', taken E n xs s ws s' -> length ws = length xs.
Proof. intros E n xs s ws s' H. induction H; simpl; auto. Qed.

(** Creating a closure evaluates each expression grabbed at level 1 exactly once, in the order of the
    text, and nothing else; the closure is the text with these expressions replaced by their values. *)
Theorem C25_create : forall E n args cur body sd s cl s',
  eval E (S n) (EClosure (Closure args cur body)) sd s = Ok (Some (VClosure cl (r_mod s') (match r_calls s with [] => 0 | c :: _ => c_index c end)), FContinue) s' <->
  exists ws body', taken E n (grabs 1 body) s ws s' /\ put 1 body ws = (body', []) /\ cl = Closure args cur body'.
Proof.
  intros E n args cur body sd s cl s'.
  destruct (proj1 (proj2 (grab_Gr (eval E n) n)) body 1) as [G1 G2]. cbn [eval expression closure_]. unfold bind at 1. unfold top_index, gets. split.
  - intros H. unfold bind in H. rewrite G1 in H. unfold gbind, bind in H.
    destruct (gmap (take (eval E n) n) (grabs 1 body) s) as [[ws|o] s1| | |] eqn:Q; try discriminate.
    unfold gret, ret in H. cbn in H. inversion H; subst. apply taken_run in Q. exists ws, (fst (put 1 body ws)). split; auto. split; auto.
      pose proof (G2 ws [] (taken_len _ _ _ _ _ _ Q)) as P. rewrite app_nil_r in P. exact P.
  - intros (ws & body' & T & P & ->). unfold bind. rewrite G1. unfold gbind, bind. rewrite (proj2 (taken_run _ _ _ _ _ _) T).
    cbn. rewrite P. reflexivity.
Qed.
Print Assumptions C25_create.
(** If evaluating one of them fails, no closure is created. *)
Theorem C25_create_error : forall E n args cur body sd s before x after ws s1 e s',
  grabs 1 body = before ++ x :: after -> taken E n before s ws s1 -> eval E n x Right s1 = Err e s' ->
  eval E (S n) (EClosure (Closure args cur body)) sd s = Err e s'.
Proof.
  intros E n args cur body sd s before x after ws s1 e s' Hg T X.
  destruct (proj1 (proj2 (grab_Gr (eval E n) n)) body 1) as [G1 G2]. cbn [eval expression closure_]. unfold bind at 1. unfold top_index, gets.
  unfold bind. rewrite G1. unfold gbind, bind. rewrite Hg, gmap_app. unfold gbind, bind. rewrite (proj2 (taken_run _ _ _ _ _ _) T).
  cbn [gmap]. unfold gbind, bind, take, vexpr, bind. rewrite X. reflexivity.
Qed.
Print Assumptions C25_create_error.
(** Nothing is left to grab at this level; what is grabbed at other levels is left as it was. *)
Theorem C25_levels : forall lv body ws body', length ws = length (grabs lv body) -> put lv body ws = (body', []) ->
  grabs lv body' = [] /\ forall lv', lv' <> lv -> grabs lv' body' = grabs lv' body.
Proof.
  intros lv body ws body' L P. pose proof (proj1 (proj2 put_left) body lv) as H. unfold Qe in H.
  assert (forall lv', grabs lv' body' = stay lv lv' (grabs lv' body)) as Q.
  { intros lv'. destruct (H lv' ws [] L) as [A _]. rewrite app_nil_r, P in A. exact A. }
  split.
  - rewrite Q. unfold stay. rewrite Nat.eqb_refl. reflexivity.
  - intros lv' D. rewrite Q. unfold stay. destruct (Nat.eqb_spec lv' lv); [contradiction|reflexivity].
Qed.
Print Assumptions C25_levels.
(** In a closure inside the body the level counts one more. *)
Theorem C25_nested : forall lv args cur body, grabs lv (EClosure (Closure args cur body)) = grabs (S lv) body.
Proof. reflexivity. Qed.
Print Assumptions C25_nested.
(** What was put in place of a grab evaluates to the value taken at creation in every state, without changing it. *)
Theorem C25_fixed : forall E n w sd s, eval E (S n) (EVar w) sd s = Ok (Some w, FContinue) s.
Proof. reflexivity. Qed.
Print Assumptions C25_fixed.

Lemma trunc_top_len : forall {A} (l : list A) x, trunc_top (length l) (x :: l) = l.
Proof. intros A l x. unfold trunc_top. replace (length (x :: l) - length l) with 1 by (cbn [length]; lia). reflexivity. Qed.
Lemma trunc_top_all : forall {A} (l : list A), trunc_top (length l) l = l.
Proof. intros A l. unfold trunc_top. rewrite Nat.sub_diag. reflexivity. Qed.
Lemma firstn_app_len : forall {A} (l m : list A), firstn (length l) (l ++ m) = l.
Proof. intros A l m. rewrite firstn_app, Nat.sub_diag, firstn_O, app_nil_r. apply firstn_all. Qed.
(** A whole history: [f := \() = grab e]; in every later state in which [f] still holds this closure a
    call gives the value [e] had at creation and leaves the state as it is. *)
Theorem C25_history : forall E n e s v s1 w f sid i s2 rel,
  eval E n e Right s = Ok (Some v, FContinue) s1 -> deep_clone n (r_stack s1) v = DOk w -> w <> VReturn ->
  rel = match r_calls s with [] => 0 | c :: _ => c_index c end ->
  (forall sd, eval E (S n) (EClosure (Closure [] [] (EGrab 1 e))) sd s = Ok (Some (VClosure (Closure [] [] (EVar w)) (r_mod s1) rel), FContinue) s1) /\
  (forall m, lives E m f sid i s2 -> nth_error (r_stack s2) i = Some (VClosure (Closure [] [] (EVar w)) (r_mod s1) rel) ->
     eval E (S (S m)) (ECallClosure (Item f sid false false [] []) []) Right s2 = Ok (Some w, FContinue) s2).
Proof.
  intros E n e s v s1 w f sid i s2 rel He D NR ->. split.
  - intros sd. apply C25_create. exists [w], (EVar w). split; [|split; reflexivity]. econstructor; [exact He|exact D|constructor].
  - intros m L N. set (cl := VClosure (Closure [] [] (EVar w)) (r_mod s1) _) in *.
    assert (item_ E (eval E (S m)) (Item f sid false false [] []) Right s2 = Ok (Some (VRef i), FContinue) s2) as IT by exact L.
    change (eval E (S (S m)) (ECallClosure (Item f sid false false [] []) []) Right) with (call_closure E (eval E (S m)) (Item f sid false false [] []) []).
    unfold call_closure. eapply eq_trans; [apply bind_ok; exact IT|]. cbv beta iota.
    assert (getv (VRef i) s2 = Ok cl s2) as G by (unfold getv, slot; rewrite N; auto).
    eapply eq_trans; [apply bind_ok; exact G|]. subst cl. cbv beta iota.
    cbn [arg_len fold_left length Nat.eqb push_loaded push_currents push_arg_locals].
    unfold bind, push, modify, stack_len, local_len, current_len, gets, push_fn, push_local, expression_module, ret. cbn -[removelast firstn trunc_top].
    unfold pop_fn. cbn -[removelast firstn trunc_top]. rewrite String.eqb_refl. unfold bind, modify, trunc_stack, trunc_locals, trunc_currents, modify.
    cbn -[removelast firstn trunc_top]. rewrite firstn_all, trunc_top_len, trunc_top_all.
    assert (removelast (r_stack s2 ++ [VReturn]) = r_stack s2) as RL by apply removelast_last.
    destruct w; try contradiction; unfold finish, bind, modify, ret; cbn -[removelast]; rewrite RL; destruct s2; reflexivity.
Qed.
Print Assumptions C25_history.

(** x := 1; f := \() = grab x; x = 2; f(): 1 *)
Example C25_example : exists s',
  eval std_ 20 (EBlock [decl "x" false (num 1); decl "f" false (EClosure (Closure [] [] (EGrab 1 (loc "x" 1))));
    EAssign OpSet (loc "x" 2) (num 2); ECallClosure (Item "f" (Some 1) false false [] []) []]) Right
    (RT 0 [] [Call "main" 0 0 0 0] [] [] (World [] [] [])) = Ok (Some (f_ 1), FContinue) s'.
Proof. eexists. vm_compute. reflexivity. Qed.
(** \() = \() = (grab '2 x) + (grab '1 y): creating the outer closure takes x only. *)
Definition two_ : closure := Closure [] [] (EClosure (Closure [] [] (add_ (EGrab 2 (loc "x" 2)) (EGrab 1 (loc "y" 2))))).
Definition xy_ : rt := RT 0 [f_ 3; f_ 4] [Call "main" 0 0 0 0] [("y", 1); ("x", 0)] [] (World [] [] []).
Example C25_example_levels :
  eval std_ 20 (EClosure two_) Right xy_ =
    Ok (Some (VClosure (Closure [] [] (EClosure (Closure [] [] (add_ (EVar (f_ 3)) (EGrab 1 (loc "y" 2)))))) 0 0), FContinue) xy_ /\
  grabs 1 (EClosure (Closure [] [] (add_ (EGrab 2 (loc "x" 2)) (EGrab 1 (loc "y" 2))))) = [loc "x" 2].
Proof. split; vm_compute; reflexivity. Qed.
