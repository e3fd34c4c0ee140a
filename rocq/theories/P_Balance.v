(** * C16, C19, C22, C47: stacks, [try], results of calls, the embedding API. *)
From Coq Require Import String List ZArith Bool Arith Lia.
From Verif Require Import Float64 Syntax InterpModel WfSpec SyntaxProofs BalanceBase BalanceEval BalanceCalls
  BalanceLoops BalanceGrab BalanceProofs Samples.
Import ListNotations.
Local Open Scope string_scope.
Local Open Scope nat_scope.
Local Open Scope list_scope.
Local Notation wpq := (wp anyp).

(** The four stacks and the current module are what they were; values may have changed. *)
Definition same_stacks (s s' : rt) : Prop :=
  r_mod s' = r_mod s /\ r_calls s' = r_calls s /\ length (r_stack s') = length (r_stack s) /\
  r_locals s' = r_locals s /\ r_currents s' = r_currents s.

(** ** C16 *)

(** Full statement: "after any expression completes normally the stacks are as before, except that
    a declaration adds one variable". Missing: programs with lazy invariants on loaded functions,
    with current objects declared directly in [link { .. }] or the header of a C-style loop, and
    with [vec4] literals whose swizzles overshoot. For these it is false, see below.
    [wf false] asks for nothing else, apart from the arities of external functions. *)
Theorem C16_balanced_partial : forall E arity n md fi cs e sd s x s',
  wf_mods false E arity -> ext_ok false E arity ->
  wf false E arity md fi [] cs e -> wf_state false E arity s -> r_mod s = md -> top_of s = fi ->
  eval E n e sd s = Ok (x, FContinue) s' ->
  r_mod s' = r_mod s /\ r_calls s' = r_calls s /\
  match e with
  | EAssign OpAssign (EItem (Item name _ current _ [] _)) _ =>
      x = None /\
      length (r_stack s') = length (r_stack s) + 1 /\
      r_locals s' = (name, length (r_stack s)) :: r_locals s /\
      r_currents s' = (if current then [(name, length (r_stack s))] else []) ++ r_currents s
  | ESwizzle inds _ =>
      x = None /\
      length (r_stack s') = length (r_stack s) + length inds /\
      r_locals s' = r_locals s /\ r_currents s' = r_currents s
  | _ =>
      length (r_stack s') = length (r_stack s) /\
      r_locals s' = r_locals s /\ r_currents s' = r_currents s
  end.
Proof.
  intros E arity n md fi cs e sd s x s' HM HX Hw Hs Hmd Hfi He.
  assert (ready false E arity md fi cs s) as Hr by (repeat split; auto; try apply Hs; discriminate).
  pose proof (eval_ok false E arity HM HX n md fi cs e sd s Hw Hr) as H.
  unfold wp in H. rewrite He in H. destruct H as (_ & (P1 & P2 & P3 & P4 & P5 & P6) & _ & HN).
  split; [auto|]. split; [auto|].
  destruct e; try (simpl in P4, P5, P6; rewrite Nat.add_0_r in P4; auto; fail).
  - destruct op; try (simpl in P4, P5, P6; rewrite Nat.add_0_r in P4; auto; fail).
    destruct e1; try (simpl in P4, P5, P6; rewrite Nat.add_0_r in P4; auto; fail).
    destruct it as [nm sid cur tf ids tids].
    destruct ids; [|destruct cur; simpl in P4, P5, P6; rewrite Nat.add_0_r in P4; auto].
    split; [apply HN; left; destruct cur; discriminate|].
    destruct cur; simpl in P4, P5, P6; rewrite Nat.add_0_r in P5; auto.
  - simpl in HN, P4, P5, P6. rewrite repeat_length in P4.
    rewrite frame_locals_none in P5. simpl in P5. split; [|auto]. apply HN. auto.
Qed.
Print Assumptions C16_balanced_partial.

(** ** C22 *)

Lemma push_loaded_last : forall ev args k s (Q : res -> rt -> Prop),
  (forall s, wpq k s Q (fun _ => True)) -> (forall x s, Q (x, FReturn) s) ->
  forall i, wpq (push_loaded ev [] i args k) s Q (fun _ => True).
Proof.
  intros ev args k s Q Hk HR i. revert i s. induction args as [|e args IH]; intros i s; [apply Hk|].
  cbn [push_loaded]. apply wp_bind. unfold wp at 1. destruct (ev e Right s) as [[[x|] fl] s1| | |]; auto.
  - destruct fl; try (apply wp_fail; exact I); [|apply wp_ret, HR].
    apply wp_bind. unfold lazy_check. destruct i; cbn [nth_error]; apply wp_ret; apply wp_bind, wp_modify, IH.
  - destruct fl; try (apply wp_fail; exact I); [|apply wp_ret, HR]. apply IH.
Qed.
Lemma wp_any : forall {A} (m : M A) s (Q : A -> rt -> Prop), (forall a s', Q a s') -> wpq m s Q (fun _ => True).
Proof. intros. unfold wp. destruct (m s); auto. Qed.

Definition one_value (b : bool) (x : option value) : Prop :=
  match x with Some v => b = true /\ v <> VReturn | None => b = false end.

Lemma finish_value : forall src b x s,
  wpq (finish src b x) s (fun r _ => snd r = FContinue /\ one_value b (fst r)) (fun _ => True).
Proof.
  intros src b x s. unfold finish. destruct b, x as [v|].
  - destruct v; try (apply wp_bind, wp_modify, wp_ret; split; [reflexivity|split; [reflexivity|discriminate]]).
    apply wp_bind, wp_any. intros. apply wp_fail. exact I.
  - apply wp_bind. unfold wp at 1. destruct (pop s) as [v s1| | |]; auto.
    destruct v; try (apply wp_ret; split; [reflexivity|split; [reflexivity|discriminate]]).
    apply wp_bind, wp_any. intros. apply wp_fail. exact I.
  - apply wp_bind, wp_any. intros. apply wp_fail. exact I.
  - apply wp_ret. split; reflexivity.
Qed.

Lemma loaded_value : forall E ev n args i name (loader : bool) f s (Q : res -> rt -> Prop),
  target E (r_mod s) (if loader then 0 else top_of s) i = Some f ->
  (forall k, (forall s, wpq k s (fun r _ => snd r = FContinue /\ one_value (fn_ret f) (fst r)) (fun _ => True)) ->
     forall s, wpq (push_loaded ev (fn_lazy f) 0 args k) s Q (fun _ => True)) ->
  wpq (call_loaded E ev n args i name loader) s Q (fun _ => True).
Proof.
  intros E ev n args i name loader f s Q Ht Hl. unfold call_loaded.
  apply wp_bind, wp_gets. cbv zeta. apply wp_bind, wp_gets.
  unfold target, top_of in Ht. cbv zeta in Ht.
  destruct (nth_error (e_mods E) (r_mod s)) as [m|]; [|(apply wp_panic; noise)].
  destruct (i + Z.of_nat _ <? 0)%Z; [(apply wp_panic; noise)|]. rewrite Ht.
  apply wp_bind, wp_any. intros _ s1.
  apply wp_bind, wp_gets, wp_bind, wp_gets, wp_bind, wp_gets.
  apply Hl.
  intros s2. do 8 (apply wp_bind, wp_any; intros). apply finish_value.
Qed.
Lemma push_loaded_vars : forall E n inv args k s (Q : res -> rt -> Prop),
  inv = [] -> (forall s, wpq k s Q (fun _ => True)) ->
  forall i, wpq (push_loaded (eval E n) inv i (map EVar args) k) s Q (fun _ => True).
Proof.
  intros E n inv args k s Q -> Hk i. revert i s. induction args as [|v args IH]; intros i s; [apply Hk|].
  cbn [map push_loaded]. apply wp_bind. destruct n as [|n]; [exact I|]. cbn [eval expression]. apply wp_ret.
  apply wp_bind. unfold lazy_check. destruct i; cbn [nth_error]; apply wp_ret; apply wp_bind, wp_modify, IH.
Qed.

(** A completed call gives exactly one value, which is not the marker of a missing return value,
    if the function was declared with [->], and none otherwise; arguments, locals, current objects
    and the call record are gone. [wf_mods] excludes lazy invariants (false there: C16). *)
Theorem C22_call_result_partial : forall E arity n md fi cs i f name args sd s x s',
  wf_mods false E arity -> ext_ok false E arity ->
  wf false E arity md fi [] cs (ECall (FLoaded i) name args) ->
  wf_state false E arity s -> r_mod s = md -> top_of s = fi ->
  target E md fi i = Some f ->
  eval E n (ECall (FLoaded i) name args) sd s = Ok (x, FContinue) s' ->
  match x with Some v => fn_ret f = true /\ v <> VReturn | None => fn_ret f = false end /\
  same_stacks s s'.
Proof.
  intros E arity n md fi cs i f name args sd s x s' HM HX Hw Hs Hmd Hfi Ht He. split.
  - destruct n as [|n]; [discriminate|]. cbn [eval expression call_internal] in He.
    subst md fi.
    assert (fn_lazy f = []) as Hl.
    { unfold target in Ht. cbv zeta in Ht. destruct (_ <? 0)%Z; [discriminate|].
      destruct (nth_error (e_mods E) (r_mod s)) as [m|] eqn:Em; [|discriminate].
      destruct (HM _ _ _ _ Em Ht). assumption. }
    pose proof (loaded_value E (eval E n) n args i name false f s
      (fun r _ => snd r = FContinue -> one_value (fn_ret f) (fst r)) Ht) as H.
    unfold wp in H at 3. rewrite He in H. apply H; [|reflexivity].
    intros k Hk s0. rewrite Hl. apply push_loaded_last; [|intros x0 s2 C; discriminate C].
    intros s2. eapply wp_mono; [apply Hk| |auto]. cbv beta. tauto.
  - pose proof (C16_balanced_partial E arity n md fi cs _ sd s x s' HM HX Hw Hs Hmd Hfi He). exact H.
Qed.
Print Assumptions C22_call_result_partial.

(** ** C19 *)

(** [try e] turns every run-time error of [e] into an error value and restores the stacks. *)
Theorem C19_error_caught_partial : forall E arity n md fi cs e sd s msg s1,
  wf_mods false E arity -> ext_ok false E arity ->
  wf false E arity md fi [] cs e -> wf_state false E arity s -> r_mod s = md -> top_of s = fi ->
  eval E n e Right s = Err msg s1 ->
  exists s', eval E (S n) (ETryExpr e) sd s = Ok (Some (VErr (VStr msg) []), FContinue) s' /\
             same_stacks s s'.
Proof.
  intros E arity n md fi cs e sd s msg s1 HM HX Hw Hs Hmd Hfi He.
  assert (ready false E arity md fi cs s) as Hr by (repeat split; auto; try apply Hs; discriminate).
  pose proof (eval_ok false E arity HM HX n md fi cs e Right s Hw Hr) as H.
  unfold wp in H. rewrite He in H. destruct H as (_ & A & (l1 & B) & C & (l2 & D) & (l3 & F)).
  cbn [eval expression]. unfold try_expr. rewrite He. eexists. split; [reflexivity|].
  unfold same_stacks. cbn. rewrite B, D, F. splits; auto; try apply trunc_top_app.
  rewrite firstn_length. lia.
Qed.
Print Assumptions C19_error_caught_partial.

(** A success [v] becomes [ok(v)]; [return], [break] and [continue] pass through. *)
Theorem C19_success : forall E n e sd s x fl s1,
  eval E n e Right s = Ok (x, fl) s1 ->
  eval E (S n) (ETryExpr e) sd s =
  match fl, x with
  | FContinue, Some v => Ok (Some (VOk v), FContinue) s1
  | FContinue, None => Err "expected something" s1
  | _, _ => Ok (x, fl) s1
  end.
Proof.
  intros E n e sd s x fl s1 He. cbn [eval expression]. unfold try_expr. rewrite He.
  destruct fl, x; reflexivity.
Qed.
Print Assumptions C19_success.

(** So [try e] never fails when [e] is an expression with a value; and when it gives a value the
    stacks are as before. *)
Theorem C19_never_fails_partial : forall E arity n md fi cs e sd s,
  wf_mods false E arity -> ext_ok false E arity ->
  wf false E arity md fi [] cs e -> wf_state false E arity s -> r_mod s = md -> top_of s = fi ->
  valued E md fi e = true ->
  match eval E n (ETryExpr e) sd s with
  | Err _ _ => False
  | Ok (x, FContinue) s' => (exists v, x = Some (VOk v) \/ x = Some (VErr v [])) /\ same_stacks s s'
  | _ => True
  end.
Proof.
  intros E arity n md fi cs e sd s HM HX Hw Hs Hmd Hfi Hv.
  assert (ready false E arity md fi cs s) as Hr by (repeat split; auto; try apply Hs; discriminate).
  destruct n as [|n]; [exact I|].
  pose proof (eval_ok false E arity HM HX n md fi cs e Right s Hw Hr) as H.
  destruct (eval E n e Right s) as [[x fl] s1|msg s1| |] eqn:He.
  - rewrite (C19_success E n e sd s x fl s1 He).
    destruct fl, x as [v|]; auto.
    + split; [eauto|].
      assert (eval E (S n) (ETryExpr e) sd s = Ok (Some (VOk v), FContinue) s1) as He'
        by (cbn [eval expression]; unfold try_expr; rewrite He; reflexivity).
      exact (C16_balanced_partial E arity (S n) md fi cs (ETryExpr e) sd s _ s1 HM HX Hw Hs Hmd Hfi He').
    + unfold wp in H. rewrite He in H. destruct H as (_ & _ & H & _). exfalso. apply H; auto.
  - destruct (C19_error_caught_partial E arity n md fi cs e sd s msg s1 HM HX Hw Hs Hmd Hfi He) as (s' & -> & H').
    split; eauto.
  - cbn [eval expression]. unfold try_expr. rewrite He. exact I.
  - cbn [eval expression]. unfold try_expr. rewrite He. exact I.
Qed.
Print Assumptions C19_never_fails_partial.

(** ** C47 *)

Lemma call_str_spec : forall E arity n name args md s,
  wf_mods false E arity -> ext_ok false E arity ->
  wf_state false E arity s -> Forall (wf_v false E arity) args ->
  match call_str E n name args md s with
  | Ok _ s' => same_stacks s s'
  | Err _ s' => wf_state false E arity s' /\ above s s' /\ r_calls s' = r_calls s
  | _ => True
  end.
Proof.
  intros E arity n name args md s HM HX Hs Ha. unfold call_str.
  destruct (nth_error (e_mods E) md) as [m|] eqn:Em; [|exact I].
  destruct (find_function m name 0) as [|i|g|g|g|g|g] eqn:Ef;
    try (split; [exact Hs|split; [apply above_refl|reflexivity]]).
  unfold bind, call_. cbn [call_internal].
  destruct (target E md 0 i) as [f|] eqn:Ht.
  - pose proof (call_loader_bp false E arity HM HX n md i f name args (set_mod md s) Hs eq_refl Ht Ha
                  ltac:(discriminate)) as H.
    assert (fn_lazy f = []) as Hl.
    { unfold target in Ht. cbv zeta in Ht. destruct (_ <? 0)%Z; [discriminate|].
      rewrite Em in Ht. destruct (HM _ _ _ _ Em Ht). assumption. }
    pose proof (loaded_value E (eval E n) n (map EVar args) i name true f (set_mod md s)
      (fun r _ => snd r = FContinue /\ one_value (fn_ret f) (fst r)) Ht) as H1.
    assert (forall P Q : Prop, (P -> Q) -> P -> Q) as Tr by auto.
    eapply Tr in H1; [|intros H2; apply H2; intros k Hk s0; exact (push_loaded_vars E n _ args k s0 _ Hl Hk 0)].
    unfold wp in H, H1.
    destruct (call_loaded E (eval E n) n (map EVar args) i name true (set_mod md s)) as [[x fl] s1|msg s1| |]
      eqn:Ec; auto.
    + cbn. destruct H as (_ & H).
      destruct H1 as [H1 _]. simpl in H1. subst fl.
      destruct H as ((P1 & P2 & P3 & P4 & P5 & P6) & _). cbn in *.
      rewrite Nat.add_0_r in P4.
      unfold same_stacks. cbn. rewrite P3. unfold trunc_top. rewrite Nat.sub_diag. simpl. auto.
    + destruct H as (W & A & (l1 & B) & C & D & F). cbn in *.
      split; [exact W|]. rewrite B, trunc_top_app. split; [|reflexivity].
      unfold above. cbn. splits; auto. exists []. reflexivity.
  - unfold call_loaded, bind, gets. cbn.
    unfold target in Ht. cbv zeta in Ht. cbn in Ht. rewrite Em in *. destruct (_ <? 0)%Z; [exact I|]. rewrite Ht. exact I.
Qed.

(** A successful call from the host leaves the stacks as they were. *)
Theorem C47_success_clean : forall E arity n name args md s s' u,
  wf_mods false E arity -> ext_ok false E arity ->
  wf_state false E arity s -> Forall (wf_v false E arity) args ->
  call_str E n name args md s = Ok u s' -> same_stacks s s'.
Proof.
  intros E arity n name args md s s' u HM HX Hs Ha He.
  pose proof (call_str_spec E arity n name args md s HM HX Hs Ha) as H. rewrite He in H. exact H.
Qed.
Print Assumptions C47_success_clean.

(** Full statement: "after an error the runtime behaves as if the call had not been made".
    Proved: the module and the call stack are restored exactly, and everything that was on the
    other stacks is still below. Missing: values, locals and current objects of the failed call
    stay on top of the stacks (refuted below). *)
Theorem C47_error_partial : forall E arity n name args md s msg s',
  wf_mods false E arity -> ext_ok false E arity ->
  wf_state false E arity s -> Forall (wf_v false E arity) args ->
  call_str E n name args md s = Err msg s' ->
  r_mod s' = r_mod s /\ r_calls s' = r_calls s /\
  length (r_stack s) <= length (r_stack s') /\
  (exists l, r_locals s' = l ++ r_locals s) /\ (exists l, r_currents s' = l ++ r_currents s).
Proof.
  intros E arity n name args md s msg s' HM HX Hs Ha He.
  pose proof (call_str_spec E arity n name args md s HM HX Hs Ha) as H. rewrite He in H.
  destruct H as (_ & (A & B & C & D & F) & G). auto.
Qed.
Print Assumptions C47_error_partial.

(** ** Examples and counterexamples *)

(** fib(n) -> if n < 2 { n + 0 } else { fib(n + -1) + fib(n + -2) } *)
Definition fib : func :=
  Func "fib" ["n"] [] []
    [EIf (less_ (loc "n" 1) (num 2)) [add_ (loc "n" 1) (num 0)] [] []
       (Some [add_ (ECall (FLoaded 0) "fib" [add_ (loc "n" 2) (num (-1))])
                   (ECall (FLoaded 0) "fib" [add_ (loc "n" 2) (num (-2))])])] true.
(** fails(): ~x := 1; 1 + true *)
Definition fails : func :=
  Func "fails" [] [] [] [decl "x" true (num 1); add_ (num 1) (EVar (vbool true))] false.
(** uses() ~ x -> x + 0 *)
Definition uses : func := Func "uses" [] [] ["x"] [add_ (loc "x" 1) (num 0)] true.
(** main(): sums over a loop with a closure and a try *)
Definition main_ : func :=
  Func "main" [] [] []
    [decl "f" false (EClosure (Closure ["y"] [] (add_ (loc "y" 1) (num 1))));
     EForN KSum None "i" None (num 4)
       [decl "z" false (ECallClosure (Item "f" (Some 2) false false [] []) [loc "i" 2]);
        ETryExpr (ECall (FLoaded (-2)) "fails" []); add_ (loc "z" 1) (num 0)]] true.
Definition prog : env := env_ [fib; fails; uses; main_].

Lemma env_ext_any : forall chk fs, ext_ok chk (env_ fs) arity_.
Proof.
  intros chk fs. split; [|split; [|split; [|split]]].
  - intros. noise.
  - intros f s [Hs Hq] Hl. cbn. unfold pop. destruct (rev (r_stack s)) as [|v l] eqn:R.
    { exfalso. apply (f_equal (@length value)) in R. rewrite rev_length in R. rewrite R in Hl. inversion Hl. }
    assert (r_stack s = rev l ++ [v]) as Es by (rewrite <- (rev_involutive (r_stack s)), R; reflexivity).
    rewrite Es in Hs. apply Forall_app in Hs. destruct Hs as [Hs1 Hs2]. inversion Hs2; subst.
    cbn. rewrite Es, removelast_last, app_length. simpl. splits; auto. split; auto.
  - intros f a b _ _. cbn. unfold bin_. destruct a; try exact I. destruct b; try exact I.
    destruct (String.eqb f "add"); [exact I|]. destruct (String.eqb f "less"); exact I.
  - intros. exact I.
  - intros f i ls H. cbn in H. unfold lazy_ in H. destruct i as [|i];
      destruct (String.eqb f "and_also"), (String.eqb f "or_else"), (String.eqb f "unwrap_or"); discriminate.
Qed.
Lemma env_ext_ok : forall fs, ext_ok false (env_ fs) arity_.
Proof. intros. apply env_ext_any. Qed.
Lemma prog_wf : wf_mods false prog arity_.
Proof.
  intros md m fi f Hm Hf. destruct md as [|[|]]; [|discriminate|discriminate]. inversion Hm; subst m. clear Hm.
  cbn in Hf.
  do 4 (destruct fi as [|fi];
        [cbn in Hf; inversion Hf; subst f;
         cbv; repeat split; try discriminate; intros; discriminate|]).
  destruct fi; discriminate.
Qed.


(** The hypotheses of the theorems above are met by [prog], in which they have content: calls,
    recursion, loops, closures, failures under [try]. *)
Example C16_example :
  exists s', eval prog 60 (EBlock (fn_block main_)) Right
                 (RT 0 [] [Call "main" 3 0 0 0] [] [] (World [] [] [])) =
               Ok (Some (vf64 (f_of_Z 10)), FContinue) s' /\ r_stack s' = [] /\ r_locals s' = [].
Proof. eexists. vm_compute. repeat split. Qed.
Example C16_example_wf : wf false prog arity_ 0 3 [] [] (EBlock (fn_block main_)).
Proof. cbv. repeat split; try discriminate; intros; discriminate. Qed.
Example C22_example :
  out_val (call_str_ret prog 60 "fib" [vf64 (f_of_Z 7)] 0 s0) = Some (vf64 (f_of_Z 13)).
Proof. vm_compute. reflexivity. Qed.
Example C19_example :
  exists s1, eval prog 20 (ECall (FLoaded 1) "fails" []) Right s0 = Err "type" s1 /\ s1 <> s0.
Proof. eexists. vm_compute. split; [reflexivity|discriminate]. Qed.
Example C19_example_wf :
  wf false prog arity_ 0 0 [] [] (ECall (FLoaded 1) "fails" []) /\
  valued prog 0 0 (ECall (FLoaded (-2)) "uses" []) = true.
Proof. cbv. repeat split; try discriminate; intros; discriminate. Qed.
Example C47_example :
  exists s', call_str prog 20 "fails" [] 0 s0 = Err "type" s' /\ length (r_stack s') = 1.
Proof. eexists. vm_compute. split; reflexivity. Qed.

(** C16 is false for a loaded function with a lazy invariant: [f(a, b) -> lazy ..] called as
    [f(true, b)] leaves its return slot behind; with a second invariant also the first argument. *)
Definition lz : func := Func "lz" ["a"; "b"] [[LzVar (vbool true)]] [] [loc "b" 1] true.
Theorem C16_lazy_refuted :
  exists s', eval (env_ [lz]) 10 (ECall (FLoaded 0) "lz" [EVar (vbool true); num 1]) Right s0 =
             Ok (Some (vbool true), FContinue) s' /\ length (r_stack s') = S (length (r_stack s0)).
Proof. eexists. vm_compute. split; reflexivity. Qed.
(** ... and for a [link] loop whose body declares a current object: it is still there afterwards. *)
Theorem C16_link_loop_refuted :
  exists s', eval (env_ []) 10 (EForN KLink None "i" None (num 2) [ELink [decl "c" true (num 7); num 1]])
               Right s0 = Ok (Some (VLink [LF64 f1; LF64 f1]), FContinue) s' /\
             r_stack s' = [] /\ r_currents s' = [("c", 1); ("c", 1)].
Proof. eexists. vm_compute. repeat split. Qed.
(** ... and for a [vec4] literal with too many components: [vec4(1, 2, 3, xy v)]. *)
Theorem C16_vec4_refuted :
  exists v s', eval (env_ []) 10
    (EVec4 [num 1; num 2; num 3;
            ESwizzle [0; 1] (EVar (VVec4 (V4 (g_of_Z 5) (g_of_Z 6) (g_of_Z 7) (g_of_Z 8))))]) Right s0 =
    Ok (Some v, FContinue) s' /\ r_stack s' = [vf64 f1].
Proof. eexists. eexists. vm_compute. split; reflexivity. Qed.

(** C47 is false: the current object of a failed call is found by the next call. *)
Theorem C47_unchanged_refuted :
  exists s1 s2 s3,
    call_str prog 20 "fails" [] 0 s0 = Err "type" s1 /\
    call_str_ret prog 20 "uses" [] 0 s0 = Err "could not find current variable" s2 /\
    call_str_ret prog 20 "uses" [] 0 s1 = Ok (vf64 f1) s3.
Proof. eexists. eexists. eexists. vm_compute. repeat split. Qed.
(** ... and [run] does not even restore the call stack. *)
Theorem C47_run_refuted :
  exists s1, run (env_ [Func "main" [] [] [] (fn_block fails) false]) 20 0 s0 = Err "type" s1 /\
             length (r_calls s1) = 1.
Proof. eexists. vm_compute. split; reflexivity. Qed.
(** ... and a function that should return a value but does not makes a call from the host panic
    instead of giving an error: the message needs a caller (mod.rs 1642). *)
Theorem C47_panic_refuted :
  call_str_ret (env_ [Func "f" [] [] [] [decl "x" false (num 1)] true]) 20 "f" [] 0 s0 = Panic "no caller".
Proof. vm_compute. reflexivity. Qed.
