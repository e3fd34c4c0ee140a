(** * C17: a variable denotes its innermost declaration; C49: more fuel changes nothing. *)
From Coq Require Import String List ZArith Bool Arith Lia.
From Verif Require Import Float64 Syntax InterpModel WfSpec SyntaxProofs BalanceBase BalanceEval BalanceCalls
  BalanceLoops BalanceGrab BalanceProofs ResolveModel ResolveSpec ResolveProofs RefineProofs Samples P_Balance.
Import ListNotations.
Local Open Scope string_scope.
Local Open Scope nat_scope.
Local Open Scope list_scope.

(** ** C17

    Full statement: "every variable reads and writes the slot of the innermost declaration of that
    name in scope; building with [debug_lookup] changes nothing".
    [ByName] is the build with [debug_lookup] (search by name, newest first, in the frame of the
    call; an error if the slot number says otherwise), [BySlot] the build without it, [Checked] does
    both and panics with [clash] if they do not find the same slot.
    Proved for all well-scoped programs ([ResolveSpec.v]) and all executions of any length. Missing:
    the programs excluded there, for which it is false (see the counterexamples below). *)

(** [get_locals] puts the right number into every variable of a well-scoped program. *)
Theorem C17_numbers : forall E arity, scoped_mods E arity -> wf_mods true (gl_env E) arity.
Proof. exact scoped_wf. Qed.
Print Assumptions C17_numbers.

(** An expression, run in the scope it was resolved in. *)
Theorem C17_expression_partial : forall E arity n md m fi cs e sd s l,
  nth_error (e_mods E) md = Some m -> scoped_mods E arity -> ext_ok true (gl_env E) arity ->
  scoped E arity md fi [] cs e -> ready true (gl_env E) arity md fi cs s ->
  let e' := fst (gl (m_funs m) fi [] cs e) in
  eval (with_look Checked (gl_env E)) n e' sd s <> Panic clash /\
  eval (with_look l (gl_env E)) n e' sd s = eval (with_look Checked (gl_env E)) n e' sd s.
Proof.
  intros E arity n md m fi cs e sd s l Em HM HX He Hr e'.
  assert (eval (with_look Checked (gl_env E)) n e' sd s <> Panic clash) as H; [|split; [exact H|apply eval_look; exact H]].
  pose proof (eval_ok true (with_look Checked (gl_env E)) arity (scoped_wf E arity HM) HX n md fi cs e' sd s (scoped_expr_wf E arity md m fi cs e Em He) Hr) as W.
  intros K. unfold wp in W. rewrite K in W. exact (W eq_refl (or_introl eq_refl)).
Qed.
Print Assumptions C17_expression_partial.

(** None of the panics of broken bookkeeping happens. *)
Lemma call_quiet : forall E arity n md i f name args (loader : bool) s w, wf_mods true E arity -> ext_ok true E arity ->
  target E md 0 i = Some f -> Forall (wf_v true E arity) args -> length args = length (fn_args f) ->
  wf_state true E arity s -> r_calls s = [] -> In w bookkeeping ->
  call_internal E (eval E n) n (FLoaded i) name (map EVar args) loader (set_mod md s) <> Panic w.
Proof.
  intros E arity n md i f name args loader s w HM HX Ht Ha Hl Hs Hc Hw K. cbn [call_internal] in K.
  assert (call_loaded E (eval E n) n (map EVar args) i name true (set_mod md s) = Panic w) as K'.
  { destruct loader; [exact K|]. rewrite <- K. unfold call_loaded, bind, gets. cbn. rewrite Hc. reflexivity. }
  pose proof (call_loader_bp true E arity HM HX n md i f name args (set_mod md s) Hs eq_refl Ht Ha (fun _ => Hl)) as W.
  unfold wp in W. rewrite K' in W. exact (W eq_refl Hw).
Qed.
(** The functions of other languages that a module lists are not loaded functions. *)
Definition externals (E : env) : Prop :=
  forall m, In m (e_mods E) -> Forall (fun nc => match snd nc with FLoaded _ => False | _ => True end) (m_ext m).
Lemma find_ext_loaded : forall name l acc i, Forall (fun nc : string * callee => match snd nc with FLoaded _ => False | _ => True end) l ->
  find_ext name l acc = FLoaded i -> acc = FLoaded i.
Proof.
  induction l as [|[x c] l IH]; intros acc i F H; [exact H|]. inversion F; subst. cbn in H. apply IH in H; [|assumption].
  destruct (String.eqb x name); [subst c; contradiction|exact H].
Qed.
Lemma find_last_lt : forall name fs i acc k, find_last name i fs acc = Some k -> acc = Some k \/ k < i + length fs /\ i <= k.
Proof.
  induction fs as [|f fs IH]; intros i acc k H; cbn in *; [auto|]. apply IH in H. destruct H as [H|H]; [|right; lia].
  destruct (String.eqb _ _); [|auto]. injection H as <-. right. lia.
Qed.
Lemma found_target : forall E md m name i, externals E -> nth_error (e_mods E) md = Some m -> find_function m name 0 = FLoaded i ->
  exists f, target E md 0 i = Some f /\ nth_error (m_funs m) (Z.to_nat i) = Some f.
Proof.
  intros E md m name i HE Em H. unfold find_function in H. destruct (find_last name 0 (m_funs m) None) as [k|] eqn:K.
  - injection H as <-. change (Z.of_nat 0) with 0%Z. rewrite Z.sub_0_r. apply find_last_lt in K. destruct K as [K|[K _]]; [discriminate|].
    cbn in K. destruct (nth_error (m_funs m) k) as [f|] eqn:Ef; [|apply nth_error_None in Ef; lia].
    exists f. unfold target. cbv zeta. change (Z.of_nat 0) with 0%Z. rewrite Z.add_0_r, Em, Nat2Z.id.
    destruct (Z.ltb_spec (Z.of_nat k) 0); [lia|]. auto.
  - apply find_ext_loaded in H; [discriminate|]. apply HE. eapply nth_error_In; eauto.
Qed.
Lemma run_quiet : forall E arity n md s w, wf_mods true E arity -> ext_ok true E arity ->
  wf_state true E arity s -> r_calls s = [] -> In w bookkeeping -> w = clash \/ externals E -> run E n md s <> Panic w.
Proof.
  intros E arity n md s w HM HX Hs Hc Hw HE. assert (w <> "index") as Hi by (intros ->; cbn in Hw; repeat (destruct Hw as [Hw|Hw]; [discriminate|]); exact Hw).
  unfold run.
  destruct (nth_error (e_mods E) md) as [m|] eqn:Em; [|congruence]. destruct (find_function m "main" 0) as [|i|g|g|g|g|g] eqn:Hf; try discriminate.
  destruct (nth_error (m_funs m) (Z.to_nat i)) as [f|] eqn:Ef; [|congruence]. destruct (fn_args f) as [|? ?] eqn:Ea; [|discriminate].
  destruct (target E md 0 i) as [f'|] eqn:T.
  - pose proof (call_quiet E arity n md i f' "main" [] false s w HM HX T (Forall_nil _)) as C.
    assert (f' = f) as ->. { unfold target in T. cbv zeta in T. destruct (_ <? 0)%Z; [discriminate|]. rewrite Em, Z.add_0_r in T. congruence. }
    specialize (C ltac:(rewrite Ea; reflexivity) Hs Hc Hw). cbn [map] in C. destruct (call_internal _ _ _ _ _ _ _ _); congruence.
  - destruct HE as [->|HE]; [|destruct (found_target E md m "main" i HE Em Hf) as (f' & T' & _); congruence].
    unfold target in T. cbv zeta in T. destruct (Z.ltb_spec (i + Z.of_nat 0) 0).
    + cbn [call_internal]. unfold call_loaded, bind, gets. cbn. rewrite Hc, Em. cbn. change (Z.of_nat 0) with 0%Z in *. rewrite Z.add_0_r in *.
      rewrite (proj2 (Z.ltb_lt i 0)) by lia. discriminate.
    + rewrite Em, Z.add_0_r in T. congruence.
Qed.
Lemma call_str_quiet : forall E arity n name args md m s w, wf_mods true E arity -> ext_ok true E arity ->
  wf_state true E arity s -> r_calls s = [] -> nth_error (e_mods E) md = Some m ->
  (forall i, find_function m name 0 = FLoaded i -> exists f, target E md 0 i = Some f /\ length args = length (fn_args f)) ->
  Forall (wf_v true E arity) args -> In w bookkeeping ->
  call_str E n name args md s <> Panic w /\ call_str_ret E n name args md s <> Panic w \/
  (forall i, find_function m name 0 <> FLoaded i) /\ call_str E n name args md s <> Panic w.
Proof.
  intros E arity n name args md m s w HM HX Hs Hc Em HT Ha Hw. unfold call_str, call_str_ret. rewrite Em.
  destruct (find_function m name 0) as [|i|g|g|g|g|g] eqn:Hf; try (right; split; [|discriminate]; intros; discriminate).
  left. destruct (HT i eq_refl) as (f & T & Hl).
  pose proof (call_quiet E arity n md i f name args true s w HM HX T Ha Hl Hs Hc Hw) as C.
  unfold bind, call_. cbv zeta. destruct (call_internal _ _ _ _ _ _ _ _) as [[[v|] []] s'|? ?|?|]; split; try discriminate; congruence.
Qed.

(** Running [main]. *)
Theorem C17_run_partial : forall E arity n md s l,
  scoped_mods E arity -> ext_ok true (gl_env E) arity -> wf_state true (gl_env E) arity s -> r_calls s = [] ->
  run (with_look Checked (gl_env E)) n md s <> Panic clash /\
  run (with_look l (gl_env E)) n md s = run (with_look Checked (gl_env E)) n md s.
Proof.
  intros E arity n md s l HM HX Hs Hc.
  assert (run (with_look Checked (gl_env E)) n md s <> Panic clash) as H.
  { apply (run_quiet (with_look Checked (gl_env E)) arity); auto; [exact (scoped_wf E arity HM)|left; reflexivity]. }
  split; [exact H|].
  destruct (ref_run True False Checked l (gl_env E) (ref_checked False l (gl_env E)) n n md (or_introl eq_refl) s) as [[[] _]|[[_ C]|C]]; [contradiction|auto].
Qed.
Print Assumptions C17_run_partial.

(** The two builds do the same. *)
Theorem C17_builds_agree_partial : forall E arity n md s,
  scoped_mods E arity -> ext_ok true (gl_env E) arity -> wf_state true (gl_env E) arity s -> r_calls s = [] ->
  run (with_look ByName (gl_env E)) n md s = run (with_look BySlot (gl_env E)) n md s.
Proof.
  intros E arity n md s HM HX Hs Hc.
  rewrite (proj2 (C17_run_partial E arity n md s ByName HM HX Hs Hc)), (proj2 (C17_run_partial E arity n md s BySlot HM HX Hs Hc)). reflexivity.
Qed.
Print Assumptions C17_builds_agree_partial.

(** Calls from Rust with the right number of arguments. *)
Theorem C17_call_partial : forall E arity n md m i f name args s l,
  scoped_mods E arity -> ext_ok true (gl_env E) arity -> wf_state true (gl_env E) arity s -> r_calls s = [] ->
  nth_error (e_mods (gl_env E)) md = Some m -> find_function m name 0 = FLoaded i -> target (gl_env E) md 0 i = Some f ->
  Forall (wf_v true (gl_env E) arity) args -> length args = length (fn_args f) ->
  call_str (with_look Checked (gl_env E)) n name args md s <> Panic clash /\
  call_str (with_look l (gl_env E)) n name args md s = call_str (with_look Checked (gl_env E)) n name args md s.
Proof.
  intros E arity n md m i f name args s l HM HX Hs Hc Em Hf T Ha Hl.
  assert (call_str (with_look Checked (gl_env E)) n name args md s <> Panic clash) as H.
  { destruct (call_str_quiet (with_look Checked (gl_env E)) arity n name args md m s clash) as [[C _]|[_ C]]; auto; [exact (scoped_wf E arity HM)| |left; reflexivity].
    intros i' Hf'. rewrite Hf in Hf'. injection Hf' as <-. exists f. split; assumption. }
  split; [exact H|].
  destruct (ref_call_str True False Checked l (gl_env E) (ref_checked False l (gl_env E)) n n name args md (or_introl eq_refl) s) as [[[] _]|[[_ C]|C]]; [contradiction|auto].
Qed.
Print Assumptions C17_call_partial.

(** Threads started by [go] with the right number of arguments. *)
Lemma thread_quiet : forall E arity n w0 sp i f vs w, wf_mods true E arity -> ext_ok true E arity ->
  wf_state true E arity (thread_rt w0 sp) -> sp_fn sp = FLoaded i -> target E (sp_mod sp) (c_index (sp_call sp)) i = Some f ->
  sp_args sp = map EVar vs -> Forall (wf_v true E arity) vs -> length vs = length (fn_args f) -> In w bookkeeping ->
  w = clash \/ fn_ret f = true -> thread_run E n sp (thread_rt w0 sp) <> Panic w.
Proof.
  intros E arity n w0 sp i f vs w HM HX Hs Hf T Ha Hv Hl Hw HR. unfold thread_run, bind. rewrite Hf, Ha. cbn [call_internal].
  pose proof (call_loaded_pushes true E arity HM (eval E n) (eval_ok true E arity HM HX n) n (sp_mod sp) (map EVar vs) i (sp_name sp) false (c_index (sp_call sp)) f
    (thread_rt w0 sp) Hs eq_refl eq_refl T) as W.
  specialize (W ltac:(intros k s1 Hp Hk; eapply (push_values true E arity n vs 0 _ k _ _ s1 0 s1); eauto;
    split; [eapply plus_abv; apply bal_refl; apply (proj1 Hp)|intros; apply bal_refl; apply (proj1 Hp)])).
  assert (widths (map EVar vs) = length (fn_args f)) as G2.
  { rewrite <- Hl. clear. induction vs as [|x vs IH]; [reflexivity|]. cbn. f_equal. exact IH. }
  specialize (W (fun _ => G2)).
  assert (fn_lazy f = []) as HL.
  { unfold target in T. cbv zeta in T. destruct (_ <? 0)%Z; [discriminate|]. destruct (nth_error (e_mods E) (sp_mod sp)) eqn:Em; [|discriminate].
    apply (HM _ _ _ _ Em T). }
  pose proof (loaded_value E (eval E n) n (map EVar vs) i (sp_name sp) false f (thread_rt w0 sp)
    (fun r _ => snd r = FContinue /\ one_value (fn_ret f) (fst r)) T
    (fun k Hk s0 => push_loaded_vars E n _ vs k s0 _ HL Hk 0)) as H1.
  unfold wp in W, H1.
  destruct (call_loaded E (eval E n) n (map EVar vs) i (sp_name sp) false (thread_rt w0 sp)) as [[x fl] s1|msg s1|pw|]; try discriminate.
  - cbn [fst]. assert (forall v s2, deep n v s2 <> Panic w) as D.
    { intros v s2. unfold deep. destruct (deep_clone n (r_stack s2) v); try discriminate. intros K. injection K as <-.
      cbn in Hw. repeat (destruct Hw as [Hw|Hw]; [discriminate|]). exact Hw. }
    destruct x as [v|]; [apply D|]. unfold pop. destruct (rev (r_stack s1)) eqn:R; [|apply D].
    destruct HR as [->|HR]; [discriminate|]. exfalso. destruct H1 as [_ H1]. cbn in H1. congruence.
  - intros K. injection K as ->. exact (W eq_refl Hw).
Qed.
Theorem C17_thread_partial : forall E arity n w sp i f vs l,
  scoped_mods E arity -> ext_ok true (gl_env E) arity ->
  wf_state true (gl_env E) arity (thread_rt w sp) ->
  sp_fn sp = FLoaded i -> target (gl_env E) (sp_mod sp) (c_index (sp_call sp)) i = Some f ->
  sp_args sp = map EVar vs -> Forall (wf_v true (gl_env E) arity) vs -> length vs = length (fn_args f) ->
  thread_run (with_look Checked (gl_env E)) n sp (thread_rt w sp) <> Panic clash /\
  thread_run (with_look l (gl_env E)) n sp (thread_rt w sp) = thread_run (with_look Checked (gl_env E)) n sp (thread_rt w sp).
Proof.
  intros E arity n w sp i f vs l HM HX Hs Hf T Ha Hv Hl.
  assert (thread_run (with_look Checked (gl_env E)) n sp (thread_rt w sp) <> Panic clash) as H.
  { apply (thread_quiet (with_look Checked (gl_env E)) arity n w sp i f vs clash); auto; [exact (scoped_wf E arity HM)|left; reflexivity]. }
  split; [exact H|].
  destruct (ref_thread_run True False Checked l (gl_env E) (ref_checked False l (gl_env E)) n n sp (or_introl eq_refl) (thread_rt w sp)) as [[[] _]|[[_ C]|C]]; [contradiction|auto].
Qed.
Print Assumptions C17_thread_partial.

(** ** C49: evaluation is a function of the program and the state; fuel only bounds its length. *)
Theorem C49_expression : forall E n n' e sd s, n <= n' -> eval E n e sd s <> OOF -> eval E n' e sd s = eval E n e sd s.
Proof. intros E n n' e sd s L H. destruct (eval_more E n n' e sd s L); [contradiction|assumption]. Qed.
Print Assumptions C49_expression.
Theorem C49_run : forall E n n' md s, n <= n' -> run E n md s <> OOF -> run E n' md s = run E n md s.
Proof.
  intros E n n' md s L H. pose proof (ref_run False True (e_look E) (e_look E) E (fun _ _ => ref_refl _ _ _) n n' md (or_intror (conj I L)) s) as W.
  rewrite with_look_same in W. destruct W as [[_ W]|[[[] _]|W]]; [contradiction|auto].
Qed.
Print Assumptions C49_run.
Theorem C49_call : forall E n n' name args md s, n <= n' -> call_str_ret E n name args md s <> OOF ->
  call_str_ret E n' name args md s = call_str_ret E n name args md s.
Proof.
  intros E n n' name args md s L H. pose proof (ref_call_str_ret False True (e_look E) (e_look E) E (fun _ _ => ref_refl _ _ _) n n' name args md (or_intror (conj I L)) s) as W.
  rewrite with_look_same in W. destruct W as [[_ W]|[[[] _]|W]]; [contradiction|auto].
Qed.
Print Assumptions C49_call.
Theorem C49_thread : forall E n n' sp s, n <= n' -> thread_run E n sp s <> OOF -> thread_run E n' sp s = thread_run E n sp s.
Proof.
  intros E n n' sp s L H. pose proof (ref_thread_run False True (e_look E) (e_look E) E (fun _ _ => ref_refl _ _ _) n n' sp (or_intror (conj I L)) s) as W.
  rewrite with_look_same in W. destruct W as [[_ W]|[[[] _]|W]]; [contradiction|auto].
Qed.
Print Assumptions C49_thread.
(** Any two runs that end give the same. *)
Theorem C49_unique : forall E n n' md s, run E n md s <> OOF -> run E n' md s <> OOF -> run E n md s = run E n' md s.
Proof.
  intros E n n' md s H1 H2. destruct (Nat.le_ge_cases n n') as [L|L]; [symmetry; apply C49_run; auto|apply C49_run; auto].
Qed.
Print Assumptions C49_unique.

(** ** Examples *)
Definition var (x : string) : expr := EItem (Item x None false false [] []).
(** twice(f, n) -> \f(\f(n)) *)
Definition twice : func :=
  Func "twice" ["f"; "n"] [] []
    [ECallClosure (Item "f" None false false [] []) [ECallClosure (Item "f" None false false [] []) [var "n"]]] true.
(** step(n) -> { k := 10; f := \(y) = y + (grab k); t := 0; for i 3 { z := twice(f, i); t += z; if z < 21 { z := 100; t += z } }; arr := [1, t]; arr[0 + 1] } *)
Definition step_ : func :=
  Func "step" ["n"] [] []
    [decl "k" false (num 10);
     decl "f" false (EClosure (Closure ["y"] [] (add_ (var "y") (EGrab 1 (var "k")))));
     decl "t" false (num 0);
     EForN KFor None "i" None (num 3)
       [decl "z" false (ECall (FLoaded (-1)) "twice" [var "f"; var "i"]);
        EAssign OpAdd (var "t") (var "z");
        EIf (less_ (var "z") (num 21)) [decl "z" false (num 100); EAssign OpAdd (var "t") (var "z")] [] [] None];
     decl "arr" false (EArray [num 1; add_ (var "t") (var "n")]);
     EItem (Item "arr" None false false [IdExpr (add_ (num 0) (num 1))] [])] true.
(** main() -> step(1) *)
Definition main3 : func := Func "main" [] [] [] [decl "r" false (ECall (FLoaded (-1)) "step" [num 1]); EAssign OpSet (var "r") (num 3)] false.
Definition src : env := env_ [twice; step_; main3].
Lemma src_ext : ext_ok true (gl_env src) arity_.
Proof. exact (env_ext_any true (m_funs (gl_modl (Modl [twice; step_; main3] [])))). Qed.
Ltac scope_done :=
  repeat match goal with
  | |- _ /\ _ => split
  | |- True => exact I
  | |- exists k, Some ?x = Some k => exists x; reflexivity
  | |- _ = _ \/ _ => first [left; reflexivity|right; reflexivity]
  | |- _ = _ => reflexivity
  | |- forall _, _ => intro
  | H : False |- _ => destruct H
  | H : KFor = _ |- _ => discriminate H
  | |- _ <= _ => apply le_n
  end.
Example C17_example_scoped : scoped_mods src arity_.
Proof.
  intros md m fi f Hm Hf. destruct md as [|[|]]; [|discriminate|discriminate]. injection Hm as <-. cbn [m_funs] in Hf.
  destruct fi as [|[|[|[|]]]]; try discriminate; injection Hf as <-; cbv; scope_done.
Qed.
Example C17_example :
  call_str_ret (with_look ByName (gl_env src)) 30 "step" [vf64 (f_of_Z 1)] 0 s0 = Ok (vf64 (f_of_Z 164)) s0 /\
  call_str_ret (with_look BySlot (gl_env src)) 30 "step" [vf64 (f_of_Z 1)] 0 s0 = Ok (vf64 (f_of_Z 164)) s0.
Proof. split; vm_compute; reflexivity. Qed.
Example C17_example_run : wf_state true (gl_env src) arity_ s0 /\ r_calls s0 = [] /\ run (gl_env src) 30 0 s0 = Ok tt s0.
Proof. split; [split; constructor|]. split; vm_compute; reflexivity. Qed.
Definition sp1 : spawn := Spawn 0 [vf64 (f_of_Z 1)] (Call "main" 2 0 0 0) (FLoaded (-1)) "step" [EVar (VRef 0)].
Example C17_example_thread : c_local (sp_call sp1) = 0 /\ (exists f, target (gl_env src) 0 2 (-1) = Some f /\ fn_args f = ["n"]) /\
  thread_run (with_look ByName (gl_env src)) 30 sp1 (thread_rt (World [] [] []) sp1) =
    Ok (vf64 (f_of_Z 164)) (RT 0 [vf64 (f_of_Z 1)] [Call "main" 2 0 0 0] [] [] (World [] [] [])).
Proof. split; [reflexivity|]. split; [exists (gl_fun [twice; step_; main3] 1 step_); split; vm_compute; reflexivity|vm_compute; reflexivity]. Qed.
Example C49_example : run (gl_env src) 30 0 s0 <> OOF /\ run (gl_env src) 5 0 s0 = OOF.
Proof. split; [vm_compute; discriminate|vm_compute; reflexivity]. Qed.

(** ** Counterexamples: each condition of [scoped] that is no matter of scoping is needed. In all of them
    every name is declared in its scope, and the two builds do different things. *)
Definition both (fs : list func) (r1 r2 : outcome value) : Prop :=
  call_str_ret (with_look ByName (gl_env (env_ fs))) 30 "f" [] 0 s0 = r1 /\
  call_str_ret (with_look BySlot (gl_env (env_ fs))) 30 "f" [] 0 s0 = r2.

(** f() -> { u := 1; v := 2; x := 5; \(a) = a; x + 0 } A closure as a statement of its own: its names stay on the
    compile-time stack (ast/mod.rs 630-655), and [x] is taken for [u]. *)
Definition stray : func :=
  Func "f" [] [] [] [decl "u" false (num 1); decl "v" false (num 2); decl "x" false (num 5);
    EClosure (Closure ["a"] [] (var "a")); add_ (var "x") (num 0)] true.
Theorem C17_stray_closure_refuted : exists s, both [stray] (Err "lookup not same" s) (Ok (vf64 (f_of_Z 1)) s0).
Proof.
  exists (RT 0 [VReturn; vf64 (f_of_Z 1); vf64 (f_of_Z 2); vf64 (f_of_Z 5)] [] [("x", 3); ("v", 2); ("u", 1); ("return", 0)] [] (World [] [] [])).
  split; vm_compute; reflexivity.
Qed.
Print Assumptions C17_stray_closure_refuted.
(** g() ~ x -> x + 0 with an argument of the same name: the number means the current object, the name the argument. *)
Definition clash_fn : func := Func "g" ["x"] [] ["x"] [add_ (var "x") (num 0)] true.
Definition clash_main : func := Func "f" [] [] [] [decl "x" true (num 7); add_ (ECall (FLoaded (-1)) "g" [num 3]) (num 0)] true.
Theorem C17_current_argument_refuted : exists s, both [clash_fn; clash_main] (Err "lookup not same" s) (Ok (vf64 (f_of_Z 7)) s0).
Proof.
  eexists. split; [|vm_compute; reflexivity]. vm_compute. reflexivity.
Qed.
Print Assumptions C17_current_argument_refuted.
(** f() -> { return = 4; g := \(a) = a + 1; b := \g(return); b + 0 } The place kept for the result of [\g(..)] is
    called [return] too (ast/mod.rs 3081-3083). *)
Definition ret_arg : func :=
  Func "f" [] [] [] [EAssign OpSet (var "return") (num 4); decl "g" false (EClosure (Closure ["a"] [] (add_ (var "a") (num 1))));
    decl "b" false (ECallClosure (Item "g" None false false [] []) [var "return"]); add_ (var "b") (num 0)] true.
Theorem C17_return_argument_refuted : exists s1 s2, both [ret_arg] (Err "lookup not same" s1) (Err "type" s2).
Proof. do 2 eexists. split; vm_compute; reflexivity. Qed.
Print Assumptions C17_return_argument_refuted.
(** f() -> { t := 0; for i := 0; i < 2; k := 9 { i += 1; t += 1; continue }; t + 0 } The variable declared in the step
    is still there when the condition is tested again after [continue] (runtime/mod.rs, [for_expr]). *)
Definition step_decl : func :=
  Func "f" [] [] [] [decl "t" false (num 0);
    EFor None (decl "i" false (num 0)) (less_ (var "i") (num 2)) (decl "k" false (num 9))
     [EAssign OpAdd (var "i") (num 1); EAssign OpAdd (var "t") (num 1); EContinue None]; add_ (var "t") (num 0)] true.
Theorem C17_step_declaration_refuted : exists s, both [step_decl] (Err "lookup not same" s) (Ok (vf64 (f_of_Z 1)) s0).
Proof.
  exists (RT 0 [VReturn; vf64 (f_of_Z 1); vf64 (f_of_Z 1); vf64 (f_of_Z 9)] [] [("k", 3); ("i", 2); ("t", 1); ("return", 0)] [] (World [] [] [])).
  split; vm_compute; reflexivity.
Qed.
Print Assumptions C17_step_declaration_refuted.
(** lz(a: bool => true, b) -> b; f() -> { w := 3; z := 5; x := lz(true, 1); w + 0 } The place kept for the result of
    [lz] is still there after the early exit (C16_lazy_refuted): [w] is taken for [z]. *)
Definition lazy_main : func :=
  Func "f" [] [] [] [decl "w" false (num 3); decl "z" false (num 5);
    decl "x" false (ECall (FLoaded (-1)) "lz" [EVar (vbool true); num 1]); add_ (var "w") (num 0)] true.
Theorem C17_lazy_refuted : exists s, both [lz; lazy_main] (Err "lookup not same" s) (Ok (vf64 (f_of_Z 5)) s0).
Proof. eexists. split; [|vm_compute; reflexivity]. vm_compute. reflexivity. Qed.
Print Assumptions C17_lazy_refuted.
(** f() -> { w := 3; z := 5; v := (1, 2); x := (1, 2, 3, xy v); w + 0 } A component too many stays on the stack
    (C16_vec4_refuted). *)
Definition vec_main : func :=
  Func "f" [] [] [] [decl "w" false (num 3); decl "z" false (num 5);
    decl "x" false (EVec4 [num 1; num 2; num 3; ESwizzle [0; 1] (EVar (VVec4 (V4 (g_of_Z 5) (g_of_Z 6) (g_of_Z 7) (g_of_Z 8))))]);
    add_ (var "w") (num 0)] true.
Theorem C17_vec4_refuted : exists s, both [vec_main] (Err "lookup not same" s) (Ok (vf64 (f_of_Z 5)) s0).
Proof. eexists. split; [|vm_compute; reflexivity]. vm_compute. reflexivity. Qed.
Print Assumptions C17_vec4_refuted.
