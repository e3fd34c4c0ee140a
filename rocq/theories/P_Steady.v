(** * C64: running an accepted text does not break the interpreter's bookkeeping.

    The panics of [bookkeeping] (WfSpec.v) say that the interpreter lost track of its own stacks. They do not happen, however
    variables are looked up. *)
From Coq Require Import String List ZArith Bool Arith Lia.
From Verif Require Import PrintModel ColorModel Float64 TypeModel LifetimeModel NodesModel FoldModel TransformModel NodesSpec LivesSpec NodesLayout P_Nodes P_Scope P_Lives Syntax SyntaxProofs InterpModel WfSpec BalanceBase BalanceProofs ResolveModel ResolveSpec ResolveProofs RefineProofs Samples P_Balance P_Resolve AstModel AstSpec AstProofs AstFile P_Ast GrammarSpec GrammarBuild GrammarFits GrammarCases GrammarAll P_Grammar VisibleSpec VisibleFile P_Visible LoadModel LoadSpec LoadProofs BuiltProofs P_Load.
Import ListNotations.
Local Open Scope string_scope.
Local Open Scope nat_scope.
Local Open Scope list_scope.

(** The grammar gives what is asked of swizzles and link loops. *)
Theorem C64_built : forall in_of alloc F f, file_means in_of alloc F f -> forallb (nodes_all regular) F = true ->
  forall fn, In fn (d_fns f) -> all_ok built (h_block fn).
Proof. exact file_built. Qed.
Print Assumptions C64_built.

(** An expression, run in the scope it was resolved in. *)
Theorem C64_expression : forall E arity n md m fi cs e sd s l w,
  nth_error (e_mods E) md = Some m -> scoped_mods E arity -> ext_ok true (gl_env E) arity ->
  scoped E arity md fi [] cs e -> ready true (gl_env E) arity md fi cs s -> In w bookkeeping ->
  eval (with_look l (gl_env E)) n (fst (gl (m_funs m) fi [] cs e)) sd s <> Panic w.
Proof.
  intros E arity n md m fi cs e sd s l w Em HM HX He Hr Hw. rewrite (proj2 (C17_expression_partial E arity n md m fi cs e sd s l Em HM HX He Hr)).
  pose proof (eval_ok true (with_look Checked (gl_env E)) arity (scoped_wf E arity HM) HX n md fi cs _ sd s (scoped_expr_wf E arity md m fi cs e Em He) Hr) as W.
  intros K. unfold wp in W. rewrite K in W. exact (W eq_refl Hw).
Qed.
Print Assumptions C64_expression.
(** Running [main]. *)
Theorem C64_run : forall E arity n md s l w, scoped_mods E arity -> externals (gl_env E) -> ext_ok true (gl_env E) arity ->
  wf_state true (gl_env E) arity s -> r_calls s = [] -> In w bookkeeping -> run (with_look l (gl_env E)) n md s <> Panic w.
Proof.
  intros E arity n md s l w HM HE HX Hs Hc Hw. rewrite (proj2 (C17_run_partial E arity n md s l HM HX Hs Hc)).
  apply (run_quiet (with_look Checked (gl_env E)) arity); auto. exact (scoped_wf E arity HM).
Qed.
Print Assumptions C64_run.
(** Calls from Rust with the right number of arguments, with and without a result. *)
Theorem C64_call : forall E arity n md m i f name args s l w,
  scoped_mods E arity -> ext_ok true (gl_env E) arity -> wf_state true (gl_env E) arity s -> r_calls s = [] ->
  nth_error (e_mods (gl_env E)) md = Some m -> find_function m name 0 = FLoaded i -> target (gl_env E) md 0 i = Some f ->
  Forall (wf_v true (gl_env E) arity) args -> length args = length (fn_args f) -> In w bookkeeping ->
  call_str (with_look l (gl_env E)) n name args md s <> Panic w /\ call_str_ret (with_look l (gl_env E)) n name args md s <> Panic w.
Proof.
  intros E arity n md m i f name args s l w HM HX Hs Hc Em Hf T Ha Hl Hw.
  assert (Q : forall w, In w bookkeeping -> call_str (with_look Checked (gl_env E)) n name args md s <> Panic w /\ call_str_ret (with_look Checked (gl_env E)) n name args md s <> Panic w).
  { intros w' Hw'. destruct (call_str_quiet (with_look Checked (gl_env E)) arity n name args md m s w') as [C|[C _]]; auto; [exact (scoped_wf E arity HM)| |exfalso; exact (C i Hf)].
    intros i' Hf'. rewrite Hf in Hf'. injection Hf' as <-. exists f. split; assumption. }
  rewrite (proj2 (C17_call_partial E arity n md m i f name args s l HM HX Hs Hc Em Hf T Ha Hl)). split; [apply (Q w Hw)|].
  destruct (ref_call_str_ret True False Checked l (gl_env E) (ref_checked False l (gl_env E)) n n name args md (or_introl eq_refl) s) as [[[] _]|[[_ C]|C]].
  - exfalso. exact (proj2 (Q clash (or_introl eq_refl)) C).
  - rewrite <- C || rewrite C. apply (Q w Hw).
Qed.
Print Assumptions C64_call.
(** A thread that runs a function with a result. *)
Theorem C64_thread : forall E arity n w0 sp i f vs l w,
  scoped_mods E arity -> ext_ok true (gl_env E) arity -> wf_state true (gl_env E) arity (thread_rt w0 sp) ->
  sp_fn sp = FLoaded i -> target (gl_env E) (sp_mod sp) (c_index (sp_call sp)) i = Some f -> fn_ret f = true ->
  sp_args sp = map EVar vs -> Forall (wf_v true (gl_env E) arity) vs -> length vs = length (fn_args f) -> In w bookkeeping ->
  thread_run (with_look l (gl_env E)) n sp (thread_rt w0 sp) <> Panic w.
Proof.
  intros E arity n w0 sp i f vs l w HM HX Hs Hf T R Ha Hv Hl Hw. rewrite (proj2 (C17_thread_partial E arity n w0 sp i f vs l HM HX Hs Hf T Ha Hv Hl)).
  apply (thread_quiet (with_look Checked (gl_env E)) arity n w0 sp i f vs w); auto. exact (scoped_wf E arity HM).
Qed.
Print Assumptions C64_thread.

(** ** Accepted texts *)
Lemma load_externals : forall E ext f, Forall (fun nc : string * callee => match snd nc with FLoaded _ => False | _ => True end) ext -> externals (gl_env (with_file E ext f)).
Proof. intros E ext f H m [<-|[]]. exact H. Qed.
Theorem C64_accepted_run : forall in_of alloc sort E ext arity K F f g' n s l w, file_means in_of alloc F f -> runnable sort E ext arity K F f ->
  Forall (fun nc : string * callee => match snd nc with FLoaded _ => False | _ => True end) ext ->
  front parse_type sort K (flat_map tokens F) = NOk g' -> wf_state true (gl_env (with_file E ext f)) arity s -> r_calls s = [] -> In w bookkeeping ->
  run (with_look l (gl_env (with_file E ext f))) n 0 s <> Panic w.
Proof.
  intros in_of alloc sort E ext arity K F f g' n s l w M H X R W C I. apply C64_run with (arity := arity); auto; [eapply C63_accepted; eauto|now apply load_externals|apply (ru_ext _ _ _ _ _ _ _ H)].
Qed.
Print Assumptions C64_accepted_run.
Theorem C64_accepted_call : forall in_of alloc sort E ext arity K F f g' n fn args s l w, file_means in_of alloc F f -> runnable sort E ext arity K F f ->
  front parse_type sort K (flat_map tokens F) = NOk g' -> wf_state true (gl_env (with_file E ext f)) arity s -> r_calls s = [] ->
  In fn (d_fns f) -> length args = length (h_args fn) -> Forall (wf_v true (gl_env (with_file E ext f)) arity) args -> In w bookkeeping ->
  call_str (with_look l (gl_env (with_file E ext f))) n (h_name fn) args 0 s <> Panic w /\
  call_str_ret (with_look l (gl_env (with_file E ext f))) n (h_name fn) args 0 s <> Panic w.
Proof.
  intros in_of alloc sort E ext arity K F f g' n fn args s l w M H R W C I L WA HW.
  destruct (load_found in_of alloc sort E ext arity K F f g' fn M H R I) as (k & g & FF & T & LG).
  apply C64_call with (arity := arity) (m := gl_modl (load ext f)) (i := Z.of_nat k) (f := g); auto; [eapply C63_accepted; eauto|apply (ru_ext _ _ _ _ _ _ _ H)|congruence].
Qed.
Print Assumptions C64_accepted_call.

(** ** Examples *)
Example C64_example : In "TINVOTS" bookkeeping /\ In "static_stack_id" bookkeeping /\ In "operand" bookkeeping /\ In "link body is not link" bookkeeping.
Proof. cbn. tauto. Qed.
Example C64_example_run : scoped_mods src arity_ /\ externals (gl_env src) /\ ext_ok true (gl_env src) arity_ /\ wf_state true (gl_env src) arity_ s0 /\ r_calls s0 = [] /\ run (gl_env src) 30 0 s0 = Ok tt s0.
Proof.
  split; [exact C17_example_scoped|]. split; [intros m [<-|[]]; constructor|]. split; [exact src_ext|]. exact C17_example_run.
Qed.
Example C64_example_thread : fn_ret step_ = true /\ wf_state true (gl_env src) arity_ (thread_rt (World [] [] []) sp1) /\ sp_args sp1 = map EVar [VRef 0].
Proof. split; [reflexivity|]. split; [|reflexivity]. split; repeat constructor. Qed.
(** a link loop, a swizzle and a use of [in] *)
Definition steady_ : func :=
  Func "steady" ["v"] [] []
    [decl "k" false (EForN KLink None "i" None (Samples.num 2) [ELink [var "i"; EVar (VStr ";")]]);
     decl "x" false (EVec4 [ESwizzle [1; 0] (var "v"); Samples.num 3; Samples.num 4]);
     decl "c" false (EIn (FLoaded 0));
     EVec4 [ESwizzle [3; 2; 1; 0] (var "x")]] true.
Definition link_env : env := env_ [steady_].
Example C64_example_scoped : scoped_mods link_env arity_.
Proof.
  intros md m fi f Hm Hf. destruct md as [|[|]]; [|discriminate|discriminate]. injection Hm as <-. cbn [m_funs] in Hf.
  destruct fi as [|[|]]; try discriminate; injection Hf as <-; cbv; scope_done; try discriminate; repeat constructor.
Qed.

Example C64_example_scoped_runs : exists s', call_str_ret (gl_env link_env) 30 "steady" [VVec4 (V4 (g_of_Z 1) (g_of_Z 2) (g_of_Z 3) (g_of_Z 4))] 0 s0 =
  Ok (VVec4 (V4 (g_of_Z 4) (g_of_Z 3) (g_of_Z 1) (g_of_Z 2))) s'.
Proof. eexists. vm_compute. reflexivity. Qed.

(** ** Counterexamples *)
(** A thread of a function without result: there is no value to give back. The checkers ask for a result (typecheck.rs 699-712). *)
Definition void_ : func := Func "void" [] [] [] [] false.
Definition sp_void : spawn := Spawn 0 [] (Call "void" 0 0 0 0) (FLoaded 0) "void" [].
Theorem C64_void_thread_refuted : scoped_mods (env_ [void_]) arity_ /\ wf_state true (gl_env (env_ [void_])) arity_ (thread_rt (World [] [] []) sp_void) /\
  thread_run (gl_env (env_ [void_])) 9 sp_void (thread_rt (World [] [] []) sp_void) = Panic "TINVOTS".
Proof.
  split; [|split; [split; repeat constructor|vm_compute; reflexivity]]. intros md m fi f Hm Hf. destruct md as [|[|]]; [|discriminate|discriminate]. injection Hm as <-. cbn [m_funs] in Hf.
  destruct fi as [|[|]]; try discriminate; injection Hf as <-; cbv; scope_done.
Qed.
Print Assumptions C64_void_thread_refuted.
(** [(xy v, 1, "a")]: the panic for an index out of range is none of [bookkeeping]. The message for the last component looks for the fourth of
    three arguments (runtime/mod.rs, [vec4]). *)
Definition index_ : func :=
  Func "index" ["v"] [] [] [decl "x" false (EVec4 [ESwizzle [0; 1] (var "v"); Samples.num 1; EVar (VStr "a")]); var "x"] true.
Theorem C64_index_refuted : scoped_mods (env_ [index_]) arity_ /\
  call_str_ret (gl_env (env_ [index_])) 30 "index" [VVec4 (V4 (g_of_Z 1) (g_of_Z 2) (g_of_Z 3) (g_of_Z 4))] 0 s0 = Panic "index".
Proof.
  split; [|vm_compute; reflexivity]. intros md m fi f Hm Hf. destruct md as [|[|]]; [|discriminate|discriminate]. injection Hm as <-. cbn [m_funs] in Hf.
  destruct fi as [|[|]]; try discriminate; injection Hf as <-; cbv; scope_done; repeat constructor.
Qed.
Print Assumptions C64_index_refuted.
