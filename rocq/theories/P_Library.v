(** * C65: the standard library keeps what the interpreter relies on.

    [ext_ok] (WfSpec.v) is what C16, C17, C63 and C64 ask of external functions. *)
From Coq Require Import String List ZArith Bool Arith Lia.
From Verif Require Import PrintModel ColorModel Float64 TypeModel LifetimeModel NodesModel FoldModel TransformModel NodesSpec LivesSpec NodesLayout P_Nodes P_Scope P_Lives PreludeModel P_Prelude Syntax SyntaxProofs InterpModel LibraryModel WfSpec BalanceBase BalanceProofs LibraryProofs ResolveModel ResolveSpec ResolveProofs RefineProofs Samples P_Balance P_Resolve AstModel AstSpec AstProofs AstFile P_Ast GrammarSpec GrammarBuild GrammarFits GrammarCases GrammarAll P_Grammar VisibleSpec VisibleFile P_Visible LoadModel LoadSpec LoadProofs BuiltProofs P_Load P_Steady.
Import ListNotations.
Local Open Scope string_scope.
Local Open Scope nat_scope.
Local Open Scope list_scope.

(** Each function: it takes as many values off the stack as it has declared arguments, puts nothing else on the stacks, and if it fails it has taken no more. *)
Theorem C65_functions : forall chk E arity O L n e, In e (std O L n) ->
  match e_impl e with
  | IVoid f => forall s, wf_state chk E arity s -> length (p_tys (e_decl e)) <= length (r_stack s) ->
      match f s with
      | Ok _ s' => wf_state chk E arity s' /\ r_mod s' = r_mod s /\ r_calls s' = r_calls s /\
          length (r_stack s') + length (p_tys (e_decl e)) = length (r_stack s) /\ r_locals s' = r_locals s /\ r_currents s' = r_currents s
      | Err _ s' => wf_state chk E arity s' /\ r_mod s' = r_mod s /\ r_calls s' = r_calls s /\
          length (r_stack s) <= length (r_stack s') + length (p_tys (e_decl e)) /\ r_locals s' = r_locals s /\ r_currents s' = r_currents s
      | Panic w => quiet chk w
      | OOF => True
      end
  | IRet f => forall s, wf_state chk E arity s -> length (p_tys (e_decl e)) <= length (r_stack s) ->
      match f s with
      | Ok v s' => wf_v chk E arity v /\ wf_state chk E arity s' /\ r_mod s' = r_mod s /\ r_calls s' = r_calls s /\
          length (r_stack s') + length (p_tys (e_decl e)) = length (r_stack s) /\ r_locals s' = r_locals s /\ r_currents s' = r_currents s
      | Err _ s' => wf_state chk E arity s' /\ r_mod s' = r_mod s /\ r_calls s' = r_calls s /\
          length (r_stack s) <= length (r_stack s') + length (p_tys (e_decl e)) /\ r_locals s' = r_locals s /\ r_currents s' = r_currents s
      | Panic w => quiet chk w
      | OOF => True
      end
  | IBin f => forall a b, wf_v chk E arity a -> wf_v chk E arity b -> match f a b with POk v => wf_v chk E arity v | PPanic w => quiet chk w | PErr _ => True end
  | IUn f => forall a, wf_v chk E arity a -> match f a with POk v => wf_v chk E arity v | PPanic w => quiet chk w | PErr _ => True end
  | IOther => True
  end.
Proof.
  intros chk E arity O L n e I. pose proof (keeps_std chk E arity O L n) as K. rewrite Forall_forall in K. specialize (K e I). unfold keeps in K.
  destruct (e_impl e); try exact K. intros s W B. specialize (K s W B). destruct (f s); try exact K. exact (proj2 K).
Qed.
Print Assumptions C65_functions.

Lemma find_entry_some : forall l name e, find_entry l name = Some e -> In e l /\ e_name e = name.
Proof.
  unfold find_entry. intros l name e. assert (G : forall l r, fold_left (fun r e => if (e_name e =? name)%string then Some e else r) l r = Some e -> r = Some e \/ In e l /\ e_name e = name).
  { clear l. induction l as [|x l IH]; intros r H; [left; exact H|]. cbn in H. apply IH in H. destruct H as [H|[H1 H2]]; [|right; split; [right|]; assumption].
    destruct (String.eqb_spec (e_name x) name); [|left; exact H]. injection H as ->. right. split; [left; reflexivity|assumption]. }
  intros H. apply G in H. destruct H as [H|H]; [discriminate|exact H].
Qed.
Lemma find_decl_entry : forall l name, find_decl l name = option_map e_decl (find_entry l name).
Proof.
  intros l name. unfold find_decl, find_entry. change (@None PreludeModel.decl) with (option_map e_decl None). generalize (@None PreludeModel.entry). induction l as [|e l IH]; intros r; [reflexivity|].
  cbn. rewrite <- IH. destruct (e_name e =? name)%string; reflexivity.
Qed.
Lemma std_lazy : forall O L n e, In e (std O L n) -> length (p_lazy (e_decl e)) <= 1.
Proof.
  intros O L n e I. assert (F : forallb (fun e => Nat.leb (length (p_lazy (e_decl e))) 1) (std O L n) = true) by (vm_compute; reflexivity).
  rewrite forallb_forall in F. apply Nat.leb_le. exact (F e I).
Qed.
Lemma above_of : forall k s s', k <= length (r_stack s) -> r_mod s' = r_mod s -> r_calls s' = r_calls s -> length (r_stack s) <= length (r_stack s') + k ->
  r_locals s' = r_locals s -> r_currents s' = r_currents s -> above (set_stack (firstn (length (r_stack s) - k) (r_stack s)) s) s'.
Proof.
  intros k s s' K M C N Lo Cu. unfold above. cbn. splits; auto; try (exists []; assumption). rewrite firstn_length. lia.
Qed.
(** The library as a whole: if the functions of [E], for what is not modelled, keep the contract, so do all. *)
Theorem C65_contract : forall chk E O L n other, ext_ok chk E (std_arity O L n other) -> ext_ok chk (library O L n E) (std_arity O L n other).
Proof.
  intros chk E O L n other (X1 & X2 & X3 & X4 & X5). set (ar := std_arity O L n other) in *.
  assert (A : forall f e, find_entry (std O L n) f = Some e -> In e (std O L n) /\ ar f = length (p_tys (e_decl e))).
  { intros f e F. split; [apply (find_entry_some _ _ _ F)|]. unfold ar, std_arity. rewrite find_decl_entry, F. reflexivity. }
  split; [|split; [|split; [|split]]].
  - intros f s W B. specialize (X1 f s W B). cbn [library e_void]. destruct (find_entry (std O L n) f) as [[nm [g|g|g|g|] d]|] eqn:F; try exact X1.
    destruct (A f _ F) as [I K]. pose proof (C65_functions chk E ar O L n _ I) as H. cbn [e_impl e_decl] in H, K. rewrite K in B |- *. specialize (H s W B).
    destruct (g s) as [a s'|m s'|w|]; try exact H. destruct H as (W' & M & C & N & Lo & Cu). split; [exact W'|]. now apply above_of.
  - intros f s W B. specialize (X2 f s W B). cbn [library e_ret]. destruct (find_entry (std O L n) f) as [[nm [g|g|g|g|] d]|] eqn:F; try exact X2.
    destruct (A f _ F) as [I K]. pose proof (C65_functions chk E ar O L n _ I) as H. cbn [e_impl e_decl] in H, K. rewrite K in B |- *. specialize (H s W B).
    destruct (g s) as [a s'|m s'|w|]; try exact H. destruct H as (W' & M & C & N & Lo & Cu). split; [exact W'|]. now apply above_of.
  - intros f a b Ha Hb. specialize (X3 f a b Ha Hb). cbn [library e_bin]. destruct (find_entry (std O L n) f) as [[nm [g|g|g|g|] d]|] eqn:F; try exact X3.
    destruct (A f _ F) as [I K]. exact (C65_functions chk E ar O L n _ I a b Ha Hb).
  - intros f a Ha. specialize (X4 f a Ha). cbn [library e_un]. destruct (find_entry (std O L n) f) as [[nm [g|g|g|g|] d]|] eqn:F; try exact X4.
    destruct (A f _ F) as [I K]. exact (C65_functions chk E ar O L n _ I a Ha).
  - intros f i ls. cbn [library e_lazy]. rewrite find_decl_entry. destruct (find_entry (std O L n) f) as [e|] eqn:F; [|apply X5]. cbn [option_map]. intros H.
    destruct (A f _ F) as [I _]. pose proof (std_lazy O L n e I) as B. assert (S i < length (p_lazy (e_decl e))) by (apply nth_error_Some; congruence). lia.
Qed.
Print Assumptions C65_contract.

(** What the checkers are told is what is there. *)
Definition told_entry (e : PreludeModel.entry) : bool :=
  Nat.eqb (length (p_lts (e_decl e))) (length (p_tys (e_decl e))) &&
  match e_impl e with IBin _ => Nat.eqb (length (p_lts (e_decl e))) 2 | IUn _ => Nat.eqb (length (p_lts (e_decl e))) 1 | _ => true end.
Lemma find_ext_entry : forall l name, find_ext name (map (fun e => (e_name e, callee_of e)) l) FNone = match find_entry l name with Some e => callee_of e | None => FNone end.
Proof.
  intros l name. unfold find_entry. assert (G : forall l c r, c = match r with Some e => callee_of e | None => FNone end ->
    find_ext name (map (fun e => (e_name e, callee_of e)) l) c = match fold_left (fun r e => if (e_name e =? name)%string then Some e else r) l r with Some e => callee_of e | None => FNone end).
  { clear l. induction l as [|e l IH]; intros c r H; [exact H|]. cbn. apply IH. destruct (e_name e =? name)%string; [reflexivity|exact H]. }
  apply G. reflexivity.
Qed.
Theorem C65_told : forall O L n other, told (std_outside O L n) (std_ext O L n) (std_arity O L n other).
Proof.
  intros O L n other x lts H. unfold std_ext. rewrite find_ext_entry. cbn [std_outside o_fun] in H. rewrite find_decl_entry in H.
  destruct (find_entry (std O L n) x) as [e|] eqn:F; [|discriminate]. injection H as <-. destruct (find_entry_some _ _ _ F) as [I N].
  assert (A : std_arity O L n other (e_name e) = length (p_tys (e_decl e))) by (unfold std_arity; rewrite find_decl_entry, N, F; reflexivity).
  assert (T : forallb told_entry (std O L n) = true) by (vm_compute; reflexivity). rewrite forallb_forall in T. specialize (T e I). unfold told_entry in T.
  apply andb_true_iff in T. destruct T as [T1 T2]. apply Nat.eqb_eq in T1. unfold callee_of.
  destruct (e_impl e); try (apply Nat.eqb_eq in T2; exact T2).
  - destruct (p_lazy (e_decl e)); congruence.
  - congruence.
  - destruct (p_ret (e_decl e)); congruence.
Qed.
Print Assumptions C65_told.

(** ** Accepted texts that use the library *)
Record with_library (sort : fgraph -> fgraph) (E : env) (O : StdModel.math) (L : libm) (n : nat) (other : string -> nat) (F : list stx) (f : file) : Prop := {
  wl_linkable : forallb (nodes_all linkable) F = true;
  wl_traceable : forallb (nodes_all traceable) F = true;
  wl_regular : forallb (nodes_all regular) F = true;
  wl_sorts : sorts sort F;
  wl_shaped : forall fi g, nth_error (m_funs (load (std_ext O L n) f)) fi = Some g -> shaped_fun (with_file E (std_ext O L n) f) 0 fi g;
  (** the functions that are not modelled *)
  wl_rest : ext_ok true (gl_env (with_file E (std_ext O L n) f)) (std_arity O L n other) }.
Theorem C65_runnable : forall sort E O L n other F f, with_library sort E O L n other F f ->
  runnable sort (library O L n E) (std_ext O L n) (std_arity O L n other) (std_outside O L n) F f.
Proof.
  intros sort E O L n other F f [A B C D S X]. split; auto; [apply C65_told|]. exact (C65_contract true _ O L n other X).
Qed.
Print Assumptions C65_runnable.
Lemma std_externals : forall O L n, Forall (fun nc : string * callee => match snd nc with FLoaded _ => False | _ => True end) (std_ext O L n).
Proof.
  intros O L n. unfold std_ext. rewrite Forall_map. apply Forall_forall. intros e _. cbn. unfold callee_of. destruct (e_impl e); try exact Logic.I; [destruct (p_lazy (e_decl e)); exact Logic.I|destruct (p_ret (e_decl e)); exact Logic.I].
Qed.
Theorem C65_run : forall in_of alloc sort E O L n other F f g' k s l w, file_means in_of alloc F f -> with_library sort E O L n other F f ->
  front parse_type sort (std_outside O L n) (flat_map tokens F) = NOk g' ->
  let P := gl_env (with_file (library O L n E) (std_ext O L n) f) in
  wf_state true P (std_arity O L n other) s -> r_calls s = [] ->
  run (with_look l P) k 0 s = run (with_look Checked P) k 0 s /\ (In w bookkeeping -> run (with_look l P) k 0 s <> Panic w).
Proof.
  intros in_of alloc sort E O L n other F f g' k s l w M H R P W C. apply C65_runnable in H. split.
  - exact (proj2 (C63_run _ _ _ _ _ _ _ _ _ _ k s l M H R W C)).
  - intros I. exact (C64_accepted_run _ _ _ _ _ _ _ _ _ _ k s l w M H (std_externals O L n) R W C I).
Qed.
Print Assumptions C65_run.
Theorem C65_call : forall in_of alloc sort E O L n other F f g' k fn args s l w, file_means in_of alloc F f -> with_library sort E O L n other F f ->
  front parse_type sort (std_outside O L n) (flat_map tokens F) = NOk g' ->
  let P := gl_env (with_file (library O L n E) (std_ext O L n) f) in
  wf_state true P (std_arity O L n other) s -> r_calls s = [] ->
  In fn (d_fns f) -> length args = length (h_args fn) -> Forall (wf_v true P (std_arity O L n other)) args -> In w bookkeeping ->
  call_str (with_look l P) k (h_name fn) args 0 s <> Panic w /\ call_str_ret (with_look l P) k (h_name fn) args 0 s <> Panic w.
Proof.
  intros in_of alloc sort E O L n other F f g' k fn args s l w M H R P W C I LA WA IW. apply C65_runnable in H.
  exact (C64_accepted_call _ _ _ _ _ _ _ _ _ _ k fn args s l w M H R W C I LA WA IW).
Qed.
Print Assumptions C65_call.

(** ** A file

    [fn f() -> { x := [1]  push(mut x, 2)  y := len(x)  println(y)  return = y }] *)
Definition lib_file : list stx :=
  [SNode "fn" [str "name" "f"; flag "returns"; SNode "block" [
     is_ "x" ":=" (SNode "array" [SNode "array_item" [n_ 1]]);
     SNode "expr" [SNode "call" [str "name" "push"; SNode "call_arg" [flag "mut"; var_ "x"]; SNode "call_arg" [n_ 2]]];
     is_ "y" ":=" (SNode "call" [str "name" "len"; SNode "call_arg" [var_ "x"]]);
     SNode "expr" [SNode "call" [str "name" "println"; SNode "call_arg" [var_ "y"]]];
     is_ "return" "=" (var_ "y")]]].
Definition lib_means : file :=
  File [] [] [Function_ "f" [] [] []
    [EAssign OpAssign (X "x") (EArray [N_ 1]); apply "push(mut,_)" [X "x"; N_ 2]; EAssign OpAssign (X "y") (apply "len" [X "x"]); apply "println" [X "y"];
     EAssign OpSet (X "return") (X "y")] TAny].
Example C65_example_means : file_means (fun _ _ => FNone) (fun _ => true) lib_file lib_means.
Proof.
  set (i := fun _ _ => FNone). set (a := fun _ : Z => true).
  refine (Fi i a [] [] [] [] [_] [] [_] (or_introl (conj eq_refl eq_refl)) (or_introl (conj eq_refl eq_refl)) (Forall2_nil _) _).
  constructor; [|constructor].
  refine (Fm_block i a "f" [] [] [] None [_; _; _; _; _] [] [] [] [] [] _ _ (Cu_nil) (Tp_none _) _ (Forall_nil _) (Tr_all _ _)); [apply As_none| |constructor].
  apply Al_cons; [apply is_means; [simpl; tauto|]; apply Eb_array; apply Al_cons; [apply Eb_num|apply Al_nil]|].
  apply Al_cons; [apply Eb_call, (Ca_plain i a None "push" _ [true; false]); apply Ar_cons; [apply Ab_mut, var_means|apply Ar_cons; [apply Ab_expr, Eb_num|apply Ar_nil]]|].
  apply Al_cons; [apply is_means; [simpl; tauto|]; apply Eb_call, (Ca_plain i a None "len" _ [false]); apply Ar_cons; [apply Ab_expr, var_body|apply Ar_nil]|].
  apply Al_cons; [apply Eb_call, (Ca_plain i a None "println" _ [false]); apply Ar_cons; [apply Ab_expr, var_body|apply Ar_nil]|].
  apply Al_cons; [apply is_means; [simpl; tauto|apply var_body]|apply Al_nil].
Qed.
(** what is not modelled fails *)
Definition bare_env : env :=
  Env BySlot [] (fun _ s => Err "not modelled" s) (fun _ s => Err "not modelled" s) (fun _ _ _ => PErr "not modelled") (fun _ _ => PErr "not modelled")
    (fun _ => []) (fun _ => true) (fun a _ => a) (fun a _ => a) (fun a _ => a) (fun a _ => a) (fun a _ => a).
Lemma bare_ok : forall chk mods ar, ext_ok chk (Env BySlot mods (e_void bare_env) (e_ret bare_env) (e_bin bare_env) (e_un bare_env) (e_lazy bare_env) (e_alloc bare_env)
  (e_frem bare_env) (e_fpow bare_env) (e_grem bare_env) (e_gpow bare_env) (e_matmul bare_env)) ar.
Proof.
  intros chk mods ar. split; [|split; [|split; [|split]]]; cbn.
  - intros f s W B. split; [exact W|]. apply above_of; auto. lia.
  - intros f s W B. split; [exact W|]. apply above_of; auto. lia.
  - auto.
  - auto.
  - intros f i ls H. destruct i; discriminate.
Qed.
Example C65_example_sorts : sorts (fun g => g) lib_file.
Proof.
  intros g0 g1 g2 R0 R1 R2. exists (fun i => i). apply sorted_id.
  destruct (file_trees false _ _ _ _ C65_example_means eq_refl) as (ts & H1 & _).
  pose proof (C53_conversion _ _ _ H1) as Q. rewrite R0 in Q. injection Q as ->.
  destruct (NodesLayout.layout_ok ts) as [_ O]. clear H1. revert O R0 R1 R2. generalize (lays 0 None ts) as g. intros g O R0 R1 R2.
  enough (g2 = g) as -> by exact O.
  vm_compute in R0. injection R0 as <-. vm_compute in R1. injection R1 as <-. vm_compute in R2. now injection R2 as <-.
Qed.
Example C65_example : with_library (fun g => g) bare_env O0 L0 5 (fun _ => 0) lib_file lib_means.
Proof.
  split; [reflexivity..|exact C65_example_sorts| |].
  - intros fi g Eg. destruct fi as [|[|fi]]; try discriminate; injection Eg as <-; cbv; repeat (scope_done; try discriminate).
  - exact (bare_ok true _ _).
Qed.
Example C65_example_accepted : match front parse_type (fun g => g) (std_outside O0 L0 5) (flat_map tokens lib_file) with NOk _ => True | _ => False end.
Proof. vm_compute. exact Logic.I. Qed.
Example C65_example_runs : forall l, call_str_ret (with_look l (gl_env (with_file (library O0 L0 5 bare_env) (std_ext O0 L0 5) lib_means))) 30 "f" [] 0 s0 = Ok (vf64 (f_of_Z 2)) s0.
Proof. intros []; vm_compute; reflexivity. Qed.
(** without the declarations of the library the checkers reject the text *)
Example C65_example_rejected : match front parse_type (fun g => g) nothing_outside (flat_map tokens lib_file) with NErr _ _ => True | _ => False end.
Proof. vm_compute. exact Logic.I. Qed.

(** ** Counterexamples *)
(** An external function that takes more than its arguments breaks the bookkeeping: [fn f(a) { x := random()  a = x }]. *)
Definition lax_env : env :=
  Env BySlot [] (fun _ s => Ok tt s) (fun _ s => Ok VNone (set_stack [] s)) (fun _ _ _ => PErr "not modelled") (fun _ _ => PErr "not modelled")
    (fun _ => []) (fun _ => true) (fun a _ => a) (fun a _ => a) (fun a _ => a) (fun a _ => a) (fun a _ => a).
Definition lax_file : list stx :=
  [SNode "fn" [str "name" "f"; SNode "arg" [str "name" "a"]; SValue (MBool "returns" false); SNode "block" [
     is_ "x" ":=" (SNode "call" [str "name" "random"]); is_ "x" "=" (var_ "a")]]].
Definition lax_means : file :=
  File [] [] [Function_ "f" [Arg "a" None TAny false] [] [] [EAssign OpAssign (X "x") (apply "random" []); EAssign OpSet (X "x") (X "a")] TVoid].
Theorem C65_contract_refuted : file_means (fun _ _ => FNone) (fun _ => true) lax_file lax_means /\
  (exists g', front parse_type (fun g => g) (std_outside O0 L0 5) (flat_map tokens lax_file) = NOk g') /\
  call_str (gl_env (with_file (library O0 L0 5 lax_env) (std_ext O0 L0 5) lax_means)) 30 "f" [vf64 f1] 0 s0 = Panic "overflow".
Proof.
  split; [|split; [eexists; vm_compute; reflexivity|vm_compute; reflexivity]].
  set (i := fun _ _ => FNone). set (a := fun _ : Z => true).
  refine (Fi i a [] [] [] [] [_] [] [_] (or_introl (conj eq_refl eq_refl)) (or_introl (conj eq_refl eq_refl)) (Forall2_nil _) _).
  constructor; [|constructor].
  refine (Fm_void i a "f" [_] [] [_; _] [] [Arg "a" None TAny false] [[]] [] [] _ _ (Cu_nil) _ (Forall_nil _) (Tr_all _ _)); [| |repeat constructor].
  - apply (more_args i a false "a" None), As_none.
  - apply Al_cons; [apply is_means; [simpl; tauto|]; apply Eb_call, (Ca_plain i a None "random" _ []); apply Ar_nil|].
    apply Al_cons; [apply is_means; [simpl; tauto|apply var_body]|apply Al_nil].
Qed.
Print Assumptions C65_contract_refuted.
(** Other panics than those of [bookkeeping] are left: [swap] out of range. *)
Theorem C65_panic_refuted : exists O L n f s, In (Entry "swap(mut,_,_)" (IVoid f) (nl [TArray TAny; TF64; TF64] TVoid)) (std O L n) /\
  wf_state true bare_env (fun _ => 0) s /\ f s = Panic "swap".
Proof.
  exists O0, L0, 5, StdModel.array_swap, (set_stack [VArray []; VRef 0; vf64 f1; vf64 f0] s0). split; [|split; [split; repeat constructor|vm_compute; reflexivity]].
  cbn. repeat (first [left; reflexivity|right]).
Qed.
Print Assumptions C65_panic_refuted.
