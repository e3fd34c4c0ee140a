(** * C66: calls of functions through values.

    [call] and [call_ret] run a function of a loaded module that is only known at run time. They keep the contract of external
    functions, so an accepted program that uses them does not lose track of its stacks either. *)
From Coq Require Import String List ZArith Bool Arith Lia.
From Verif Require Import PrintModel ColorModel Float64 TypeModel LifetimeModel NodesModel FoldModel TransformModel NodesSpec LivesSpec NodesLayout P_Nodes P_Scope P_Lives PreludeModel P_Prelude Syntax SyntaxProofs AstModel AstSpec AstProofs AstFile LoadModel InterpModel LibraryModel DynamicModel WfSpec BalanceBase BalanceProofs LibraryProofs DynamicProofs ResolveModel ResolveSpec ResolveProofs RefineProofs Samples P_Balance P_Resolve P_Ast GrammarSpec GrammarBuild GrammarFits GrammarCases GrammarAll P_Grammar VisibleSpec VisibleFile P_Visible LoadSpec LoadProofs BuiltProofs P_Load P_Steady P_Library.
Import ListNotations.
Local Open Scope string_scope.
Local Open Scope nat_scope.
Local Open Scope list_scope.

(** ** The contract *)
Definition dynamic_arity (arity : string -> nat) : Prop := arity "call" = 3 /\ arity "call_ret" = 3 /\ arity "next" = 1 /\ arity "wait_next" = 1.
Lemma takes_void : forall chk E arity k (m : M value) s, takes chk E arity k (wf_v chk E arity) m -> wf_state chk E arity s -> k <= length (r_stack s) ->
  match m s with
  | Ok v s' => wf_v chk E arity v /\ wf_state chk E arity s' /\ r_mod s' = r_mod s /\ r_calls s' = r_calls s /\
               length (r_stack s') + k = length (r_stack s) /\ r_locals s' = r_locals s /\ r_currents s' = r_currents s
  | Err _ s' => wf_state chk E arity s' /\ above (set_stack (firstn (length (r_stack s) - k) (r_stack s)) s) s'
  | Panic w => quiet chk w
  | OOF => True
  end.
Proof.
  intros chk E arity k m s T W K. specialize (T s W K). destruct (m s) as [v s'|e s'|w|]; try exact T. destruct T as (W' & M & C & N & Lo & Cu). split; [exact W'|now apply above_of].
Qed.
Theorem C66_contract : forall chk E arity X n d held, wf_mods chk E arity -> externals E -> dynamic_arity arity -> ext_ok chk E arity -> ext_ok chk (dyn_env X E n d held) arity.
Proof.
  intros chk E arity X n d held HM HE (A1 & A2 & A3 & A4) HX. revert held. induction d as [|d IH]; intros held.
  all: destruct HX as (X1 & X2 & X3 & X4 & X5); split; [|split; [|split; [exact X3|split; [exact X4|exact X5]]]]; intros f s W B; cbn [dyn_env put_calls e_void e_ret].
  - destruct (String.eqb_spec f "call"); [exact Logic.I|exact (X1 f s W B)].
  - destruct (String.eqb_spec f "call_ret"); [exact Logic.I|]. destruct (String.eqb_spec f "next"); [subst f; rewrite A3 in *; exact (takes_void chk E arity 1 _ s (takes_next chk E arity) W B)|].
    destruct (String.eqb_spec f "wait_next"); [subst f; rewrite A4 in *; exact (takes_void chk E arity 1 _ s (takes_wait_next chk E arity X) W B)|exact (X2 f s W B)].
  - destruct (String.eqb_spec f "call"); [subst f; rewrite A1 in *|exact (X1 f s W B)].
    pose proof (call_value_ok chk E arity HM HE X n (fun o => dyn_env X E n d (o :: held)) held) as H.
    specialize (H (fun o => ltac:(destruct d; do 2 eexists; reflexivity)) (fun o => IH (o :: held)) s W B). destruct (call_value X (e_mods E) n _ held s); try exact H. exact (proj2 H).
  - destruct (String.eqb_spec f "call_ret"); [subst f; rewrite A2 in *|].
    { exact (call_ret_value_ok chk E arity HM HE X n (fun o => dyn_env X E n d (o :: held)) held (fun o => ltac:(destruct d; do 2 eexists; reflexivity)) (fun o => IH (o :: held)) s W B). }
    destruct (String.eqb_spec f "next"); [subst f; rewrite A3 in *; exact (takes_void chk E arity 1 _ s (takes_next chk E arity) W B)|].
    destruct (String.eqb_spec f "wait_next"); [subst f; rewrite A4 in *; exact (takes_void chk E arity 1 _ s (takes_wait_next chk E arity X) W B)|exact (X2 f s W B)].
Qed.
Print Assumptions C66_contract.

(** ** What is called *)
(** [s], when [call] or [call_ret] starts: the module, the name and the arguments are the last three values. *)
Record about_to_call (mods : list modl) (s : rt) (o : nat) (name : string) (args : list value) (s' : rt) : Prop := {
  ac_caller : exists c rest m g, r_calls s = c :: rest /\ nth_error mods (r_mod s) = Some m /\ nth_error (m_funs m) (c_index c) = Some g;
  ac_rest : exists st mv fv av, r_stack s = st ++ [mv; fv; av] /\ s' = set_stack st s /\
    getv mv s' = Ok (VRust o) s' /\ getv fv s' = Ok (VStr name) s' /\ getv av s' = Ok (VArray args) s' }.
Lemma pop_last : forall st v s, r_stack s = st ++ [v] -> pop s = Ok v (set_stack st s).
Proof. intros st v s H. unfold pop. rewrite H, rev_app_distr, removelast_last. reflexivity. Qed.
Lemma about_text : forall mods s o name args s', about_to_call mods s o name args s' ->
  (calling mods ;;; a <- pop ;; f <- pop ;; m <- pop ;; name <- as_text f ;; args <- as_array a ;; o <- as_object m ;; ret (o, name, args)) s = Ok (o, name, args) s'.
Proof.
  intros mods s o name args s' [(c & rest & m & g & C1 & C2 & C3) (st & mv & fv & av & S & -> & G1 & G2 & G3)].
  unfold bind at 1. unfold calling. rewrite C1, C2, C3. unfold bind at 1.
  rewrite (pop_last (st ++ [mv; fv]) av s) by (rewrite S, <- app_assoc; reflexivity). unfold bind at 1.
  rewrite (pop_last (st ++ [mv]) fv) by (cbn; rewrite <- app_assoc; reflexivity). unfold bind at 1. rewrite (pop_last st mv) by reflexivity.
  match goal with |- context [set_stack st ?t] => change (set_stack st t) with (set_stack st s) end.
  unfold as_text, as_array, as_object, bind. cbv beta. rewrite G2. cbn. rewrite G3. cbn. rewrite G1. reflexivity.
Qed.
Lemma about_args : forall mods s o name args s', about_to_call mods s o name args s' ->
  (calling mods ;;; a <- pop ;; f <- pop ;; m <- pop ;; args <- as_array a ;; name <- as_text f ;; o <- as_object m ;; ret (o, name, args)) s = Ok (o, name, args) s'.
Proof.
  intros mods s o name args s' [(c & rest & m & g & C1 & C2 & C3) (st & mv & fv & av & S & -> & G1 & G2 & G3)].
  unfold bind at 1. unfold calling. rewrite C1, C2, C3. unfold bind at 1.
  rewrite (pop_last (st ++ [mv; fv]) av s) by (rewrite S, <- app_assoc; reflexivity). unfold bind at 1.
  rewrite (pop_last (st ++ [mv]) fv) by (cbn; rewrite <- app_assoc; reflexivity). unfold bind at 1. rewrite (pop_last st mv) by reflexivity.
  match goal with |- context [set_stack st ?t] => change (set_stack st t) with (set_stack st s) end.
  unfold as_text, as_array, as_object, bind. cbv beta. rewrite G3. cbn. rewrite G2. cbn. rewrite G1. reflexivity.
Qed.
(** A function of the module behind [o] that takes these arguments *)
Record takes_args (X : outer) (mods : list modl) (o : nat) (name : string) (args : list value) (md : nat) (m : modl) (i : Z) (f : func) : Prop := {
  ta_mod : mod_of X o = Some md;
  ta_modl : nth_error mods md = Some m;
  ta_find : find_function m name 0 = FLoaded i;
  ta_fun : nth_error (m_funs m) (Z.to_nat i) = Some f;
  ta_args : length args = length (fn_args f);
  ta_lives : check (lifetimes X f) args = KOk }.
(** the same outcome, but for the text of an error *)
Definition same_outcome {A} (x y : outcome A) : Prop :=
  match x, y with
  | Ok a s, Ok b t => a = b /\ s = t
  | Err _ s, Err _ t => s = t
  | Panic w, Panic v => w = v
  | OOF, OOF => True
  | _, _ => False
  end.
(** Such a call does what calling the function from Rust does, after the three values are gone. *)
Theorem C66_call_as_from_rust : forall X E n inner held s s' o name args md m i f,
  about_to_call (e_mods E) s o name args s' -> takes_args X (e_mods E) o name args md m i f -> e_mods (inner o) = e_mods E -> ~ In o held ->
  call_value X (e_mods E) n inner held s = call_str (inner o) n name args md s'.
Proof.
  intros X E n inner held s s' o name args md m i f A [T1 T2 T3 T4 T5 T6] HI NH. unfold call_value. unfold bind at 1. rewrite (about_text _ _ _ _ _ _ A).
  unfold through. destruct (existsb (Nat.eqb o) held) eqn:EX; [exfalso; apply existsb_exists in EX; destruct EX as (y & I & Q); apply Nat.eqb_eq in Q; subst y; contradiction|].
  rewrite T1, T2, T3, T4. replace (Nat.eqb (length (fn_args f)) (length args)) with true by (symmetry; apply Nat.eqb_eq; congruence). cbn [negb]. rewrite T6.
  unfold call_str. rewrite HI, T2, T3. unfold bind. destruct (call_ (inner o) n (FLoaded i) name (map EVar args) md s'); reflexivity.
Qed.
Print Assumptions C66_call_as_from_rust.
Theorem C66_call_ret_as_from_rust : forall X E n inner held s s' o name args md m i f,
  about_to_call (e_mods E) s o name args s' -> takes_args X (e_mods E) o name args md m i f -> e_mods (inner o) = e_mods E -> ~ In o held -> externals E -> fn_lazy f = [] ->
  same_outcome (call_ret_value X (e_mods E) n inner held s) (call_str_ret (inner o) n name args md s').
Proof.
  intros X E n inner held s s' o name args md m i f A [T1 T2 T3 T4 T5 T6] HI NH HE HZ. unfold call_ret_value. unfold bind at 1. rewrite (about_args _ _ _ _ _ _ A).
  unfold through. destruct (existsb (Nat.eqb o) held) eqn:EX; [exfalso; apply existsb_exists in EX; destruct EX as (y & I & Q); apply Nat.eqb_eq in Q; subst y; contradiction|].
  rewrite T1, T2, T3, T4. replace (Nat.eqb (length (fn_args f)) (length args)) with true by (symmetry; apply Nat.eqb_eq; congruence). cbn [negb]. rewrite T6.
  unfold call_str_ret. rewrite HI, T2, T3.
  assert (Ht : target (inner o) md 0 i = Some f).
  { destruct (found_target E md m name i HE T2 T3) as (f' & P & Q). rewrite T4 in Q. injection Q as <-. unfold target in *. rewrite HI. exact P. }
  pose proof (loaded_value (inner o) (eval (inner o) n) n (map EVar args) i name true f (set_mod md s') (fun r _ => snd r = FContinue /\ one_value (fn_ret f) (fst r)) Ht) as H1.
  assert (forall P Q : Prop, (P -> Q) -> P -> Q) as Tr by auto.
  eapply Tr in H1; [|intros H2; apply H2; intros k Hk s0; exact (push_loaded_vars (inner o) n _ args k s0 _ HZ Hk 0)]. unfold wp in H1.
  unfold bind, call_. cbn [call_internal]. destruct (call_loaded (inner o) (eval (inner o) n) n (map EVar args) i name true (set_mod md s')) as [[x fl] s1|msg s1|w|]; cbn; auto.
  destruct H1 as [H1 _]. cbn in H1. subst fl. destruct x; cbn; auto.
Qed.
Print Assumptions C66_call_ret_as_from_rust.
(** A function that is not there, or does not take these arguments, is not called: there is an error, and the three values are gone. *)
Theorem C66_refused : forall X E n inner held s s' o name args md m,
  about_to_call (e_mods E) s o name args s' -> ~ In o held -> mod_of X o = Some md -> nth_error (e_mods E) md = Some m ->
  match find_function m name 0 with
  | FLoaded i => exists f, nth_error (m_funs m) (Z.to_nat i) = Some f /\ (length (fn_args f) <> length args \/ exists e, check (lifetimes X f) args = KErr e)
  | _ => True
  end ->
  (exists msg, call_value X (e_mods E) n inner held s = Err msg s') /\ (exists msg, call_ret_value X (e_mods E) n inner held s = Err msg s').
Proof.
  intros X E n inner held s s' o name args md m A NH T1 T2 H.
  assert (R : exists msg, through X (e_mods E) n inner held o name args s' = Err msg s').
  { unfold through. destruct (existsb (Nat.eqb o) held) eqn:EX; [exfalso; apply existsb_exists in EX; destruct EX as (y & I & Q); apply Nat.eqb_eq in Q; subst y; contradiction|].
    rewrite T1, T2. destruct (find_function m name 0); try (eexists; reflexivity). destruct H as (f & F & H). rewrite F. destruct (Nat.eqb_spec (length (fn_args f)) (length args)) as [L|L]; [|eexists; reflexivity].
    destruct H as [H|(e & H)]; [contradiction|]. cbn [negb]. rewrite H. eexists; reflexivity. }
  destruct R as (msg & R). split; exists msg.
  - unfold call_value. unfold bind at 1. rewrite (about_text _ _ _ _ _ _ A). unfold bind. rewrite R. reflexivity.
  - unfold call_ret_value. unfold bind at 1. rewrite (about_args _ _ _ _ _ _ A). unfold bind. rewrite R. reflexivity.
Qed.
Print Assumptions C66_refused.

(** An object whose function is running is not called again: the process stops. *)
Theorem C66_locked : forall X E n inner held s s' o name args, about_to_call (e_mods E) s o name args s' -> In o held ->
  call_value X (e_mods E) n inner held s = Panic "locked" /\ call_ret_value X (e_mods E) n inner held s = Panic "locked".
Proof.
  intros X E n inner held s s' o name args A I.
  assert (R : through X (e_mods E) n inner held o name args s' = Panic "locked").
  { unfold through. replace (existsb (Nat.eqb o) held) with true; [reflexivity|]. symmetry. apply existsb_exists. exists o. split; [exact I|apply Nat.eqb_refl]. }
  split.
  - unfold call_value. unfold bind at 1. rewrite (about_text _ _ _ _ _ _ A). unfold bind. rewrite R. reflexivity.
  - unfold call_ret_value. unfold bind at 1. rewrite (about_args _ _ _ _ _ _ A). unfold bind. rewrite R. reflexivity.
Qed.
Print Assumptions C66_locked.
(** The function runs with its object locked, besides those that were. *)
Theorem C66_held : forall X E n d held s s' o name args, about_to_call (e_mods E) s o name args s' ->
  (In o held -> e_void (dyn_env X E n (Datatypes.S d) held) "call" s = Panic "locked" /\ e_ret (dyn_env X E n (Datatypes.S d) held) "call_ret" s = Panic "locked") /\
  (forall md m i f, ~ In o held -> takes_args X (e_mods E) o name args md m i f ->
   e_void (dyn_env X E n (Datatypes.S d) held) "call" s = call_str (dyn_env X E n d (o :: held)) n name args md s' /\
   (externals E -> fn_lazy f = [] -> same_outcome (e_ret (dyn_env X E n (Datatypes.S d) held) "call_ret" s) (call_str_ret (dyn_env X E n d (o :: held)) n name args md s'))).
Proof.
  intros X E n d held s s' o name args A. split; [exact (fun I => C66_locked X E n (fun o => dyn_env X E n d (o :: held)) held s s' o name args A I)|]. intros md m i f NI T. split.
  - apply (C66_call_as_from_rust X E n (fun o => dyn_env X E n d (o :: held)) held s s' o name args md m i f A T); auto. destruct d; reflexivity.
  - intros HE HZ. apply (C66_call_ret_as_from_rust X E n (fun o => dyn_env X E n d (o :: held)) held s s' o name args md m i f A T); auto. destruct d; reflexivity.
Qed.
Print Assumptions C66_held.

(** ** Accepted programs of several modules *)
Theorem C66_scoped : forall E ext arity K fs, (forall f, In f fs -> NoDup (map h_name (d_fns f)) /\ (forall fn, In fn (d_fns f) -> visible_function (callable_in K f) fn /\ all_ok built (h_block fn))) ->
  told K ext arity -> (forall md f fi g, nth_error fs md = Some f -> nth_error (m_funs (load ext f)) fi = Some g -> shaped_fun (with_files E ext fs) md fi g) ->
  scoped_mods (with_files E ext fs) arity.
Proof.
  intros E ext arity K fs ALL TOLD SH md m fi g Em Eg. cbn [with_files e_mods] in Em. rewrite nth_error_map in Em. destruct (nth_error fs md) as [f|] eqn:Ef; [|discriminate]. injection Em as <-.
  destruct (ALL f (nth_error_In _ _ Ef)) as [ND VB]. destruct (SH md f fi g Ef Eg) as (L & S & D).
  split; [exact L|]. split; [|exact D]. cbn [load m_funs] in Eg. rewrite calls_nth, nth_error_map in Eg. cbn [Nat.add m_funs] in Eg.
  destruct (nth_error (d_fns f) fi) as [fn|] eqn:En; [|discriminate]. injection Eg as <-. cbn [with_calls registered fn_ret fn_args fn_currents fn_block fn_lazy] in *.
  destruct (VB fn (nth_error_In _ _ En)) as [VIS BU].
  apply (seq_s (with_files E ext fs) arity md fi _ (callable_in K f)) with (V := map r_name (h_args fn) ++ map fst (h_currents fn)) (ret := returns (h_ret fn)).
  - apply Forall_forall. intros e _. refine (proj1 (proj2 (visible_scoped _ _ _ _ _ _ _)) e). intros x n C. unfold find_function. cbn [m_funs m_ext].
    destruct (find_last x 0 (map registered (d_fns f)) None) as [j|] eqn:F.
    + apply find_last_some in F. destruct F as [F|(k & g & -> & N & X)]; [discriminate|]. rewrite nth_error_map in N. destruct (nth_error (d_fns f) k) as [fk|] eqn:Ek; [|discriminate]. injection N as <-.
      cbn [registered fn_name] in X. exists (with_calls (Modl (map registered (d_fns f)) ext) k (registered fk)). split.
      * unfold target. cbn [with_files e_mods]. replace (Z.of_nat (0 + k) - Z.of_nat fi + Z.of_nat fi)%Z with (Z.of_nat k) by lia. destruct (Z.ltb_spec (Z.of_nat k) 0); [lia|]. rewrite Nat2Z.id.
        rewrite nth_error_map, Ef. cbn [option_map load m_funs]. rewrite calls_nth, nth_error_map, Ek. reflexivity.
      * cbn [with_calls registered fn_args]. rewrite map_length. destruct C as [(fn' & I & X' & W)|(NO & _)].
        -- apply In_nth_error in I. destruct I as [k' Ek']. rewrite <- W. f_equal. f_equal. apply (same_place h_name _ k k' _ _ ND Ek Ek'). congruence.
        -- exfalso. apply (NO fk); [eapply nth_error_In; eauto|exact X].
    + apply find_last_none in F. destruct F as [_ NO]. destruct C as [(fn' & I & X' & _)|(_ & lts & O & W)].
      * exfalso. apply (NO (registered fn')); [now apply in_map|exact X'].
      * specialize (TOLD x lts O). rewrite W in TOLD. destruct (find_ext x ext FNone); try contradiction; exact TOLD.
  - exact VIS.
  - exact BU.
  - exact S.
  - apply knows_entry.
Qed.
Print Assumptions C66_scoped.

(** Each text is accepted, with the declarations of the library, and without imports of other modules. *)
Record modules_ok (in_of : option string -> string -> callee) (alloc : Z -> bool) (sort : fgraph -> fgraph) (E : env) (O : StdModel.math) (L : libm) (n : nat) (other : string -> nat) (texts : list (list stx)) (fs : list file) : Prop := {
  mo_means : Forall2 (file_means in_of alloc) texts fs;
  mo_linkable : Forall (fun F => forallb (nodes_all linkable) F = true) texts;
  mo_traceable : Forall (fun F => forallb (nodes_all traceable) F = true) texts;
  mo_regular : Forall (fun F => forallb (nodes_all regular) F = true) texts;
  mo_sorts : Forall (sorts sort) texts;
  mo_accepted : Forall (fun F => exists g, front parse_type sort (std_outside O L n) (flat_map tokens F) = NOk g) texts;
  mo_shaped : forall md f fi g, nth_error fs md = Some f -> nth_error (m_funs (load (std_ext O L n) f)) fi = Some g -> shaped_fun (with_files E (std_ext O L n) fs) md fi g;
  mo_rest : ext_ok true (gl_env (with_files E (std_ext O L n) fs)) (std_arity O L n other) }.
Definition program (O : StdModel.math) (L : libm) (n : nat) (E : env) (fs : list file) : env := gl_env (with_files (library O L n E) (std_ext O L n) fs).
Lemma modules_scoped : forall in_of alloc sort E O L n other texts fs, modules_ok in_of alloc sort E O L n other texts fs ->
  scoped_mods (with_files (library O L n E) (std_ext O L n) fs) (std_arity O L n other).
Proof.
  intros in_of alloc sort E O L n other texts fs [M A B C D R S X]. apply C66_scoped with (K := std_outside O L n); [|apply C65_told|exact S].
  intros f I. assert (T : exists F, In F texts /\ file_means in_of alloc F f).
  { clear - M I. induction M as [|F f' texts fs H M IH]; [contradiction|]. destruct I as [<-|I]; [exists F; split; [left; reflexivity|exact H]|]. destruct (IH I) as (F' & I' & H'). exists F'. split; [right; exact I'|exact H']. }
  destruct T as (F & IF & MF). rewrite Forall_forall in A, B, C, D, R. destruct (R F IF) as (g & G).
  split; [eapply C62_functions; eauto|]. intros fn If. split; [exact (proj2 (C62_visible _ _ _ _ _ _ _ MF (A F IF) (B F IF) (C F IF) (D F IF) G) fn If)|exact (file_built _ _ _ _ MF (C F IF) fn If)].
Qed.
Lemma modules_externals : forall O L n E fs, externals (program O L n E fs).
Proof. intros O L n E fs m H. cbn [program gl_env with_files e_mods] in H. rewrite map_map in H. apply in_map_iff in H. destruct H as (f & <- & _). exact (std_externals O L n). Qed.
Lemma modules_ext : forall in_of alloc sort E O L n other texts fs l X k d held, modules_ok in_of alloc sort E O L n other texts fs ->
  wf_mods true (program O L n E fs) (std_arity O L n other) /\ ext_ok true (dyn_env X (with_look l (program O L n E fs)) k d held) (std_arity O L n other).
Proof.
  intros in_of alloc sort E O L n other texts fs l X k d held H. pose proof (scoped_wf _ _ (modules_scoped _ _ _ _ _ _ _ _ _ _ H)) as W. split; [exact W|].
  apply C66_contract; [exact W|exact (modules_externals O L n E fs)|repeat split|]. exact (C65_contract true _ O L n other (mo_rest _ _ _ _ _ _ _ _ _ _ H)).
Qed.
Theorem C66_run : forall in_of alloc sort E O L n other texts fs l X k d held k' md s w, modules_ok in_of alloc sort E O L n other texts fs ->
  wf_state true (program O L n E fs) (std_arity O L n other) s -> r_calls s = [] -> In w bookkeeping ->
  run (dyn_env X (with_look l (program O L n E fs)) k d held) k' md s <> Panic w.
Proof.
  intros in_of alloc sort E O L n other texts fs l X k d held k' md s w H W C I. destruct (modules_ext _ _ _ _ _ _ _ _ _ _ l X k d held H) as [HM HX].
  set (P := dyn_env X (with_look l (program O L n E fs)) k d held) in *. assert (EM : e_mods P = e_mods (program O L n E fs)) by (destruct d; reflexivity).
  apply (run_quiet P (std_arity O L n other)); auto.
  - destruct d; exact HM.
  - destruct d; exact W.
  - right. intros m Hm. rewrite EM in Hm. exact (modules_externals O L n E fs m Hm).
Qed.
Print Assumptions C66_run.
Theorem C66_call : forall in_of alloc sort E O L n other texts fs l X k d held k' md m i f name args s w, modules_ok in_of alloc sort E O L n other texts fs ->
  wf_state true (program O L n E fs) (std_arity O L n other) s -> r_calls s = [] ->
  nth_error (e_mods (program O L n E fs)) md = Some m -> find_function m name 0 = FLoaded i -> nth_error (m_funs m) (Z.to_nat i) = Some f ->
  Forall (wf_v true (program O L n E fs) (std_arity O L n other)) args -> length args = length (fn_args f) -> In w bookkeeping ->
  call_str (dyn_env X (with_look l (program O L n E fs)) k d held) k' name args md s <> Panic w /\
  call_str_ret (dyn_env X (with_look l (program O L n E fs)) k d held) k' name args md s <> Panic w.
Proof.
  intros in_of alloc sort E O L n other texts fs l X k d held k' md m i f name args s w H W C Em Ef Eg Ha Hl I. destruct (modules_ext _ _ _ _ _ _ _ _ _ _ l X k d held H) as [HM HX].
  set (P := dyn_env X (with_look l (program O L n E fs)) k d held) in *. assert (EM : e_mods P = e_mods (program O L n E fs)) by (destruct d; reflexivity).
  destruct (call_str_quiet P (std_arity O L n other) k' name args md m s w) as [Q|[Q _]]; auto.
  - destruct d; exact HM.
  - destruct d; exact W.
  - rewrite EM. exact Em.
  - intros i' Hf'. rewrite Ef in Hf'. injection Hf' as <-. destruct (found_target (program O L n E fs) md m name i (modules_externals O L n E fs) Em Ef) as (f' & T & N). exists f'. split; [destruct d; exact T|congruence].
  - destruct d; exact Ha.
  - exfalso. exact (Q i Ef).
Qed.
Print Assumptions C66_call.

(** ** Two modules

    [fn f(m) -> { x := call_ret(m, "f", [])  return = x }], and the file of C65 *)
Definition dyn_text (l : list stx) : list stx :=
  [SNode "fn" [str "name" "f"; SNode "arg" [str "name" "m"]; flag "returns"; SNode "block" [
     is_ "x" ":=" (SNode "call" [str "name" "call_ret"; SNode "call_arg" [var_ "m"]; SNode "call_arg" [str "text" "f"]; SNode "call_arg" [SNode "array" l]]);
     is_ "return" "=" (var_ "x")]]].
Definition dyn_means (args : list expr) : file :=
  File [] [] [Function_ "f" [Arg "m" None TAny false] [] []
    [EAssign OpAssign (X "x") (apply "call_ret" [X "m"; EVar (VStr "f"); EArray args]); EAssign OpSet (X "return") (X "x")] TAny].
Lemma dyn_means_ok : forall l es, all_mean (fun _ _ => FNone) (fun _ => true) "array_item" l es -> file_means (fun _ _ => FNone) (fun _ => true) (dyn_text l) (dyn_means es).
Proof.
  set (i := fun _ _ => FNone). set (a := fun _ : Z => true). intros l es H.
  refine (Fi i a [] [] [] [] [_] [] [_] (or_introl (conj eq_refl eq_refl)) (or_introl (conj eq_refl eq_refl)) (Forall2_nil _) _).
  constructor; [|constructor].
  refine (Fm_block i a "f" [_] [] [] None [_; _] [] [Arg "m" None TAny false] [[]] [] [] _ _ (Cu_nil) (Tp_none _) _ (Forall_nil _) (Tr_all _ _)); [| |repeat constructor].
  - apply (more_args i a false "m" None), As_none.
  - apply Al_cons; [apply is_means; [simpl; tauto|]; apply Eb_call, (Ca_plain i a None "call_ret" _ [false; false; false]);
      apply Ar_cons; [apply Ab_expr, var_body|apply Ar_cons; [apply Ab_expr, Eb_text|apply Ar_cons; [apply Ab_expr, Eb_array, H|apply Ar_nil]]]|].
    apply Al_cons; [apply is_means; [simpl; tauto|apply var_body]|apply Al_nil].
Qed.
Definition two : list file := [dyn_means []; lib_means].
(** object 7 holds the second module *)
Definition X7 : outer := Outer (fun o => if Nat.eqb o 7 then Some 1 else None) (fun _ => []) (fun _ _ => false).
Example C66_example_sorts : sorts (fun g => g) (dyn_text []).
Proof.
  intros g0 g1 g2 R0 R1 R2. exists (fun i => i). apply sorted_id.
  destruct (file_trees false _ _ _ _ (dyn_means_ok [] [] (Al_nil _ _ _)) eq_refl) as (ts & H1 & _).
  pose proof (C53_conversion _ _ _ H1) as Q. rewrite R0 in Q. injection Q as ->.
  destruct (NodesLayout.layout_ok ts) as [_ O]. clear H1. revert O R0 R1 R2. generalize (lays 0 None ts) as g. intros g O R0 R1 R2.
  enough (g2 = g) as -> by exact O.
  vm_compute in R0. injection R0 as <-. vm_compute in R1. injection R1 as <-. vm_compute in R2. now injection R2 as <-.
Qed.
Example C66_example : modules_ok (fun _ _ => FNone) (fun _ => true) (fun g => g) bare_env O0 L0 5 (fun _ => 0) [dyn_text []; lib_file] two.
Proof.
  split.
  - constructor; [apply dyn_means_ok, Al_nil|]. constructor; [exact C65_example_means|constructor].
  - repeat constructor.
  - repeat constructor.
  - repeat constructor.
  - constructor; [exact C66_example_sorts|]. constructor; [exact C65_example_sorts|constructor].
  - constructor; [eexists; vm_compute; reflexivity|]. constructor; [eexists; vm_compute; reflexivity|constructor].
  - intros md f fi g Ef Eg. destruct md as [|[|[|md]]]; try discriminate; injection Ef as <-; destruct fi as [|[|fi]]; try discriminate; injection Eg as <-; cbv; repeat (scope_done; try discriminate).
  - exact (bare_ok true _ _).
Qed.
Example C66_example_runs : forall l, call_str_ret (dyn_env X7 (with_look l (program O0 L0 5 bare_env two)) 30 2 []) 30 "f" [VRust 7] 0 s0 = Ok (vf64 (f_of_Z 2)) s0.
Proof. intros []; vm_compute; reflexivity. Qed.
Example C66_example_state : wf_state true (program O0 L0 5 bare_env two) (std_arity O0 L0 5 (fun _ => 0)) s0 /\ r_calls s0 = [].
Proof. split; [split; constructor|reflexivity]. Qed.
(** the state in which [call_ret] is reached *)
Example C66_example_about : exists m i f, let s := set_stack [VRust 7; VNone; VRef 0; VStr "f"; VArray []] (RT 0 [] [Call "f" 0 0 0 0] [] [] (World [] [] [])) in
  about_to_call (e_mods (program O0 L0 5 bare_env two)) s 7 "f" [] (set_stack [VRust 7; VNone] s) /\
  takes_args X7 (e_mods (program O0 L0 5 bare_env two)) 7 "f" [] 1 m i f /\ fn_lazy f = [].
Proof.
  eexists. exists 0%Z. eexists. cbv zeta. split; [|split; [split|]]; try (vm_compute; reflexivity). split.
  - do 4 eexists. repeat split; vm_compute; reflexivity.
  - exists [VRust 7; VNone]. do 3 eexists. repeat split; vm_compute; reflexivity.
Qed.
(** with arguments it is refused *)
Example C66_example_refused : exists msg s', call_str_ret (dyn_env X7 (program O0 L0 5 bare_env [dyn_means [EVar (vf64 f1)]; lib_means]) 30 2 []) 30 "f" [VRust 7] 0 s0 = Err msg s'.
Proof. do 2 eexists. vm_compute. reflexivity. Qed.

(** ** Counterexamples *)
(** A module that is called through a value cannot be called through the same value meanwhile: [fn f(m) -> { x := call_ret(m, "f", [m])  return = x }].
    The text is accepted; the second call finds the object locked. *)
Definition X8 : outer := Outer (fun o => if Nat.eqb o 7 then Some 0 else None) (fun _ => []) (fun _ _ => false).
Theorem C66_locked_refuted : file_means (fun _ _ => FNone) (fun _ => true) (dyn_text [SNode "array_item" [var_ "m"]]) (dyn_means [X "m"]) /\
  (exists g, front parse_type (fun g => g) (std_outside O0 L0 5) (flat_map tokens (dyn_text [SNode "array_item" [var_ "m"]])) = NOk g) /\
  call_str_ret (dyn_env X8 (program O0 L0 5 bare_env [dyn_means [X "m"]]) 30 3 []) 30 "f" [VRust 7] 0 s0 = Panic "locked".
Proof.
  split; [apply dyn_means_ok; apply Al_cons; [apply var_body|apply Al_nil]|]. split; [eexists; vm_compute; reflexivity|vm_compute; reflexivity].
Qed.
Print Assumptions C66_locked_refuted.
