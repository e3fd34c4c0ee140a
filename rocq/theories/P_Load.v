(** * C63: an accepted text runs the same with and without [debug_lookup].

    From the text to the run: the text is read (C60), accepted by the checkers (C62), loaded ([load]) and given slot numbers
    (C17). *)
From Coq Require Import String List ZArith Bool Arith Lia.
From Verif Require Import PrintModel ColorModel Float64 TypeModel LifetimeModel NodesModel FoldModel TransformModel NodesSpec LivesSpec NodesLayout P_Nodes P_Scope P_Lives Syntax SyntaxProofs InterpModel WfSpec BalanceBase ResolveModel ResolveSpec ResolveProofs RefineProofs Samples P_Balance P_Resolve AstModel AstSpec AstProofs AstFile P_Ast GrammarSpec GrammarBuild GrammarFits GrammarCases GrammarAll P_Grammar VisibleSpec VisibleFile P_Visible LoadModel LoadSpec LoadProofs BuiltProofs.
Import ListNotations.
Local Open Scope string_scope.
Local Open Scope nat_scope.
Local Open Scope list_scope.

(** ** Functions that are found *)
Lemma find_last_some : forall x l i acc j, find_last x i l acc = Some j ->
  acc = Some j \/ exists k f, j = i + k /\ nth_error l k = Some f /\ fn_name f = x.
Proof.
  induction l as [|f l IH]; intros i acc j E; [now left|]. cbn [find_last] in E. destruct (IH _ _ _ E) as [A|(k & f' & -> & N & X)].
  - destruct (String.eqb (fn_name f) x) eqn:R; [|now left]. injection A as <-. right. exists 0, f. split; [lia|]. split; [reflexivity|now apply String.eqb_eq].
  - right. exists (S k), f'. split; [lia|auto].
Qed.
Lemma find_last_none : forall x l i acc, find_last x i l acc = None -> acc = None /\ forall f, In f l -> fn_name f <> x.
Proof.
  induction l as [|f l IH]; intros i acc E; [split; [exact E|intros f []]|]. cbn [find_last] in E. destruct (IH _ _ E) as [A B].
  destruct (String.eqb (fn_name f) x) eqn:R; [discriminate|]. split; [exact A|]. intros g [<-|I]; [|auto]. intros X. apply String.eqb_neq in R. contradiction.
Qed.
Lemma calls_nth : forall m l i k, nth_error (with_calls_from m i l) k = option_map (with_calls m (i + k)) (nth_error l k).
Proof.
  induction l as [|f l IH]; intros i [|k]; cbn [with_calls_from nth_error option_map]; try reflexivity; [now rewrite Nat.add_0_r|]. rewrite IH. now replace (S i + k) with (i + S k) by lia.
Qed.
Lemma same_place : forall {A B} (h : A -> B) l k k' a b, NoDup (map h l) -> nth_error l k = Some a -> nth_error l k' = Some b -> h a = h b -> a = b.
Proof.
  intros A B h l k k' a b N E E' H. assert (k = k'); [|congruence]. rewrite NoDup_nth_error in N. apply N; [rewrite map_length; apply nth_error_Some; congruence|].
  rewrite !nth_error_map, E, E'. cbn. congruence.
Qed.

(** A file whose functions know what they use becomes a well-scoped program. *)
Theorem C63_scoped : forall E ext arity K f, NoDup (map h_name (d_fns f)) -> (forall fn, In fn (d_fns f) -> visible_function (callable_in K f) fn) ->
  (forall fn, In fn (d_fns f) -> all_ok built (h_block fn)) -> told K ext arity -> (forall fi g, nth_error (m_funs (load ext f)) fi = Some g -> shaped_fun (with_file E ext f) 0 fi g) ->
  scoped_mods (with_file E ext f) arity.
Proof.
  intros E ext arity K f ND VIS BU TOLD SH md m fi g Em Eg. destruct md as [|[|md]]; try discriminate. injection Em as <-. destruct (SH fi g Eg) as (L & S & D).
  split; [exact L|]. split; [|exact D]. cbn [load m_funs] in Eg. rewrite calls_nth, nth_error_map in Eg. cbn [Nat.add m_funs] in Eg.
  destruct (nth_error (d_fns f) fi) as [fn|] eqn:En; [|discriminate]. injection Eg as <-. cbn [with_calls registered fn_ret fn_args fn_currents fn_block fn_lazy] in *.
  apply (seq_s (with_file E ext f) arity 0 fi _ (callable_in K f)) with (V := map r_name (h_args fn) ++ map fst (h_currents fn)) (ret := returns (h_ret fn)).
  - apply Forall_forall. intros e _. refine (proj1 (proj2 (visible_scoped _ _ _ _ _ _ _)) e). intros x n C. unfold find_function. cbn [m_funs m_ext].
    destruct (find_last x 0 (map registered (d_fns f)) None) as [j|] eqn:F.
    + apply find_last_some in F. destruct F as [F|(k & g & -> & N & X)]; [discriminate|]. rewrite nth_error_map in N. destruct (nth_error (d_fns f) k) as [fk|] eqn:Ek; [|discriminate]. injection N as <-.
      cbn [registered fn_name] in X. exists (with_calls (Modl (map registered (d_fns f)) ext) k (registered fk)). split.
      * unfold target. cbn [with_file e_mods]. replace (Z.of_nat (0 + k) - Z.of_nat fi + Z.of_nat fi)%Z with (Z.of_nat k) by lia. destruct (Z.ltb_spec (Z.of_nat k) 0); [lia|]. rewrite Nat2Z.id.
        cbn [nth_error load m_funs]. rewrite calls_nth, nth_error_map, Ek. reflexivity.
      * cbn [with_calls registered fn_args]. rewrite map_length. destruct C as [(fn' & I & X' & W)|(NO & _)].
        -- apply In_nth_error in I. destruct I as [k' Ek']. rewrite <- W. f_equal. f_equal. apply (same_place h_name _ k k' _ _ ND Ek Ek'). congruence.
        -- exfalso. apply (NO fk); [eapply nth_error_In; eauto|exact X].
    + apply find_last_none in F. destruct F as [_ NO]. destruct C as [(fn' & I & X' & _)|(_ & lts & O & W)].
      * exfalso. apply (NO (registered fn')); [now apply in_map|exact X'].
      * specialize (TOLD x lts O). rewrite W in TOLD. destruct (find_ext x ext FNone); try contradiction; exact TOLD.
  - exact (VIS fn (nth_error_In _ _ En)).
  - exact (BU fn (nth_error_In _ _ En)).
  - exact S.
  - apply knows_entry.
Qed.
Print Assumptions C63_scoped.

(** What is asked of a text beyond being accepted *)
Record runnable (sort : fgraph -> fgraph) (E : env) (ext : list (string * callee)) (arity : string -> nat) (K : outside) (F : list stx) (f : file) : Prop := {
  ru_linkable : forallb (nodes_all linkable) F = true;
  ru_traceable : forallb (nodes_all traceable) F = true;
  ru_regular : forallb (nodes_all regular) F = true;
  ru_sorts : sorts sort F;
  ru_told : told K ext arity;
  ru_shaped : forall fi g, nth_error (m_funs (load ext f)) fi = Some g -> shaped_fun (with_file E ext f) 0 fi g;
  ru_ext : ext_ok true (gl_env (with_file E ext f)) arity }.
Theorem C63_accepted : forall in_of alloc sort E ext arity K F f g', file_means in_of alloc F f -> runnable sort E ext arity K F f ->
  front parse_type sort K (flat_map tokens F) = NOk g' -> scoped_mods (with_file E ext f) arity.
Proof.
  intros in_of alloc sort E ext arity K F f g' M [A B C D T S X] R. apply C63_scoped with (K := K); [eapply C62_functions; eauto| | |exact T|exact S].
  - exact (proj2 (C62_visible _ _ _ _ _ _ _ M A B C D R)).
  - exact (file_built _ _ _ _ M C).
Qed.
Print Assumptions C63_accepted.
(** An accepted text, run from [main]: every variable is found, at the same place by number and by name, and both builds do the same. *)
Theorem C63_run : forall in_of alloc sort E ext arity K F f g' n s l, file_means in_of alloc F f -> runnable sort E ext arity K F f ->
  front parse_type sort K (flat_map tokens F) = NOk g' -> wf_state true (gl_env (with_file E ext f)) arity s -> r_calls s = [] ->
  let P := gl_env (with_file E ext f) in
  run (with_look Checked P) n 0 s <> Panic clash /\ run (with_look l P) n 0 s = run (with_look Checked P) n 0 s.
Proof.
  intros in_of alloc sort E ext arity K F f g' n s l M H R W C. cbv zeta. apply C17_run_partial with (arity := arity); auto; [eapply C63_accepted; eauto|apply (ru_ext _ _ _ _ _ _ _ H)].
Qed.
Print Assumptions C63_run.
(** Every function of the file is found by its name. *)
Lemma load_found : forall in_of alloc sort E ext arity K F f g' fn, file_means in_of alloc F f -> runnable sort E ext arity K F f ->
  front parse_type sort K (flat_map tokens F) = NOk g' -> In fn (d_fns f) ->
  exists k g, find_function (gl_modl (load ext f)) (h_name fn) 0 = FLoaded (Z.of_nat k) /\
    target (gl_env (with_file E ext f)) 0 0 (Z.of_nat k) = Some g /\ length (fn_args g) = length (h_args fn).
Proof.
  intros in_of alloc sort E ext arity K F f g' fn M H R I.
  assert (ND : NoDup (map h_name (d_fns f))) by (destruct H; eapply C62_functions; eauto).
  apply In_nth_error in I. destruct I as [k Ek].
  assert (X : forall j g, nth_error (m_funs (gl_modl (load ext f))) j = Some g -> exists fn', nth_error (d_fns f) j = Some fn' /\ fn_name g = h_name fn' /\ length (fn_args g) = length (h_args fn')).
  { intros j g Ej. unfold gl_modl in Ej. cbn [m_funs] in Ej. rewrite gl_funs_nth in Ej. cbn [load m_funs] in Ej. rewrite calls_nth, nth_error_map in Ej.
    destruct (nth_error (d_fns f) j) as [fn'|]; [|discriminate]. injection Ej as <-. exists fn'. split; [reflexivity|]. split; [reflexivity|]. cbn. apply map_length. }
  assert (Y : exists g, nth_error (m_funs (gl_modl (load ext f))) k = Some g /\ fn_name g = h_name fn /\ length (fn_args g) = length (h_args fn)).
  { unfold gl_modl. cbn [m_funs]. rewrite gl_funs_nth. cbn [load m_funs]. rewrite calls_nth, nth_error_map, Ek. eexists. split; [reflexivity|]. split; [reflexivity|]. cbn. apply map_length. }
  destruct Y as (g & Eg & Ng & Lg). exists k, g. split; [|split; [|exact Lg]].
  - unfold find_function. destruct (find_last (h_name fn) 0 (m_funs (gl_modl (load ext f))) None) as [j|] eqn:FL.
    + apply find_last_some in FL. destruct FL as [FL|(j' & g2 & -> & Ej & Nj)]; [discriminate|]. destruct (X _ _ Ej) as (fn' & E' & N' & _).
      assert (j' = k) as ->; [|f_equal; lia]. rewrite NoDup_nth_error in ND. apply ND; [rewrite map_length; apply nth_error_Some; congruence|]. rewrite !nth_error_map, E', Ek. cbn. congruence.
    + apply find_last_none in FL. destruct FL as [_ NO]. exfalso. exact (NO g (nth_error_In _ _ Eg) Ng).
  - unfold target. rewrite Z.add_0_r. destruct (Z.ltb_spec (Z.of_nat k) 0); [lia|]. rewrite Nat2Z.id. exact Eg.
Qed.
(** The same for a call of any of its functions from Rust. *)
Theorem C63_call : forall in_of alloc sort E ext arity K F f g' n fn args s l, file_means in_of alloc F f -> runnable sort E ext arity K F f ->
  front parse_type sort K (flat_map tokens F) = NOk g' -> wf_state true (gl_env (with_file E ext f)) arity s -> r_calls s = [] ->
  In fn (d_fns f) -> length args = length (h_args fn) -> Forall (wf_v true (gl_env (with_file E ext f)) arity) args ->
  let P := gl_env (with_file E ext f) in
  call_str (with_look Checked P) n (h_name fn) args 0 s <> Panic clash /\
  call_str (with_look l P) n (h_name fn) args 0 s = call_str (with_look Checked P) n (h_name fn) args 0 s.
Proof.
  intros in_of alloc sort E ext arity K F f g' n fn args s l M H R W C I L WA. cbv zeta.
  destruct (load_found in_of alloc sort E ext arity K F f g' fn M H R I) as (k & g & FF & T & LG).
  apply C17_call_partial with (arity := arity) (m := gl_modl (load ext f)) (i := Z.of_nat k) (f := g); auto; [eapply C63_accepted; eauto|apply (ru_ext _ _ _ _ _ _ _ H)|congruence].
Qed.
Print Assumptions C63_call.

(** ** The file of C62 *)
Definition seen_prog : env := with_file (env_ []) [] seen_means.
Example C63_example : runnable (fun g => g) (env_ []) [] arity_ nothing_outside seen_file seen_means.
Proof.
  destruct C62_example_conditions as (A & B & C). split; auto; [exact C62_example_sorts|intros x lts H; discriminate H| |].
  - intros fi g Eg. destruct fi as [|[|[|fi]]]; try discriminate; injection Eg as <-; cbv; repeat (scope_done; try discriminate).
  - exact (env_ext_any true (m_funs (gl_modl (load [] seen_means)))).
Qed.
Example C63_example_runs :
  call_str_ret (with_look ByName (gl_env seen_prog)) 30 "f" [vf64 (f_of_Z 2)] 0 s0 = Ok (vf64 (f_of_Z 3)) s0 /\
  call_str_ret (with_look BySlot (gl_env seen_prog)) 30 "f" [vf64 (f_of_Z 2)] 0 s0 = Ok (vf64 (f_of_Z 3)) s0.
Proof. split; vm_compute; reflexivity. Qed.
