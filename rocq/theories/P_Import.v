(** * C67: modules that import others.

    Functions of an imported module are copied behind those of the importing one; their calls are kept relative to their own place, so they
    still refer to the functions they referred to before, and so do their slot numbers. Modules that are made of accepted texts and of
    imports, in any order, satisfy the conditions under which running does not lose track of the stacks. *)
From Coq Require Import String List ZArith Bool Arith Lia.
From Verif Require Import PrintModel ColorModel Float64 TypeModel LifetimeModel NodesModel FoldModel TransformModel NodesSpec LivesSpec NodesLayout P_Nodes P_Scope P_Lives PreludeModel P_Prelude Syntax SyntaxProofs AstModel AstSpec AstProofs AstFile LoadModel InterpModel LibraryModel DynamicModel ImportModel WfSpec BalanceBase BalanceProofs LibraryProofs DynamicProofs ResolveModel ResolveSpec ResolveProofs RefineProofs ImportProofs Samples P_Balance P_Resolve P_Ast GrammarSpec GrammarBuild GrammarFits GrammarCases GrammarAll P_Grammar VisibleSpec VisibleFile P_Visible LoadSpec LoadProofs BuiltProofs P_Load P_Steady P_Library P_Dynamic.
Import ListNotations.
Local Open Scope string_scope.
Local Open Scope nat_scope.
Local Open Scope list_scope.

(** ** What calls refer to *)
Definition is_part (pre fs post fs' : list func) : Prop := fs' = pre ++ fs ++ post.
Lemma part_nth : forall pre fs post (fs' : list func) k f, is_part pre fs post fs' -> nth_error fs k = Some f -> nth_error fs' (length pre + k) = Some f.
Proof.
  intros pre fs post fs' k f -> H. rewrite nth_error_app2 by lia. replace (length pre + k - length pre) with k by lia.
  rewrite nth_error_app1; [exact H|]. apply nth_error_Some. congruence.
Qed.
(** Whatever a function of [m] can call, its copy calls. *)
Theorem C67_calls_kept : forall E md m E' md' m' pre post fi i f, nth_error (e_mods E) md = Some m -> nth_error (e_mods E') md' = Some m' ->
  is_part pre (m_funs m) post (m_funs m') -> target E md fi i = Some f -> target E' md' (length pre + fi) i = Some f.
Proof.
  intros E md m E' md' m' pre post fi i f H H' P T. unfold target in *. cbv zeta in *. rewrite H in T. rewrite H'. destruct (Z.ltb_spec (i + Z.of_nat fi) 0) as [|G]; [discriminate|].
  destruct (Z.ltb_spec (i + Z.of_nat (length pre + fi)) 0); [lia|]. rewrite <- (part_nth _ _ _ _ _ _ P T). f_equal. lia.
Qed.
Print Assumptions C67_calls_kept.
(** So the copy satisfies the same conditions, *)
Theorem C67_scoped_kept : forall E md m E' md' m' arity pre post fi f, nth_error (e_mods E) md = Some m -> nth_error (e_mods E') md' = Some m' ->
  is_part pre (m_funs m) post (m_funs m') -> scoped_fun E arity md fi f -> scoped_fun E' arity md' (length pre + fi) f.
Proof.
  intros E md m E' md' m' arity pre post fi f H H' P. apply (scoped_fun_kept E E' arity md fi md' (length pre + fi)). intros i g T. exists g. split; [exact (C67_calls_kept _ _ _ _ _ _ _ _ _ _ _ H H' P T)|split; reflexivity].
Qed.
Print Assumptions C67_scoped_kept.
(** and looking its variables up in the importing module gives the slots they have. *)
Theorem C67_slots_kept : forall E md m arity pre post fs' fi f, nth_error (e_mods E) md = Some m -> is_part pre (m_funs m) post fs' ->
  scoped_fun E arity md fi f -> gl_fun fs' (length pre + fi) f = gl_fun (m_funs m) fi f.
Proof.
  intros E md m arity pre post fs' fi f H P S. set (E' := with_modules E [DMod (Modl fs' []) 0]).
  assert (T' : forall i g, target E md fi i = Some g -> target E' 0 (length pre + fi) i = Some g) by (intros i g T; exact (C67_calls_kept E md m E' 0 (Modl fs' []) _ _ _ _ _ H eq_refl P T)).
  eapply (gl_fun_kept E arity md fi (length pre + fi)); [|exact S].
  intros i g T. rewrite (call_returns_target E md fi m H _ _ T). exact (call_returns_target E' 0 (length pre + fi) (Modl fs' []) eq_refl _ _ (T' _ _ T)).
Qed.
Print Assumptions C67_slots_kept.

(** ** Operations on modules *)
Definition own_scoped (E : env) (arity : string -> nat) (m : dmod) : Prop :=
  forall fi f, nth_error (dm_funs m) fi = Some f -> scoped_fun (with_modules E [m]) arity 0 fi f.
(** the functions that are passed on *)
Definition tr_part (m : dmod) : dmod := DMod (Modl (firstn (dm_tr m) (dm_funs m)) (dm_ext m)) (dm_tr m).
Record dm_ok (E : env) (arity : string -> nat) (m : dmod) : Prop := {
  ok_len : dm_tr m <= length (dm_funs m);
  ok_all : own_scoped E arity m;
  ok_tr : own_scoped E arity (tr_part m) }.
Lemma own_part : forall E arity m E' md' m' pre post fi f, nth_error (e_mods E') md' = Some m' -> is_part pre (dm_funs m) post (m_funs m') ->
  own_scoped E arity m -> nth_error (dm_funs m) fi = Some f -> scoped_fun E' arity md' (length pre + fi) f.
Proof. intros E arity m E' md' m' pre post fi f H P O N. refine (C67_scoped_kept _ 0 (dm_modl m) _ _ _ _ _ _ _ _ _ H P (O fi f N)). reflexivity. Qed.
Lemma own_app : forall E arity a b ext tr, own_scoped E arity a -> own_scoped E arity b -> own_scoped E arity (DMod (Modl (dm_funs a ++ dm_funs b) ext) tr).
Proof.
  intros E arity a b ext tr A B fi f N. cbn [dm_funs dm_modl m_funs] in N. destruct (Nat.ltb_spec fi (length (dm_funs a))).
  - rewrite nth_error_app1 in N by assumption. change fi with (length (@nil func) + fi). eapply (own_part _ _ a); [reflexivity| |exact A|exact N]. reflexivity.
  - rewrite nth_error_app2 in N by assumption. replace fi with (length (dm_funs a) + (fi - length (dm_funs a))) by lia. eapply (own_part _ _ b); [reflexivity| |exact B|exact N].
    unfold is_part. cbn. now rewrite app_nil_r.
Qed.
Lemma own_same : forall E arity a b, dm_funs b = dm_funs a -> own_scoped E arity a -> own_scoped E arity b.
Proof.
  intros E arity a b H A fi f N. rewrite H in N. change fi with (length (@nil func) + fi). eapply (own_part _ _ a); [reflexivity| |exact A|exact N].
  unfold is_part. cbn. rewrite app_nil_r. exact H.
Qed.
Theorem C67_empty : forall E arity ext, dm_ok E arity (DMod (Modl [] ext) 0).
Proof. intros E arity ext. split; [apply Nat.le_refl| |]; intros [|fi] f N; discriminate. Qed.
Theorem C67_import_ext_prelude : forall E arity m other, dm_ok E arity m -> dm_ok E arity (import_ext_prelude m other).
Proof. intros E arity m other [L A T]. split; [exact L|eapply own_same; [|exact A]; reflexivity|eapply own_same; [|exact T]; reflexivity]. Qed.
Theorem C67_import_tr_prelude : forall E arity m other, dm_ok E arity m -> dm_ok E arity other -> dm_ok E arity (import_tr_prelude m other).
Proof.
  intros E arity m other [L A T] [L' A' T'].
  assert (O : own_scoped E arity (import_tr_prelude m other)) by exact (own_app E arity m (tr_part other) _ _ A T').
  split; [apply Nat.le_refl|exact O|]. eapply own_same; [|exact O]. unfold tr_part, import_tr_prelude, dm_funs, dm_tr. cbn. apply firstn_all.
Qed.
Theorem C67_make_transitive : forall E arity m, dm_ok E arity m -> dm_ok E arity (make_transitive m).
Proof. intros E arity m [L A T]. split; [apply Nat.le_refl|exact A|]. eapply own_same; [|exact A]. unfold tr_part, make_transitive, dm_funs, dm_tr. cbn. apply firstn_all. Qed.
Lemma tr_before : forall E arity m fs ext, dm_ok E arity m -> own_scoped E arity (tr_part (DMod (Modl (dm_funs m ++ fs) ext) (dm_tr m))).
Proof. intros E arity m fs ext [L A T]. eapply own_same; [|exact T]. unfold tr_part. cbn [dm_funs dm_modl m_funs dm_tr]. rewrite firstn_app. replace (dm_tr m - length (dm_funs m)) with 0 by lia. cbn. apply app_nil_r. Qed.
Theorem C67_import : forall E arity m other, dm_ok E arity m -> dm_ok E arity other -> dm_ok E arity (import m other).
Proof.
  intros E arity m other O O'. split.
  - cbn. rewrite app_length. destruct O. unfold dm_funs in *. lia.
  - apply own_app; [apply (ok_all _ _ _ O)|apply (ok_all _ _ _ O')].
  - now apply tr_before.
Qed.
Print Assumptions C67_import.

(** The checkers are told about functions that are found, with the right number of arguments. *)
Definition told_by (K : outside) (m : modl) (arity : string -> nat) : Prop :=
  forall x lts, o_fun K x = Some lts ->
  match find_function m x 0 with
  | FNone => False
  | FLoaded i => exists g, nth_error (m_funs m) (Z.to_nat i) = Some g /\ length (fn_args g) = length lts
  | FUn _ => length lts = 1
  | FBin _ => length lts = 2
  | FVoid g | FRet g | FLazy g => arity g = length lts
  end.
Lemma find_last_acc : forall x l i acc, find_last x i l acc = match find_last x i l None with Some j => Some j | None => acc end.
Proof.
  induction l as [|f l IH]; intros i acc; [reflexivity|]. cbn [find_last]. rewrite IH. rewrite (IH _ (if fn_name f =? x then Some i else None)%string).
  destruct (find_last x (S i) l None); [reflexivity|]. destruct (fn_name f =? x)%string; reflexivity.
Qed.
Lemma find_last_app : forall x a b i acc, find_last x i (a ++ b) acc = find_last x (i + length a) b (find_last x i a acc).
Proof. induction a as [|f a IH]; intros b i acc; [cbn; now rewrite Nat.add_0_r|]. cbn [app find_last]. rewrite IH. cbn [length]. now replace (i + S (length a)) with (S i + length a) by lia. Qed.
Definition outside_told (ext_lts : string -> option (list lt)) (ext : list (string * callee)) (arity : string -> nat) : Prop :=
  forall x lts, ext_lts x = Some lts -> existsb (fun a => String.eqb (fst a) x) ext = true ->
  match find_ext x ext FNone with
  | FNone | FLoaded _ => False
  | FUn _ => length lts = 1
  | FBin _ => length lts = 2
  | FVoid g | FRet g | FLazy g => arity g = length lts
  end.
Theorem C67_told : forall ext_lts lts m arity, (forall g, length (lts g) = length (fn_args g)) -> outside_told ext_lts (dm_ext m) arity ->
  told_by (from_module ext_lts lts m) (dm_modl m) arity.
Proof.
  intros ext_lts lts m arity L T x l H. cbn [from_module o_fun] in H. unfold find_function. fold (dm_funs m). fold (dm_ext m).
  destruct (find_last x 0 (dm_funs m) None) as [k|].
  - cbn. replace (Z.to_nat (Z.of_nat k - 0)) with k by lia. destruct (nth_error (dm_funs m) k) as [g|]; [|discriminate]. injection H as <-. exists g. split; [reflexivity|]. symmetry. apply L.
  - destruct (existsb _ (dm_ext m)) eqn:X; [|discriminate]. specialize (T x l H X). destruct (find_ext x (dm_ext m) FNone); tauto.
Qed.
Print Assumptions C67_told.

Definition no_loaded (l : list (string * callee)) : Prop := Forall (fun nc => match snd nc with FLoaded _ => False | _ => True end) l.
Theorem C67_load : forall E arity K m f, dm_ok E arity m -> NoDup (map h_name (d_fns f)) -> (forall fn, In fn (d_fns f) -> visible_function (callable_in K f) fn /\ all_ok built (h_block fn)) ->
  no_loaded (dm_ext m) -> told_by K (dm_modl m) arity ->
  (forall k g, nth_error (dm_funs (load_into m f)) (length (dm_funs m) + k) = Some g -> shaped_fun (with_modules E [load_into m f]) 0 (length (dm_funs m) + k) g) ->
  dm_ok E arity (load_into m f).
Proof.
  intros E arity K m f O ND VB NL TOLD SH. split; [| |now apply tr_before].
  { unfold load_into, dm_funs, dm_tr. cbn. rewrite app_length. pose proof (ok_len _ _ _ O) as L. unfold dm_funs in L. destruct m as [mm tr]. cbn in *. lia. }
  intros fi g N. destruct (Nat.ltb_spec fi (length (dm_funs m))) as [Lt|Ge].
  { unfold load_into, dm_funs in N. cbn in N. rewrite nth_error_app1 in N by exact Lt. change fi with (length (@nil func) + fi). eapply (own_part _ _ m); [reflexivity| |exact (ok_all _ _ _ O)|exact N]. reflexivity. }
  set (n0 := length (dm_funs m)) in *. set (k0 := fi - n0). assert (Fi : fi = n0 + k0) by lia. clearbody k0. subst fi.
  destruct (SH k0 g N) as (L & S & D). split; [exact L|]. split; [|exact D].
  set (new := map registered (d_fns f)) in *. set (m1 := Modl (dm_funs m ++ new) (dm_ext m)).
  assert (FS : dm_funs (load_into m f) = dm_funs m ++ with_calls_from m1 n0 new) by reflexivity.
  assert (NEW : forall k fk, nth_error (d_fns f) k = Some fk -> nth_error (dm_funs (load_into m f)) (n0 + k) = Some (with_calls m1 (n0 + k) (registered fk))).
  { intros k fk Ek. rewrite FS, nth_error_app2 by (unfold n0; lia). replace (n0 + k - length (dm_funs m)) with k by (unfold n0; lia). rewrite calls_nth. unfold new. rewrite nth_error_map, Ek. reflexivity. }
  assert (TG : forall j h, nth_error (dm_funs (load_into m f)) j = Some h -> target (with_modules E [load_into m f]) 0 (n0 + k0) (Z.of_nat j - Z.of_nat (n0 + k0)) = Some h).
  { intros j h Hj. unfold target. cbv zeta. replace (Z.of_nat j - Z.of_nat (n0 + k0) + Z.of_nat (n0 + k0))%Z with (Z.of_nat j) by lia. destruct (Z.ltb_spec (Z.of_nat j) 0); [lia|]. rewrite Nat2Z.id. exact Hj. }
  destruct (nth_error (d_fns f) k0) as [fn|] eqn:En.
  2:{ exfalso. rewrite FS, nth_error_app2 in N by (unfold n0; lia). replace (n0 + k0 - length (dm_funs m)) with k0 in N by (unfold n0; lia). rewrite calls_nth in N. unfold new in N. rewrite nth_error_map, En in N. discriminate. }
  rewrite (NEW _ _ En) in N. injection N as <-. cbn [with_calls registered fn_ret fn_args fn_currents fn_block fn_lazy] in *.
  destruct (VB fn (nth_error_In _ _ En)) as [VIS BU].
  apply (seq_s (with_modules E [load_into m f]) arity 0 (n0 + k0) _ (callable_in K f)) with (V := map r_name (h_args fn) ++ map fst (h_currents fn)) (ret := returns (h_ret fn)).
  - apply Forall_forall. intros e _. refine (proj1 (proj2 (visible_scoped _ _ _ _ _ _ _)) e). intros x n C. unfold find_function. cbn [m1 m_funs m_ext].
    rewrite find_last_app, find_last_acc. cbn [Nat.add]. fold n0. destruct (find_last x n0 new None) as [j|] eqn:F.
    + apply find_last_some in F. destruct F as [F|(k & h & -> & Nk & X)]; [discriminate|]. unfold new in Nk. rewrite nth_error_map in Nk. destruct (nth_error (d_fns f) k) as [fk|] eqn:Ek; [|discriminate]. injection Nk as <-.
      cbn [registered fn_name] in X. exists (with_calls m1 (n0 + k) (registered fk)). split; [apply TG, NEW, Ek|].
      cbn [with_calls registered fn_args]. rewrite map_length. destruct C as [(fn' & I & X' & W)|(NO & _)].
      * apply In_nth_error in I. destruct I as [k' Ek']. rewrite <- W. f_equal. f_equal. apply (same_place h_name _ k k' _ _ ND Ek Ek'). congruence.
      * exfalso. apply (NO fk); [eapply nth_error_In; eauto|exact X].
    + apply find_last_none in F. destruct F as [_ NO]. destruct C as [(fn' & I & X' & _)|(_ & lts & Ou & W)].
      * exfalso. apply (NO (registered fn')); [now apply in_map|exact X'].
      * specialize (TOLD x lts Ou). unfold find_function in TOLD. fold (dm_funs m) in TOLD. fold (dm_ext m) in TOLD. rewrite W in TOLD. destruct (find_last x 0 (dm_funs m) None) as [j|] eqn:FO.
        -- destruct TOLD as (h & Hh & A). replace (Z.to_nat (Z.of_nat j - Z.of_nat 0)) with j in Hh by lia. exists h. split; [|exact A]. apply TG. rewrite FS, nth_error_app1; [exact Hh|]. apply nth_error_Some. unfold dm_funs in Hh |- *. congruence.
        -- destruct (find_ext x (dm_ext m) FNone) eqn:FE; try contradiction; try exact TOLD. exfalso. apply find_ext_loaded in FE; [discriminate|exact NL].
  - exact VIS.
  - exact BU.
  - exact S.
  - apply knows_entry.
Qed.
Print Assumptions C67_load.

(** ** Modules made of accepted texts and imports *)
Section Made.
Context (in_of : option string -> string -> callee) (alloc : Z -> bool) (sort : fgraph -> fgraph).
(** the library, and the lifetimes that are declared *)
Context (ext0 : list (string * callee)) (ext_lts : string -> option (list lt)) (lts : func -> list lt).
Context (E : env) (arity : string -> nat).
Record accepted_into (m : dmod) (F : list stx) (f : file) : Prop := {
  ai_means : file_means in_of alloc F f;
  ai_linkable : forallb (nodes_all linkable) F = true;
  ai_traceable : forallb (nodes_all traceable) F = true;
  ai_regular : forallb (nodes_all regular) F = true;
  ai_sorts : sorts sort F;
  ai_accepted : exists g, front parse_type sort (from_module ext_lts lts m) (flat_map tokens F) = NOk g;
  ai_shaped : forall k g, nth_error (dm_funs (load_into m f)) (length (dm_funs m) + k) = Some g -> shaped_fun (with_modules E [load_into m f]) 0 (length (dm_funs m) + k) g }.
Inductive made : dmod -> Prop :=
| Ma_empty : made empty_module
| Ma_library : made (DMod (Modl [] ext0) 0)
| Ma_ext_prelude m other : made m -> made other -> made (import_ext_prelude m other)
| Ma_tr_prelude m other : made m -> made other -> made (import_tr_prelude m other)
| Ma_transitive m : made m -> made (make_transitive m)
| Ma_import m other : made m -> made other -> made (import m other)
| Ma_load m F f : made m -> accepted_into m F f -> made (load_into m f).

Lemma add_external_in : forall new l x, In x (add_external l new) -> In x l \/ In x new.
Proof.
  induction new as [|f new IH]; intros l x I; [left; exact I|]. cbn [add_external] in I. apply IH in I. destruct I as [I|I]; [|right; right; exact I].
  destruct (existsb _ l); [left; exact I|]. apply in_app_iff in I. destruct I as [I|[<-|[]]]; [left; exact I|right; left; reflexivity].
Qed.
Lemma made_ext : forall m, made m -> forall x, In x (dm_ext m) -> In x ext0.
Proof.
  induction 1; intros x I; try (now apply IHmade).
  - destruct I.
  - exact I.
  - cbn in I. apply in_app_iff in I. destruct I as [I|I]; [now apply IHmade1|now apply IHmade2].
  - now apply IHmade1.
  - apply add_external_in in I. destruct I as [I|I]; [now apply IHmade1|now apply IHmade2].
Qed.
Lemma find_ext_in : forall x l acc, (exists c, In (x, c) l) -> In (x, find_ext x l acc) l.
Proof.
  assert (G : forall x l acc, find_ext x l acc = acc \/ In (x, find_ext x l acc) l).
  { induction l as [|[n c] l IH]; intros acc; [now left|]. cbn [find_ext]. destruct (IH (if (n =? x)%string then c else acc)) as [Q|Q]; [|right; right; exact Q].
    rewrite Q. destruct (String.eqb_spec n x) as [->|N]; [right; left; reflexivity|now left]. }
  induction l as [|[n c] l IH]; intros acc (c' & I); [destruct I|]. cbn [find_ext]. destruct (String.eqb_spec n x) as [->|N].
  - destruct (G x l c) as [Q|Q]; [rewrite Q; left; reflexivity|right; exact Q].
  - right. apply IH. destruct I as [I|I]; [congruence|exists c'; exact I].
Qed.
Lemma one_of_name : forall (l : list (string * callee)) x c c', NoDup (map fst l) -> In (x, c) l -> In (x, c') l -> c = c'.
Proof.
  intros l x c c' N I I'. apply In_nth_error in I, I'. destruct I as [k I], I' as [k' I']. pose proof (same_place fst l k k' _ _ N I I' eq_refl) as Q. congruence.
Qed.
Lemma made_told : NoDup (map fst ext0) -> told (Outside ext_lts (fun _ _ => None)) ext0 arity -> forall m, made m -> outside_told ext_lts (dm_ext m) arity.
Proof.
  intros ND T m M x l H X. apply existsb_exists in X. destruct X as ([x' c] & I & Q). apply String.eqb_eq in Q. cbn in Q. subst x'.
  pose proof (find_ext_in x (dm_ext m) FNone (ex_intro _ c I)) as J. apply (made_ext m M) in J.
  pose proof (find_ext_in x ext0 FNone (ex_intro (fun c => In (x, c) ext0) _ J)) as J0. rewrite (one_of_name _ _ _ _ ND J J0). exact (T x l H).
Qed.
Theorem C67_made : NoDup (map fst ext0) -> told (Outside ext_lts (fun _ _ => None)) ext0 arity -> no_loaded ext0 -> (forall g, length (lts g) = length (fn_args g)) ->
  forall m, made m -> dm_ok E arity m /\ no_loaded (dm_ext m).
Proof.
  intros ND T NL LL m M. assert (NLs : forall m, made m -> no_loaded (dm_ext m)).
  { intros m' M'. apply Forall_forall. intros x I. apply (made_ext m' M') in I. unfold no_loaded in NL. rewrite Forall_forall in NL. exact (NL x I). }
  split; [|now apply NLs]. induction M.
  - apply C67_empty.
  - apply C67_empty.
  - now apply C67_import_ext_prelude.
  - now apply C67_import_tr_prelude.
  - now apply C67_make_transitive.
  - now apply C67_import.
  - destruct H as [H1 H2 H3 H4 H5 (g & H6) H7]. apply C67_load with (K := from_module ext_lts lts m); auto.
    + eapply C62_functions; eauto.
    + intros fn If. split; [exact (proj2 (C62_visible _ _ _ _ _ _ _ H1 H2 H3 H4 H5 H6) fn If)|exact (file_built _ _ _ _ H1 H4 fn If)].
    + apply C67_told; [exact LL|]. now apply made_told.
Qed.
End Made.
Print Assumptions C67_made.

(** ** Programs *)
Lemma own_program : forall E arity ms, Forall (own_scoped E arity) ms -> scoped_mods (with_modules E ms) arity.
Proof.
  intros E arity ms F md m fi g Em Eg. cbn [with_modules e_mods] in Em. rewrite nth_error_map in Em. destruct (nth_error ms md) as [d|] eqn:Ed; [|discriminate]. injection Em as <-.
  rewrite Forall_forall in F. change fi with (length (@nil func) + fi). eapply (own_part E arity d _ md (dm_modl d) [] []).
  - cbn. rewrite nth_error_map, Ed. reflexivity.
  - unfold is_part. cbn. now rewrite app_nil_r.
  - apply F. eapply nth_error_In; eauto.
  - exact Eg.
Qed.
Definition std_lts (O : StdModel.math) (L : libm) (n : nat) : string -> option (list lt) := o_fun (std_outside O L n).
Definition iprogram (O : StdModel.math) (L : libm) (n : nat) (E : env) (ms : list dmod) : env := gl_env (with_modules (library O L n E) ms).
Record importing (in_of : option string -> string -> callee) (alloc : Z -> bool) (sort : fgraph -> fgraph) (lts : func -> list lt) (E : env) (O : StdModel.math) (L : libm) (n : nat) (other : string -> nat) (ms : list dmod) : Prop := {
  im_lts : forall g, length (lts g) = length (fn_args g);
  im_made : Forall (made in_of alloc sort (std_ext O L n) (std_lts O L n) lts (library O L n E)) ms;
  im_rest : ext_ok true (gl_env (with_modules E ms)) (std_arity O L n other) }.
Lemma std_names : forall O L n, NoDup (map fst (std_ext O L n)).
Proof. intros O L n. unfold std_ext. rewrite map_map. exact (names_distinct O L n). Qed.
Lemma importing_ok : forall in_of alloc sort lts E O L n other ms l X k d held, importing in_of alloc sort lts E O L n other ms ->
  externals (iprogram O L n E ms) /\ wf_mods true (iprogram O L n E ms) (std_arity O L n other) /\ ext_ok true (dyn_env X (with_look l (iprogram O L n E ms)) k d held) (std_arity O L n other).
Proof.
  intros in_of alloc sort lts E O L n other ms l X k d held [A B C].
  assert (M : forall m, In m ms -> dm_ok (library O L n E) (std_arity O L n other) m /\ no_loaded (dm_ext m)).
  { intros m I. rewrite Forall_forall in B. eapply (C67_made in_of alloc sort (std_ext O L n) (std_lts O L n) lts); [apply std_names|exact (C65_told O L n other)|exact (std_externals O L n)|exact A|apply B, I]. }
  assert (X1 : externals (iprogram O L n E ms)).
  { intros m H. cbn [iprogram gl_env with_modules e_mods] in H. rewrite map_map in H. apply in_map_iff in H. destruct H as (f & <- & I). exact (proj2 (M f I)). }
  assert (W : wf_mods true (iprogram O L n E ms) (std_arity O L n other)).
  { apply scoped_wf, own_program, Forall_forall. intros m I. exact (ok_all _ _ _ (proj1 (M m I))). }
  split; [exact X1|]. split; [exact W|]. apply C66_contract; [exact W|exact X1|repeat split|]. exact (C65_contract true _ O L n other C).
Qed.
Theorem C67_run : forall in_of alloc sort lts E O L n other ms l X k d held k' md s w, importing in_of alloc sort lts E O L n other ms ->
  wf_state true (iprogram O L n E ms) (std_arity O L n other) s -> r_calls s = [] -> In w bookkeeping ->
  run (dyn_env X (with_look l (iprogram O L n E ms)) k d held) k' md s <> Panic w.
Proof.
  intros in_of alloc sort lts E O L n other ms l X k d held k' md s w H W C I. destruct (importing_ok _ _ _ _ _ _ _ _ _ _ l X k d held H) as (HE & HM & HX).
  set (P := dyn_env X (with_look l (iprogram O L n E ms)) k d held) in *. assert (EM : e_mods P = e_mods (iprogram O L n E ms)) by (destruct d; reflexivity).
  apply (run_quiet P (std_arity O L n other)); auto.
  - destruct d; exact HM.
  - destruct d; exact W.
  - right. intros m Hm. rewrite EM in Hm. exact (HE m Hm).
Qed.
Print Assumptions C67_run.
Theorem C67_call : forall in_of alloc sort lts E O L n other ms l X k d held k' md m i f name args s w, importing in_of alloc sort lts E O L n other ms ->
  wf_state true (iprogram O L n E ms) (std_arity O L n other) s -> r_calls s = [] ->
  nth_error (e_mods (iprogram O L n E ms)) md = Some m -> find_function m name 0 = FLoaded i -> nth_error (m_funs m) (Z.to_nat i) = Some f ->
  Forall (wf_v true (iprogram O L n E ms) (std_arity O L n other)) args -> length args = length (fn_args f) -> In w bookkeeping ->
  call_str (dyn_env X (with_look l (iprogram O L n E ms)) k d held) k' name args md s <> Panic w /\
  call_str_ret (dyn_env X (with_look l (iprogram O L n E ms)) k d held) k' name args md s <> Panic w.
Proof.
  intros in_of alloc sort lts E O L n other ms l X k d held k' md m i f name args s w H W C Em Ef Eg Ha Hl I. destruct (importing_ok _ _ _ _ _ _ _ _ _ _ l X k d held H) as (HE & HM & HX).
  set (P := dyn_env X (with_look l (iprogram O L n E ms)) k d held) in *. assert (EM : e_mods P = e_mods (iprogram O L n E ms)) by (destruct d; reflexivity).
  destruct (call_str_quiet P (std_arity O L n other) k' name args md m s w) as [Q|[Q _]]; auto.
  - destruct d; exact HM.
  - destruct d; exact W.
  - rewrite EM. exact Em.
  - intros i' Hf'. rewrite Ef in Hf'. injection Hf' as <-. destruct (found_target (iprogram O L n E ms) md m name i HE Em Ef) as (f' & T & N). exists f'. split; [destruct d; exact T|congruence].
  - destruct d; exact Ha.
  - exfalso. exact (Q i Ef).
Qed.
Print Assumptions C67_call.

(** ** An example

    [fn g() -> { return = 1 }  fn f() -> { x := g()  return = x }], imported into [fn g(y) -> { return = y }  fn h() -> { x := f()  return = x }] *)
Definition fn_ (x : string) (args : list string) (b : list stx) : stx := SNode "fn" (str "name" x :: map (fun y => SNode "arg" [str "name" y]) args ++ [flag "returns"; SNode "block" b]).
Definition fun_ (x : string) (args : list string) (b : list expr) : function_ := Function_ x (map (fun y => Arg y None TAny false) args) [] [] b TAny.
Definition call0 (x : string) : stx := SNode "call" [str "name" x].
Definition one_text : list stx :=
  [fn_ "g" [] [is_ "return" "=" (n_ 1)]; fn_ "f" [] [is_ "x" ":=" (call0 "g"); is_ "return" "=" (var_ "x")]].
Definition one_means : file :=
  File [] [] [fun_ "g" [] [EAssign OpSet (X "return") (N_ 1)]; fun_ "f" [] [EAssign OpAssign (X "x") (apply "g" []); EAssign OpSet (X "return") (X "x")]].
Definition two_text : list stx :=
  [fn_ "g" ["y"] [is_ "return" "=" (var_ "y")]; fn_ "h" [] [is_ "x" ":=" (call0 "f"); is_ "return" "=" (var_ "x")]].
Definition two_means : file :=
  File [] [] [fun_ "g" ["y"] [EAssign OpSet (X "return") (X "y")]; fun_ "h" [] [EAssign OpAssign (X "x") (apply "f" []); EAssign OpSet (X "return") (X "x")]].
Definition i0 : option string -> string -> callee := fun _ _ => FNone.
Definition a0 : Z -> bool := fun _ => true.
Definition lts0 (g : func) : list lt := map (fun _ => LtDefault) (fn_args g).
Lemma two_fns : forall s1 f1 s2 f2, function_means i0 a0 s1 f1 -> function_means i0 a0 s2 f2 -> file_means i0 a0 [s1; s2] (File [] [] [f1; f2]).
Proof.
  intros s1 f1 s2 f2 H1 H2. refine (Fi i0 a0 [] [] [] [] [_; _] [] [_; _] (or_introl (conj eq_refl eq_refl)) (or_introl (conj eq_refl eq_refl)) (Forall2_nil _) _).
  constructor; [exact H1|]. constructor; [exact H2|constructor].
Qed.
Lemma body_1 : forall s e, expr_body i0 a0 s e -> expr_body i0 a0 (body_of (SNode "expr" s)) e.
Proof. intros s e H. exact H. Qed.
Lemma one_ok : file_means i0 a0 one_text one_means.
Proof.
  apply two_fns.
  - refine (Fm_block i0 a0 "g" [] [] [] None [_] [] [] [] [] [] _ _ (Cu_nil) (Tp_none _) _ (Forall_nil _) (Tr_all _ _)); [apply As_none| |constructor].
    apply Al_cons; [apply is_means; [simpl; tauto|apply Eb_num]|apply Al_nil].
  - refine (Fm_block i0 a0 "f" [] [] [] None [_; _] [] [] [] [] [] _ _ (Cu_nil) (Tp_none _) _ (Forall_nil _) (Tr_all _ _)); [apply As_none| |constructor].
    apply Al_cons; [apply is_means; [simpl; tauto|]; apply Eb_call, (Ca_plain i0 a0 None "g" _ []), Ar_nil|].
    apply Al_cons; [apply is_means; [simpl; tauto|apply var_body]|apply Al_nil].
Qed.
Lemma two_ok : file_means i0 a0 two_text two_means.
Proof.
  apply two_fns.
  - refine (Fm_block i0 a0 "g" [_] [] [] None [_] [] [Arg "y" None TAny false] [[]] [] [] _ _ (Cu_nil) (Tp_none _) _ (Forall_nil _) (Tr_all _ _)); [| |repeat constructor].
    + apply (more_args i0 a0 false "y" None), As_none.
    + apply Al_cons; [apply is_means; [simpl; tauto|apply var_body]|apply Al_nil].
  - refine (Fm_block i0 a0 "h" [] [] [] None [_; _] [] [] [] [] [] _ _ (Cu_nil) (Tp_none _) _ (Forall_nil _) (Tr_all _ _)); [apply As_none| |constructor].
    apply Al_cons; [apply is_means; [simpl; tauto|]; apply Eb_call, (Ca_plain i0 a0 None "f" _ []), Ar_nil|].
    apply Al_cons; [apply is_means; [simpl; tauto|apply var_body]|apply Al_nil].
Qed.
Ltac sorted_by H :=
  intros g0 g1 g2 R0 R1 R2; exists (fun i => i); apply sorted_id;
  destruct (file_trees false _ _ _ _ H eq_refl) as (ts & H1 & _);
  pose proof (C53_conversion _ _ _ H1) as Q; rewrite R0 in Q; injection Q as ->;
  destruct (NodesLayout.layout_ok ts) as [_ O]; clear H1; revert O R0 R1 R2; generalize (lays 0 None ts) as g; intros g O R0 R1 R2;
  enough (g2 = g) as -> by exact O;
  vm_compute in R0; injection R0 as <-; vm_compute in R1; injection R1 as <-; vm_compute in R2; now injection R2 as <-.
Lemma one_sorts : sorts (fun g => g) one_text.
Proof. sorted_by one_ok. Qed.
Lemma two_sorts : sorts (fun g => g) two_text.
Proof. sorted_by two_ok. Qed.
Definition library0 : dmod := DMod (Modl [] (std_ext O0 L0 5)) 0.
Definition module1 : dmod := load_into (import_ext_prelude empty_module library0) one_means.
Definition before2 : dmod := import (import_ext_prelude empty_module library0) module1.
Definition module2 : dmod := load_into before2 two_means.
Definition E0 : env := library O0 L0 5 bare_env.
Ltac shaped_by := intros k g H; destruct k as [|[|k]]; [| |destruct k; discriminate]; injection H as <-; cbv; repeat (scope_done; try discriminate).
Lemma into1 : accepted_into i0 a0 (fun g => g) (std_lts O0 L0 5) lts0 E0 (import_ext_prelude empty_module library0) one_text one_means.
Proof. split; [exact one_ok|reflexivity..|exact one_sorts|eexists; vm_compute; reflexivity|shaped_by]. Qed.
Lemma into2 : accepted_into i0 a0 (fun g => g) (std_lts O0 L0 5) lts0 E0 before2 two_text two_means.
Proof. split; [exact two_ok|reflexivity..|exact two_sorts|eexists; vm_compute; reflexivity|shaped_by]. Qed.
Example C67_example_made : made i0 a0 (fun g => g) (std_ext O0 L0 5) (std_lts O0 L0 5) lts0 E0 module2.
Proof.
  assert (B : made i0 a0 (fun g => g) (std_ext O0 L0 5) (std_lts O0 L0 5) lts0 E0 (import_ext_prelude empty_module library0)) by (apply Ma_ext_prelude; constructor).
  eapply Ma_load; [|exact into2]. apply Ma_import; [exact B|]. eapply Ma_load; [exact B|exact into1].
Qed.
Example C67_example : importing i0 a0 (fun g => g) lts0 bare_env O0 L0 5 (fun _ => 0) [module2].
Proof. split; [intros g; apply map_length|constructor; [exact C67_example_made|constructor]|exact (bare_ok true _ _)]. Qed.
(** [h] calls [f], which still calls the [g] it was loaded with, not the later one *)
Example C67_example_functions : map fn_name (dm_funs module2) = ["g"; "f"; "g"; "h"] /\ map (fun f => length (fn_args f)) (dm_funs module2) = [0; 0; 1; 0].
Proof. split; reflexivity. Qed.
Example C67_example_runs : forall l, call_str_ret (with_look l (iprogram O0 L0 5 bare_env [module2])) 30 "h" [] 0 s0 = Ok (vf64 f1) s0 /\
  call_str_ret (with_look l (iprogram O0 L0 5 bare_env [module2])) 30 "g" [vf64 (f_of_Z 7)] 0 s0 = Ok (vf64 (f_of_Z 7)) s0.
Proof. intros []; split; vm_compute; reflexivity. Qed.
(** without the import, the second text is rejected *)
Example C67_example_rejected : match front parse_type (fun g => g) (from_module (std_lts O0 L0 5) lts0 (import_ext_prelude empty_module library0)) (flat_map tokens two_text) with NErr _ _ => True | _ => False end.
Proof. vm_compute. exact Logic.I. Qed.
(** only functions up to the mark are passed on by [import_tr_prelude] *)
Example C67_example_transitive : map fn_name (dm_funs (import_tr_prelude empty_module (load_into (make_transitive before2) two_means))) = ["g"; "f"].
Proof. reflexivity. Qed.

(** ** Counterexamples *)
(** [go] looks its function up by name when it is run, in the importing module: [fn g() -> { return = 1 }  fn f() -> { x := go g()  return = 1 }],
    imported where there is another [g], starts that one, and without its argument. *)
Definition go_text : list stx :=
  [fn_ "g" [] [is_ "return" "=" (n_ 1)]; fn_ "f" [] [is_ "x" ":=" (SNode "go" [call0 "g"]); is_ "return" "=" (n_ 1)]].
Definition go_means : file :=
  File [] [] [fun_ "g" [] [EAssign OpSet (X "return") (N_ 1)]; fun_ "f" [] [EAssign OpAssign (X "x") (EGo "g" []); EAssign OpSet (X "return") (N_ 1)]].
Definition go_alone : dmod := load_into (import_ext_prelude empty_module library0) go_means.
Definition go_imported : dmod := load_into (import (import_ext_prelude empty_module library0) go_alone) two_means.
(** the functions of the threads that were started, and how many values they are given *)
Definition started (E : env) (s : rt) : list (option nat * nat) :=
  map (fun t => (option_map (fun f => length (fn_args f)) (target E (sp_mod t) (c_index (sp_call t)) (match sp_fn t with FLoaded i => i | _ => -1000 end)), length (sp_args t))) (w_threads (r_world s)).
Definition threads_of (E : env) (x : outcome value) : list (option nat * nat) := match x with Ok _ s => started E s | _ => [] end.
Theorem C67_go_refuted : file_means i0 a0 go_text go_means /\
  (exists g, front parse_type (fun g => g) (from_module (std_lts O0 L0 5) lts0 (import_ext_prelude empty_module library0)) (flat_map tokens go_text) = NOk g) /\
  (exists g, front parse_type (fun g => g) (from_module (std_lts O0 L0 5) lts0 (import (import_ext_prelude empty_module library0) go_alone)) (flat_map tokens two_text) = NOk g) /\
  (let P := iprogram O0 L0 5 bare_env [go_alone] in threads_of P (call_str_ret P 30 "f" [] 0 s0) = [(Some 0, 0)]) /\
  (let P := iprogram O0 L0 5 bare_env [go_imported] in threads_of P (call_str_ret P 30 "f" [] 0 s0) = [(Some 1, 0)]).
Proof.
  split; [|split; [eexists; vm_compute; reflexivity|split; [eexists; vm_compute; reflexivity|split; vm_compute; reflexivity]]].
  apply two_fns.
  - refine (Fm_block i0 a0 "g" [] [] [] None [_] [] [] [] [] [] _ _ (Cu_nil) (Tp_none _) _ (Forall_nil _) (Tr_all _ _)); [apply As_none| |constructor].
    apply Al_cons; [apply is_means; [simpl; tauto|apply Eb_num]|apply Al_nil].
  - refine (Fm_block i0 a0 "f" [] [] [] None [_; _] [] [] [] [] [] _ _ (Cu_nil) (Tp_none _) _ (Forall_nil _) (Tr_all _ _)); [apply As_none| |constructor].
    apply Al_cons; [apply is_means; [simpl; tauto|]; apply Eb_go, (Ca_plain i0 a0 None "g" _ []), Ar_nil|].
    apply Al_cons; [apply is_means; [simpl; tauto|apply Eb_num]|apply Al_nil].
Qed.
Print Assumptions C67_go_refuted.
