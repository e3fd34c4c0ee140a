(** * Every text that follows the grammar: what the checkers see in its trees is visible. *)
From Coq Require Import String List Bool Arith ZArith Lia.
From Verif Require Import PrintModel ColorModel Float64 TypeModel LifetimeModel NodesModel FoldModel TransformModel NodesSpec LivesSpec Syntax AstModel AstSpec AstProofs AstFile GrammarSpec GrammarBuild GrammarFits GrammarCases GrammarAll VisibleSpec VisibleTree NodesLayout VisibleText VisibleCases VisibleParts.
Import ListNotations.
Local Open Scope string_scope.
Local Open Scope nat_scope.
Local Open Scope list_scope.

Section AllV.
Context (callable : string -> nat -> Prop) (in_of : option string -> string -> callee) (alloc : Z -> bool).
Notation tidy := (tidy true).
Notation oks := (forallb (nodes_all tidy)).
Notation regs := (forallb (nodes_all regular)).
Notation body := (body true).
Notation a_body := (a_body true).
Notation tok := (tok callable).
Notation threaded := (threaded callable).
Notation visible := (visible callable).
Notation visible_item := (visible_item callable).
Notation visible_idx := (visible_idx callable).
Notation means := (means callable).
Notation a_means := (a_means callable).
Notation fits := (fits callable).
Notation part := (part callable).
Notation stmt := (stmt callable).
Notation V_expr := (V_expr callable).
Notation V_all := (V_all callable).
Notation V_item := (V_item callable).
Notation V_ids := (V_ids callable).
Notation V_args := (V_args callable).
Notation V_arg := (V_arg callable).

Lemma reg_parts : forall n l, nodes_all regular (SNode n l) = true -> existsb (String.eqb n) statements = false -> n <> "for" -> regs l = true /\ no_intro l = true.
Proof. intros n l R S_ N. apply reg_node in R. destruct R as [R0 R]. split; [exact R|]. eapply regular_intro; eauto. Qed.

(** ** Calls of closures *)
Lemma closure_call_v : forall n c it i i' l ms es ns, kind_new n = Some K_CallClosure -> n <> "swizzle" -> n <> "item" ->
  forest c = forest [it] ++ forest l -> dat K_CallClosure c = with_names ns (blank K_CallClosure None) ->
  (forall x a b d e, i = Item x a b d [] e -> exists a' b' d' e', i' = Item (match ns with w :: _ => (x ++ "__" ++ w)%string | [] => x end) a' b' d' [] e') ->
  (forall x a b d j ids e, i = Item x a b d (j :: ids) e -> exists a' b' d' ids' e', i' = Item x a' b' d' ids' e' /\ forall V, Forall (visible_idx V) (j :: ids) -> Forall (visible_idx V) ids') ->
  item_ok callable it i -> V_args l ms es -> oks l = true -> regs l = true -> no_intro l = true -> means [SNode n c] (ECallClosure i' es).
Proof.
  intros n c it i i' l ms es ns K N1 N2 F D I1 I2 (d & ts & x & cc & q & ids & tr & -> & A) [A1 A2 A3] O R NI.
  pose proof (ai_forest _ _ _ _ _ _ A) as FI. rewrite FI in F. cbn [app] in F. specialize (A1 O R NI). specialize (A3 O).
  assert (E : exists d', x_kind d' = K_CallClosure /\ x_op d' = None /\ seen (node K_CallClosure c) = NT d' (ren (hd_error ns) (wo (NT d ts)) :: view l)).
  { set (dc := with_names ns (blank K_CallClosure None)). exists (with_names (t_names None dc (map wo (NT d ts :: forest l))) dc). split; [reflexivity|]. split; [reflexivity|].
    unfold seen, node. rewrite D, F. rewrite simple_wo by reflexivity. cbn [ren]. fold dc. f_equal. change (word_in dc) with (hd_error ns). cbn [map ren_all].
    assert (KI : of_ K_Item (wo (NT d ts)) = true) by (rewrite (simple_wo _ _ (ai_simple _ _ _ _ _ _ A)); unfold of_, t_kind; cbn [t_data]; now rewrite (ai_kind _ _ _ _ _ _ A)).
      rewrite KI, ren_none, map_map. reflexivity. }
  destruct E as (d' & KD & OD & E).
  assert (OI : opless (ren (hd_error ns) (wo (NT d ts))) /\ silent (ren (hd_error ns) (wo (NT d ts)))).
  { rewrite (simple_wo _ _ (ai_simple _ _ _ _ _ _ A)). cbn [ren]. assert (W : word_in d = None) by (unfold word_in; now rewrite (ai_kind _ _ _ _ _ _ A)).
    rewrite W, ren_none, map_map. split; [unfold opless; cbn; now rewrite (ai_op _ _ _ _ _ _ A)|]. unfold silent. cbn [t_children]. apply opless_declares. exact (ai_opless _ _ _ _ _ _ A). }
  eapply node_means; eauto; [unfold opless; rewrite E; cbn [t_data]; now rewrite OD|].
  intros V H. rewrite E in H. apply (tok_threaded callable) in H; [|now rewrite KD|now rewrite OD|reflexivity]. unfold over in H. rewrite KD in H. change (loopb K_CallClosure) with false in H. cbn [app] in H.
  destruct H as [H1 H2]. destruct OI as [_ OI]. rewrite OI in H2. cbn [app] in H2. cbn [VisibleSpec.visible]. split; [|eapply parts_threaded; eauto].
  apply (item_tok callable _ _ _ _ _ _ _ _ A) in H1. destruct H1 as [H1 H3]. specialize (H1 eq_refl). cbv zeta in H1. pose proof (ai_none _ _ _ _ _ _ A) as NN.
  destruct ids as [|j ids].
  - destruct (I1 _ _ _ _ _ eq_refl) as (a' & b' & e' & f' & ->). cbn [VisibleSpec.visible_item]. split; [|exact Logic.I]. rewrite (proj2 NN eq_refl) in H1. destruct ns; exact H1.
  - destruct (I2 _ _ _ _ _ _ _ eq_refl) as (a' & b' & e' & ids' & f' & -> & X). cbn [VisibleSpec.visible_item]. split; [|apply ids_visible; now apply X].
    destruct ts as [|t ts]; [destruct NN as [NN _]; specialize (NN eq_refl); discriminate|exact H1].
Qed.
Lemma plain_closure_v : forall it i l ms es, arguments_mean in_of alloc l ms es -> is_a "item" it -> V_item it i -> V_args l ms es -> V_expr [SNode "call_closure" (it :: l)] (ECallClosure i es).
Proof.
  intros it i l ms es M [c ->] I A O R. apply oks_cons in O. apply regs_cons in R. destruct O as [O _], R as [R _]. apply reg_parts in R; [|reflexivity|discriminate]. destruct R as [R NI].
  apply ok_node in O. destruct O as [_ O]. apply oks_cons in O. apply regs_cons in R. destruct O as [O1 O2], R as [R1 R2].
  apply (closure_call_v "call_closure" (SNode "item" c :: l) (SNode "item" c) i i l ms es []); auto; try discriminate.
  - unfold dat. rewrite nodes_data; [reflexivity|]. cbn. exact (arguments_nodes _ _ _ _ _ M).
  - intros x a b d e ->. now repeat eexists.
  - intros x a b d j ids e ->. now repeat eexists.
  - apply no_intro_cons in NI. apply NI.
Qed.
Lemma words_ids : forall ws x a b d ids e, ids <> [] -> exists ids', words_item ws (Item x a b d ids e) = Item x a b d ids' e /\ forall V, Forall (visible_idx V) ids -> Forall (visible_idx V) ids'.
Proof.
  intros ws x a b d ids e N. unfold words_item. destruct (rev ids) as [|j r] eqn:E; [apply (f_equal (@rev _)) in E; rewrite rev_involutive in E; subst; contradiction|].
  assert (X : ids = rev r ++ [j]) by (rewrite <- (rev_involutive ids), E; reflexivity).
  destruct j as [y| |]; [eexists; split; [reflexivity|]|exists ids; auto|exists ids; auto]. intros V F. rewrite X in F. apply Forall_app in F. apply Forall_app. split; [apply F|]. constructor; [exact Logic.I|constructor].
Qed.
Lemma named_closure_v : forall it i l ws ms es, named_mean in_of alloc l ws ms es -> ws <> [] -> is_a "item" it -> V_item it i -> V_args l ms es ->
  V_expr [SNode "named_call_closure" (it :: l)] (ECallClosure (words_item ws i) es).
Proof.
  intros it i l ws ms es M NW [c ->] I A O R. apply oks_cons in O. apply regs_cons in R. destruct O as [O _], R as [R _]. apply reg_parts in R; [|reflexivity|discriminate]. destruct R as [R NI].
  apply ok_node in O. destruct O as [_ O]. apply oks_cons in O. apply regs_cons in R. destruct O as [O1 O2], R as [R1 R2].
  assert (D : exists w, hd_error [w] = Some (String.concat "_" ws) /\ dat K_CallClosure (SNode "item" c :: l) = with_names [w] (blank K_CallClosure None)).
  { exists (String.concat "_" ws). split; [reflexivity|]. unfold dat. change (start_ty K_CallClosure) with (@None ty). cbn [GrammarBuild.builds fst]. rewrite build_node. change (kind_new "item") with (Some K_Item). cbn [fst].
    inversion M as [|w b m e l' ws' ms' es' _ M']; subst; [contradiction|]. unfold str. rewrite builds_value. cbn [say]. change (set_string "word" w (blank K_CallClosure None)) with (with_names [w] (blank K_CallClosure None)).
    cbn [GrammarBuild.builds fst]. rewrite build_node. change (kind_new "call_arg") with (Some K_CallArg). cbn [fst]. rewrite (named_data _ _ _ _ _ _ M' _ w []) by reflexivity. now rewrite concat_join. }
  destruct D as (w & W & D). injection W as ->.
  apply (closure_call_v "named_call_closure" (SNode "item" c :: l) (SNode "item" c) i (words_item ws i) l ms es [String.concat "_" ws]); auto; try discriminate.
  - intros x a b d e ->. now repeat eexists.
  - intros x a b d j ids e ->. destruct (words_ids ws x a b d (j :: ids) e ltac:(discriminate)) as (ids' & -> & X). exists a, b, d, ids', e. auto.
  - apply no_intro_cons in NI. apply NI.
Qed.

(** ** Assignments *)
Lemma assign_local : forall o op, In (o, op) assignments -> is_local (Some op) = (o =? ":=")%string.
Proof. intros o op H. simpl in H. repeat (destruct H as [H|H]; [inversion H; reflexivity|]). destruct H. Qed.
Lemma assign_v : forall b o op c l r, In (o, op) assignments -> body b -> body c -> V_expr b l -> V_expr c r ->
  V_expr [SNode "assign" [SNode "left" b; flag o; SNode "right" c]] (EAssign op l r).
Proof.
  intros b o op c l r I B C HB HC O R. apply oks_cons in O. apply regs_cons in R. destruct O as [O _], R as [R _]. pose proof R as RR. apply reg_parts in RR; [|reflexivity|discriminate]. destruct RR as [R' NI].
  apply ok_node in O. destruct O as [_ O]. cbn [forallb] in O, R'. rewrite !andb_true_iff in O, R'. destruct O as (O1 & _ & O2 & _), R' as (R1 & _ & R2 & _).
  apply no_intro_cons in NI. destruct NI as [NL NI]. apply no_intro_cons in NI. destruct NI as [_ NI]. apply no_intro_cons in NI. destruct NI as [NR _].
  destruct (wrap_part callable "left" K_Left b l) as (PL1 & PL2 & PL3 & _); auto; [simpl; tauto|]. destruct (wrap_part callable "right" K_Right c r) as (PR1 & _ & PR3 & _); auto; [simpl; tauto|].
  destruct (PL3 NL) as [SL _]. pose proof (assign_local _ _ I) as LO.
  apply ok_node in O1. apply reg_node in R1. destruct O1 as [_ O1], R1 as [_ R1]. pose proof (HB O1 R1) as ML.
  destruct (wrapper_node K_Left b false ltac:(simpl; tauto) (body_arg _ b B) O1) as (d & D & SE & S_ & CD & OP & OV & KD & MD & WO).
  assert (F : forest [SNode "left" b; flag o; SNode "right" c] = [node K_Left b; node K_Right c]).
  { rewrite (forest_node "left" K_Left) by reflexivity. unfold flag. rewrite forest_value. now rewrite (forest_node "right" K_Right). }
  set (da := with_op op (blank K_Assign None)).
  assert (E : seen (node K_Assign [SNode "left" b; flag o; SNode "right" c]) = NT da [NT d (view b); seen (node K_Right c)]).
  { unfold node at 1. assert (DA : dat K_Assign [SNode "left" b; flag o; SNode "right" c] = da).
    { unfold dat. cbn [GrammarBuild.builds fst]. rewrite !build_node. change (kind_new "left") with (Some K_Left). change (kind_new "right") with (Some K_Right). cbn [fst]. unfold flag. cbn [GrammarBuild.build fst say].
      rewrite (assign_set _ _ I). reflexivity. }
    rewrite DA, F. rewrite seen_node by reflexivity. cbn [map]. now rewrite SE. }
  assert (FA : forest [SNode "assign" [SNode "left" b; flag o; SNode "right" c]] = [node K_Assign [SNode "left" b; flag o; SNode "right" c]]) by (now rewrite (forest_node "assign" K_Assign)).
  assert (EV : view [SNode "assign" [SNode "left" b; flag o; SNode "right" c]] = [NT da [NT d (view b); seen (node K_Right c)]]) by (unfold view at 1; rewrite FA; cbn [map]; now rewrite E).
  assert (SL' : declares_t (view b) = []) by (unfold silent in SL; now rewrite SE in SL).
  assert (KG : forall V, tok false false V (NT da [NT d (view b); seen (node K_Right c)]) -> tok (is_local (Some op)) false V (NT d (view b)) /\ visible V r).
  { intros V H. cbn [VisibleTree.tok] in H. destruct H as (_ & _ & [H|H]); [discriminate|]. cbn [kids] in H. change (over da) with (@nil string) in H. unfold params in H. cbn [is_kind da with_op blank x_kind orb] in H.
    cbn [app andb] in H. destruct H as (H1 & H2 & _). split; [exact H1|]. cbn [t_children] in H2. rewrite SL' in H2. now apply PR1. }
  (* the left side of [:=] is a variable *)
  assert (IT : (o =? ":=")%string = true -> exists i, l = EItem i /\ exists d1 ts1 x cc q ids tr, i = Item x None cc q ids tr /\ an_item callable (SNode "item" match b with [SNode _ c] => c | _ => [] end) d1 ts1 x ids /\ view b = [seen (NT d1 ts1)]).
  { intros EO. apply reg_node in R. destruct R as [R _]. unfold regular in R. rewrite !andb_true_iff in R. destruct R as ((((_ & R) & _) & _) & _).
    unfold flag in R. cbn [is_intro String.eqb Ascii.eqb Bool.eqb] in R. rewrite EO in R. change (("assign" =? "assign")%string && true) with true in R. cbn [negb orb] in R.
    destruct b as [|[m c'| | |] [|? ?]]; try discriminate. apply String.eqb_eq in R. subst m. destruct (mn_item _ _ _ ML c' eq_refl) as (i & -> & d1 & ts1 & x & cc & q & ids & tr & Ei & A).
    exists i. split; [reflexivity|]. exists d1, ts1, x, cc, q, ids, tr. split; [exact Ei|]. split; [exact A|]. unfold view. now rewrite (ai_forest _ _ _ _ _ _ A). }
  split; [split|..].
  - rewrite FA. cbn. lia.
  - reflexivity.
  - intros NI'. rewrite EV. apply quiet_first. cbn [t_data da with_op x_op]. rewrite LO. unfold introd in NI'. cbn [existsb is_intro flag] in NI'. rewrite orb_false_r in NI'. exact NI'.
  - intros V H. rewrite EV in H. inversion_clear H as [|? ? H' _]. destruct (KG V H') as [H1 H2]. clear H'. rewrite LO in H1. destruct (o =? ":=")%string eqn:EO.
    + destruct (IT eq_refl) as (i & -> & d1 & ts1 & x & cc & q & ids & tr & -> & A & VB). rewrite VB in H1.
      assert (H3 : tok false true V (ren None (wo (NT d1 ts1)))).
      { cbn [VisibleTree.tok] in H1. destruct H1 as (_ & _ & [H1|H1]); [destruct (x_kind d); try discriminate; discriminate CD|]. cbn [kids] in H1. rewrite OV, OP in H1. cbn [is_local andb app] in H1.
        assert (P : forall l, params d l = []) by (intros l; unfold params; destruct (x_kind d); try reflexivity; discriminate CD). rewrite P in H1. cbn [app] in H1.
        assert (KC : is_kind (x_kind d) K_Closure = false) by (destruct (x_kind d); try reflexivity; discriminate CD). rewrite KC in H1. apply H1. }
      apply (item_tok callable _ _ _ _ _ _ _ _ A) in H3. destruct H3 as [H3 H4]. cbv zeta in H3. pose proof (ai_none _ _ _ _ _ _ A) as NN.
      destruct op; try discriminate LO. destruct ids as [|j ids]; [exact H2|]. cbn [VisibleSpec.visible VisibleSpec.visible_item]. split; [|exact H2]. split; [|exact (proj1 (ids_visible callable V (j :: ids)) H4)].
      destruct ts1 as [|t ts1]; [destruct NN as [NN _]; specialize (NN eq_refl); discriminate|]. now apply H3.
    + assert (H3 : visible V l) by (apply PL1; rewrite SE; exact H1). destruct op; try (split; assumption). discriminate LO.
  - reflexivity.
  - intros _. rewrite EV. cbn [declares_t da with_op x_op]. destruct (view b) as [|m vb] eqn:VB'; [intros y []|]. destruct op; try (intros y []; fail). destruct (IT (eq_sym LO)) as (i & -> & d1 & ts1 & x & cc & q & ids & tr & -> & A & VB).
    injection VB as -> _. assert (E1 : seen (NT d1 ts1) = NT d1 (map seen ts1)).
    { unfold seen at 1. rewrite (simple_wo _ _ (ai_simple _ _ _ _ _ _ A)). cbn [ren]. unfold word_in. rewrite (ai_kind _ _ _ _ _ _ A), ren_none, map_map. fold seen. f_equal.
      assert (N : t_names None d1 (map wo ts1) = x_names d1) by (unfold t_names; rewrite (ai_kind _ _ _ _ _ _ A); destruct (map wo ts1), (x_names d1); reflexivity). rewrite N. apply with_names_same. }
    rewrite E1. unfold of_, t_kind, t_name. cbn [t_data t_children]. rewrite (ai_kind _ _ _ _ _ _ A), (ai_names _ _ _ _ _ _ A). change (is_kind K_Item K_Item) with true. cbn [andb].
    pose proof (ai_none _ _ _ _ _ _ A) as NN. destruct ts1 as [|t ts1]; [|intros y []]. rewrite (proj1 NN eq_refl). cbn. apply incl_refl.
  - discriminate.
Qed.

(** ** Closures *)
Definition names_of (ts : list ntree) : list string := flat_map (fun t => if of_ K_Arg t || of_ K_Current t then t_name t else []) ts.
Definition V_lazy (l : list stx) : Prop := oks l = true -> Forall opless (view l).
Record V_params (l : list stx) (xs : list string) : Prop := {
  vp_names : oks l = true -> names_of (view l) = xs;
  vp_silent : oks l = true -> Forall silent (view l);
  vp_opless : oks l = true -> Forall opless (view l);
  vp_nodes : forallb is_node l = true }.
Lemma names_cons : forall d ts l x, x_kind d = K_Arg \/ x_kind d = K_Current -> x_names d = [x] -> names_of (NT d ts :: l) = x :: names_of l.
Proof. intros d ts l x K N. unfold names_of. cbn [flat_map]. unfold of_ at 1 2. unfold t_kind. cbn [t_data]. unfold t_name at 1. cbn [t_data]. rewrite N. destruct K as [-> | ->]; reflexivity. Qed.
Lemma params_v_nil : V_params [] [].
Proof. split; intros; try constructor; reflexivity. Qed.
Lemma params_v_cons : forall m x lt T t l0 l xs, type_piece "type" T t -> (oks l0 = true -> all_nodes true l0 [K_Grab]) -> V_params l xs ->
  V_params (SNode "arg" (flags "mut" m ++ str "name" x :: strs "lifetime" lt ++ T ++ l0) :: l) (x :: xs).
Proof.
  intros m x lt T t l0 l xs TP LZ [A1 A2 A3 A4].
  set (b := flags "mut" m ++ str "name" x :: strs "lifetime" lt ++ T ++ l0).
  assert (EV : view (SNode "arg" b :: l) = seen (node K_Arg b) :: view l) by (now apply view_node).
  assert (X : oks (SNode "arg" b :: l) = true -> oks l0 = true /\ oks l = true).
  { intros O. apply oks_cons in O. destruct O as [O1 O2]. apply ok_node in O1. destruct O1 as [_ O1]. unfold b in O1. rewrite oks_flags in O1. apply oks_cons in O1. destruct O1 as [_ O1]. rewrite oks_strs in O1. apply oks_app in O1. tauto. }
  assert (F : forest b = forest l0) by (unfold b; rewrite forest_flags; unfold str; rewrite forest_value, forest_strs; eapply forest_piece; eauto).
  destruct (type_pieces "type" K_Type T t eq_refl eq_refl TP) as [_ BT].
  assert (D : oks l0 = true -> exists d, seen (node K_Arg b) = NT d (view l0) /\ x_kind d = K_Arg /\ x_names d = [x] /\ x_op d = None /\ Forall opless (view l0)).
  { intros O. destruct (LZ O) as (_ & ts & BB & G & KK).
    assert (DA : exists d, dat K_Arg b = d /\ x_kind d = K_Arg /\ x_names d = [x] /\ x_op d = None /\ simple d = true).
    { unfold dat, b. rewrite builds_flags. unfold str. rewrite builds_value, builds_strs, BT, BB. eexists. split; [reflexivity|]. destruct m, lt, t; repeat split. }
    destruct DA as (d & DA & D1 & D2 & D3 & D4). exists d. split; [|do 3 (split; [assumption|])].
    - unfold node. rewrite DA, F. apply seen_node; [exact D4|]. now rewrite D1.
    - unfold view. assert (FL : forest l0 = ts) by (unfold forest; now rewrite BB). rewrite FL. clear - G KK. revert KK. induction G as [|t ts G GS IH]; intros KK; [constructor|]. inversion_clear KK. constructor; [|auto].
      unfold opless. rewrite seen_op. destruct (gd_op _ _ G) as [E|E]; [now rewrite E|]. destruct H as [H|[]]. unfold kind_of in H. rewrite E in H. discriminate. }
  split; rewrite ?EV.
  - intros O. destruct (X O) as [O0 O1]. destruct (D O0) as (d & E & K & N & _). rewrite E, (names_cons _ _ _ x) by auto. f_equal. now apply A1.
  - intros O. destruct (X O) as [O0 O1]. destruct (D O0) as (d & E & K & N & P & Q). constructor; [|auto]. unfold silent. rewrite E. cbn [t_children]. now apply opless_declares.
  - intros O. destruct (X O) as [O0 O1]. destruct (D O0) as (d & E & K & N & P & Q). constructor; [|auto]. unfold opless. rewrite E. cbn [t_data]. now rewrite P.
  - cbn. exact A4.
Qed.
Lemma currents_v : forall l cs, currents_mean l cs -> V_params l (map fst cs).
Proof.
  induction 1 as [|m x T t l cs TP H [A1 A2 A3 A4]]; [apply params_v_nil|]. cbn [map fst]. set (b := flags "mut" m ++ str "name" x :: T).
  assert (EV : view (SNode "current" b :: l) = seen (node K_Current b) :: view l) by (now apply view_node).
  destruct (type_pieces "type" K_Type T t eq_refl eq_refl TP) as [_ BT].
  assert (D : exists d, seen (node K_Current b) = NT d [] /\ x_kind d = K_Current /\ x_names d = [x] /\ x_op d = None).
  { assert (DA : exists d, dat K_Current b = d /\ x_kind d = K_Current /\ x_names d = [x] /\ x_op d = None /\ simple d = true).
    { unfold dat, b. rewrite builds_flags. unfold str. rewrite builds_value. specialize (BT []). rewrite app_nil_r in BT. rewrite BT. eexists. split; [reflexivity|]. destruct m, t; repeat split. }
    destruct DA as (d & DA & D1 & D2 & D3 & D4). exists d. split; [|auto]. unfold node. rewrite DA.
    assert (F : forest b = []) by (unfold b; rewrite forest_flags; unfold str; rewrite forest_value; pose proof (forest_piece _ _ _ [] TP) as Y; rewrite app_nil_r in Y; exact Y).
    rewrite F. rewrite seen_node; [reflexivity|exact D4|now rewrite D1]. }
  destruct D as (d & E & K & N & P).
  split; rewrite ?EV, ?E.
  - intros O. apply oks_cons in O. rewrite (names_cons _ _ _ x) by auto. f_equal. apply A1. apply O.
  - intros O. apply oks_cons in O. constructor; [reflexivity|]. apply A2, O.
  - intros O. apply oks_cons in O. constructor; [unfold opless; cbn [t_data]; now rewrite P|]. apply A3, O.
  - cbn. exact A4.
Qed.
Lemma names_app : forall a b, names_of (a ++ b) = names_of a ++ names_of b.
Proof. intros. unfold names_of. now rewrite flat_map_app. Qed.
(** what is in a closure or function sees its parameters *)
Lemma kids_params : forall d P V ts us, over d = [] -> is_local (x_op d) = false -> Forall silent ts -> (is_kind (x_kind d) K_Closure = true \/ V = []) ->
  kids tok d false P V true [] (ts ++ us) -> threaded P us.
Proof.
  intros d P V ts us OV L S_ KV. assert (X : (if is_kind (x_kind d) K_Closure then [] else V) = []) by (destruct KV as [-> | ->]; [reflexivity|now destruct (is_kind _ _)]).
  assert (Y : forall l first pre, kids tok d false P V first pre l -> threaded (pre ++ P) l).
  { induction l as [|t l IH]; intros first pre; [auto|]. cbn [kids VisibleText.threaded]. rewrite X, L, OV, !andb_false_r, app_nil_r. cbn [app]. intros [A B]. split; [exact A|].
    eapply threaded_more; [|exact (IH false _ B)]. intros y. rewrite !in_app_iff. tauto. }
  intros H. apply Y in H. cbn [app] in H. now apply threaded_app in H.
Qed.
Lemma closure_v : forall args currents cs b xs e, V_params args (map r_name xs) -> currents_mean currents cs -> body b -> V_expr b e ->
  V_expr [SNode "closure" (args ++ currents ++ [SNode "expr" b])] (EClosure (Closure (map r_name xs) (map fst cs) e)).
Proof.
  intros args currents cs b xs e A C B E O R. apply currents_v in C. apply oks_cons in O. apply regs_cons in R. destruct O as [O _], R as [R _]. apply ok_node in O. apply reg_node in R.
  destruct O as [_ O], R as [_ R]. rewrite !oks_app in O. rewrite !regs_app in R. destruct O as (O1 & O2 & O3), R as (_ & _ & R3). apply oks_cons in O3. apply regs_cons in R3. destruct O3 as [O3 _], R3 as [R3 _].
  destruct (wrap_part callable "expr" K_Expr b e) as (P1 & P2 & _); auto; [simpl; tauto|].
  assert (S_ : seen (node K_Closure (args ++ currents ++ [SNode "expr" b])) = NT (blank K_Closure None) ((view args ++ view currents) ++ [seen (node K_Expr b)])).
  { unfold node at 1, dat. rewrite nodes_data; [|rewrite !forallb_app, (vp_nodes _ _ A), (vp_nodes _ _ C); reflexivity]. rewrite seen_node by reflexivity. fold (view (args ++ currents ++ [SNode "expr" b])).
    rewrite !view_app, app_assoc. reflexivity. }
  eapply node_means with (k := K_Closure); try reflexivity; try discriminate; [unfold opless; now rewrite S_|]. intros V H. rewrite S_ in H. cbn [VisibleTree.tok] in H. destruct H as (_ & _ & [H|H]); [discriminate|].
  apply kids_params in H; [|reflexivity|reflexivity|apply Forall_app; split; [apply (vp_silent _ _ A), O1|apply (vp_silent _ _ C), O2]|left; reflexivity].
  destruct H as [H _]. cbn [VisibleSpec.visible]. apply P1. unfold params in H. cbn [blank x_kind is_kind orb] in H. fold (names_of ((view args ++ view currents) ++ [seen (node K_Expr b)])) in H.
  rewrite !names_app, (vp_names _ _ A O1), (vp_names _ _ C O2) in H.
  assert (N : names_of [seen (node K_Expr b)] = []).
  { apply ok_node in O3. destruct O3 as [_ O3]. destruct (wrapper_node K_Expr b false ltac:(simpl; tauto) (body_arg _ b B) O3) as (d & _ & SE & _ & _ & _ & _ & KD & _). rewrite SE.
    unfold names_of. cbn [flat_map]. unfold of_, t_kind. cbn [t_data]. rewrite KD. now destruct (voids b). }
  rewrite N, app_nil_r in H. exact H.
Qed.
End AllV.
