(** * More cases of the grammar: operators, calls, closures, assignments and loops. *)
From Coq Require Import String List Bool Arith ZArith Lia.
From Verif Require Import PrintModel ColorModel Float64 TypeModel LifetimeModel NodesModel FoldModel TransformModel NodesSpec LivesSpec Syntax AstModel AstSpec AstProofs AstFile GrammarSpec GrammarBuild GrammarFits GrammarCases GrammarAll VisibleSpec VisibleTree NodesLayout VisibleText VisibleCases.
Import ListNotations.
Local Open Scope string_scope.
Local Open Scope nat_scope.
Local Open Scope list_scope.

Section Parts.
Context (callable : string -> nat -> Prop) (in_of : option string -> string -> callee) (alloc : Z -> bool).
Notation tidy := (tidy true).
Notation oks := (forallb (nodes_all tidy)).
Notation regs := (forallb (nodes_all regular)).
Notation body := (body true).
Notation a_body := (a_body true).
Notation tok := (tok callable).
Notation threaded := (threaded callable).
Notation visible := (visible callable).
Notation visible_item := (visible_item callable).
Notation visible_idx := (visible_idx callable).
Notation means := (means callable).
Notation a_means := (a_means callable).
Notation fits := (fits callable).
Notation part := (part callable).
Notation stmt := (stmt callable).
Notation V_expr := (V_expr callable).
Notation V_all := (V_all callable).
Notation V_item := (V_item callable).
Notation V_ids := (V_ids callable).

Lemma regular_intro : forall n l, regular n l = true -> existsb (String.eqb n) statements = false -> n <> "for" -> no_intro l = true.
Proof.
  intros n l R S_ N. unfold regular in R. rewrite S_, !andb_true_iff in R. destruct R as ((((R & _) & _) & _) & _).
  unfold no_intro. rewrite forallb_forall in R |- *. intros t T. specialize (R t T). destruct (String.eqb_spec n "for"); [congruence|]. exact R.
Qed.
Lemma no_intro_cons : forall t l, no_intro (t :: l) = true <-> introduces_ t = false /\ no_intro l = true.
Proof. intros. unfold no_intro. cbn [forallb]. rewrite andb_true_iff, negb_true_iff. tauto. Qed.
Lemma no_intro_app : forall a b, no_intro (a ++ b) = true <-> no_intro a = true /\ no_intro b = true.
Proof. intros. unfold no_intro. rewrite forallb_app. apply andb_true_iff. Qed.
(** a node around an expression that introduces nothing *)
Lemma wrap_part : forall n k b e, kind_new n = Some k -> In k wrappers -> body b -> V_expr b e -> nodes_all tidy (SNode n b) = true -> nodes_all regular (SNode n b) = true ->
  fits (seen (node k b)) e /\ opless (seen (node k b)) /\ (introduces_ (SNode n b) = false -> part (seen (node k b)) e) /\
  (statement (SNode n b) = true -> stmt (seen (node k b)) e).
Proof.
  intros n k b e K W B E O R. apply ok_node in O. apply reg_node in R. destruct O as [_ O], R as [_ R]. specialize (E O R).
  destruct (wrapper_part callable k b false e W (body_arg _ b B) O (mn_arg _ _ _ E)) as (P1 & P2 & P3). split; [exact P1|]. split; [exact P2|]. split.
  - intros I. split; [now apply P3|exact P1].
  - intros I. split; [|exact P1]. unfold statement in I. apply orb_true_iff in I. destruct I as [I|I]; apply negb_true_iff in I.
    + specialize (P3 I). unfold silent in P3. rewrite P3. intros x [].
    + rewrite (wrapper_kids k b false W (body_arg _ b B) O). now apply E.
Qed.

(** ** Operators *)
Record oper (t : ntree) (e : expr) : Prop := {
  op_opless : opless (ren None t);
  op_flat : of_ K_Swizzle t = false;
  op_single : is_swizzle e = false;
  op_fits : fits (ren None t) e }.
Lemma operator_name : forall o f, In (o, f) operator_functions -> binop_name o = f.
Proof. intros o f H. simpl in H. repeat (destruct H as [H|H]; [now inversion H|]). destruct H. Qed.
Lemma width_one : forall ts, forallb (fun t => negb (of_ K_Swizzle t)) ts = true -> filter (of_ K_Swizzle) ts = [].
Proof. induction ts as [|t ts IH]; [reflexivity|]. cbn [forallb filter]. intros H. apply andb_true_iff in H. destruct H as [H1 H2]. apply negb_true_iff in H1. rewrite H1. auto. Qed.
Lemma op_call_v : forall k o f l r e1 e2, In (o, f) operator_functions -> oper l e1 -> oper r e2 -> oper (op_call (blank k None) o l r) (apply f [e1; e2]).
Proof.
  intros k o f l r e1 e2 F [A1 A2 A3 A4] [B1 B2 B3 B4]. apply operator_name in F. subst f.
  assert (E : ren None (op_call (blank k None) o l r) = NT (with_binops [] (to_call (binop_name o) (blank k None))) [NT (blank K_CallArg None) [ren None l]; NT (blank K_CallArg None) [ren None r]]).
  { unfold op_call. cbn [ren]. unfold word_in. cbn [x_kind with_binops to_call with_names with_kind]. rewrite ren_none. cbn [map argument ren]. unfold word_in. cbn [x_kind blank]. rewrite !ren_none. reflexivity. }
  split; [rewrite E; reflexivity|reflexivity|reflexivity|]. intros V H. rewrite E in H. cbn [VisibleSpec.visible apply].
  assert (VL : values_of [e1; e2] = 2) by (unfold values_of; cbn [fold_right]; destruct e1, e2; try reflexivity; discriminate).
  rewrite VL. split.
  - cbn [VisibleTree.tok] in H. destruct H as (_ & H & _). specialize (H eq_refl eq_refl _ eq_refl). unfold t_values in H. cbn [filter] in H.
    change (of_ K_CallArg (NT (blank K_CallArg None) [ren None l])) with true in H. change (of_ K_CallArg (NT (blank K_CallArg None) [ren None r])) with true in H. cbn [fold_right] in H.
    unfold t_width in H. cbn [t_children filter] in H. assert (X : forall t, of_ K_Swizzle (ren None t) = of_ K_Swizzle t) by (intros t; unfold of_; now rewrite ren_kind).
    rewrite !X, A2, B2 in H. exact H.
  - apply (tok_threaded callable) in H; [|reflexivity|reflexivity|reflexivity]. destruct H as (H1 & H2 & _). cbn [over loopb] in H1.
    apply (tok_threaded callable) in H1; [|reflexivity|reflexivity|reflexivity]. destruct H1 as [H1 _].
    apply (tok_threaded callable) in H2; [|reflexivity|reflexivity|reflexivity]. destruct H2 as [H2 _]. cbn [t_children] in H2. rewrite (quiet_first _ [] A1) in H2.
    cbn [all_in]. split; [now apply A4|]. split; [now apply B4|exact Logic.I].
Qed.
Lemma op_calls_v : forall k es e r, applied e es r -> forall acc us, oper acc e -> Forall2 (fun u p => oper u (snd p)) us es ->
  oper (fold_left (fun acc x => op_call (blank k None) (fst x) acc (snd x)) (combine (map fst es) us) acc) r.
Proof.
  intros k es e r H. induction H as [e|e o f e' l r F H IH]; intros acc us A U; [exact A|]. inversion_clear U as [|u p us' l' U1 U2]. cbn [map fst combine fold_left snd].
  apply IH; [|exact U2]. now apply op_call_v.
Qed.
Definition V_operand (t : stx) (e : expr) : Prop := nodes_all tidy t = true -> nodes_all regular t = true -> exists u, forest [t] = [u] /\ oper (wo u) e.
Definition V_rest (l : list stx) (es : list (binop * expr)) : Prop := oks l = true -> regs l = true ->
  (forall d, fst (builds l d) = with_binops (x_binops d ++ map fst es) d) /\ Forall2 (fun u p => oper (wo u) (snd p)) (forest l) es.
Definition V_operands (l : list stx) (e : expr) (es : list (binop * expr)) : Prop := oks l = true -> regs l = true ->
  exists u us, forest l = u :: us /\ (forall d, fst (builds l d) = with_binops (x_binops d ++ map fst es) d) /\ oper (wo u) e /\ Forall2 (fun u p => oper (wo u) (snd p)) us es.
Lemma operand_data : forall t e d, operand_means in_of alloc t e -> fst (build t d) = d.
Proof. intros t e d H. destruct H; rewrite build_node; now destruct (kind_new _). Qed.
Lemma operands_v : forall t e l es, operand_means in_of alloc t e -> V_operand t e -> V_rest l es -> V_operands (t :: l) e es.
Proof.
  intros t e l es M A B O R. apply oks_cons in O. apply regs_cons in R. destruct O as [O1 O2], R as [R1 R2]. destruct (A O1 R1) as (u & F & P). destruct (B O2 R2) as [D G].
  exists u, (forest l). split; [change (t :: l) with ([t] ++ l); now rewrite forest_app, F|]. split; [|auto]. intros d. cbn [GrammarBuild.builds fst]. rewrite (operand_data _ _ _ M). apply D.
Qed.
Lemma rest_v_nil : V_rest [] [].
Proof. intros _ _. split; [intros d; cbn; rewrite app_nil_r; now destruct d|constructor]. Qed.
Lemma rest_v_cons : forall s o t e l es, In (s, o) symbols -> operand_means in_of alloc t e -> V_operand t e -> V_rest l es -> V_rest (flag s :: t :: l) ((o, e) :: es).
Proof.
  intros s o t e l es I M A B O R. apply oks_cons in O. apply regs_cons in R. destruct O as [_ O], R as [_ R]. apply oks_cons in O. apply regs_cons in R. destruct O as [O1 O2], R as [R1 R2].
  destruct (A O1 R1) as (u & F & P). destruct (B O2 R2) as [D G]. split.
  - intros d. unfold flag. rewrite builds_value. cbn [say]. rewrite (symbol_set _ _ I). cbn [GrammarBuild.builds fst]. rewrite (operand_data _ _ _ M), D. cbn. now rewrite <- app_assoc.
  - unfold flag. rewrite forest_value. change (t :: l) with ([t] ++ l). rewrite forest_app, F. constructor; assumption.
Qed.
Lemma operators_v : forall k l e es r, In k [K_Add; K_Mul; K_Compare; K_Pow] -> V_operands l e es -> applied e es r -> oks l = true -> regs l = true -> oper (wo (node k l)) r.
Proof.
  intros k l e es r K H A O R. destruct (H O R) as (u & us & F & D & P & U). unfold node, dat. rewrite F.
  assert (F3 : start_ty k = None) by (simpl in K; intuition (subst; reflexivity)). rewrite F3, D. change (x_binops (blank k None) ++ map fst es) with (map fst es).
  destruct es as [|[o e'] es].
  - inversion U; subst. inversion A; subst. cbn [map]. change (with_binops [] (blank k None)) with (blank k None).
    assert (X : wo (NT (blank k None) [u]) = wo u \/ wo (NT (blank k None) [u]) = NT (blank k None) [wo u] /\ In k [K_Compare; K_Pow]).
    { simpl in K. destruct K as [<-|[<-|[<-|[<-|[]]]]]; [left; reflexivity|left; reflexivity|right|right]; (split; [reflexivity|simpl; auto]). }
    destruct X as [-> |[-> K']]; [exact P|]. destruct P as [P1 P2 P3 P4].
    assert (E : ren None (NT (blank k None) [wo u]) = NT (blank k None) [ren None (wo u)]) by (simpl in K'; destruct K' as [<-|[<-|[]]]; cbn [ren]; unfold word_in; cbn [x_kind blank]; rewrite ren_none; reflexivity).
    split; [rewrite E; reflexivity|simpl in K'; destruct K' as [<-|[<-|[]]]; reflexivity|exact P3|]. intros V T. rewrite E in T.
    apply (tok_threaded callable) in T; [|simpl in K'; destruct K' as [<-|[<-|[]]]; reflexivity|reflexivity|reflexivity].
    destruct T as [T _]. apply P4. simpl in K'; destruct K' as [<-|[<-|[]]]; exact T.
  - inversion U as [|u' p us' l' U1 U2]; subst. inversion A as [|? ? f ? ? ? I A']; subst.
    replace (wo (NT (with_binops (map fst ((o, e') :: es)) (blank k None)) (u :: u' :: us'))) with
      (fold_left (fun acc x => op_call (blank k None) (fst x) acc (snd x)) (combine (map fst es) (map wo us')) (op_call (blank k None) o (wo u) (wo u'))).
    + eapply op_calls_v; [exact A'|now apply op_call_v|]. clear - U2. induction U2; constructor; auto.
    + reflexivity.
Qed.
Lemma oper_means : forall n k c e, kind_new n = Some k -> n <> "swizzle" -> n <> "item" -> oper (wo (node k c)) e -> means [SNode n c] e.
Proof. intros n k c e K N NI [P1 P2 P3 P4]. eapply node_means; eauto. Qed.
Lemma no_swizzle : forall b, body b -> oks b = true -> forallb (fun t => negb (of_ K_Swizzle t)) (view b) = true.
Proof.
  intros b B O. destruct (B O) as (_ & _ & X). destruct (X (blank K_Expr None)) as (t & tr & ts & Y & _ & KI & _).
  assert (E : forest b = ts) by (unfold forest; now rewrite Y). unfold view. rewrite E. clear - KI. induction KI as [|t ts K H IH]; [reflexivity|]. cbn [map forallb]. rewrite IH.
  unfold of_. rewrite seen_kind. unfold kin, kind_of in K. destruct (t_kind (wo t)); try reflexivity. simpl in K. repeat (destruct K as [K|K]; [discriminate|]). destruct K.
Qed.
Lemma unary_v : forall n k name b e, kind_new n = Some k -> unop_name k = Some name -> body b -> V_expr b e -> nodes_all tidy (SNode "expr" b) = true -> nodes_all regular (SNode "expr" b) = true ->
  voids b = false -> oper (wo (node k [SNode "expr" b])) (apply name [e]).
Proof.
  intros n k name b e K U B E O R NV. apply ok_node in O. apply reg_node in R. destruct O as [_ O], R as [_ R]. specialize (E O R).
  destruct (wrapper_node K_Expr b false ltac:(simpl; tauto) (body_arg _ b B) O) as (d & D & SE & S_ & C & OP & OV & KD & MD & WO). rewrite NV in KD.
  assert (F : forest [SNode "expr" b] = [node K_Expr b]) by (now rewrite (forest_node "expr" K_Expr)).
  assert (DK : dat k [SNode "expr" b] = blank k None).
  { unfold dat. rewrite nodes_data by reflexivity. destruct k; try discriminate U; reflexivity. }
  unfold node at 1. rewrite DK, F. change (wo (NT (blank k None) [node K_Expr b])) with (without_operator (blank k None) [wo (node K_Expr b)]).
  unfold without_operator. cbn [x_binops blank x_kind]. rewrite U, WO. unfold as_argument. cbn [t_data t_children].
  assert (RE : ren None (NT (to_call name (blank k None)) [NT (with_kind K_CallArg d) (map wo (forest b))]) = NT (to_call name (blank k None)) [NT (with_kind K_CallArg d) (view b)]).
  { cbn [ren]. unfold word_in. cbn [x_kind with_binops to_call with_names with_kind]. rewrite ren_none. cbn [map ren]. unfold word_in. cbn [x_kind with_kind with_names]. rewrite ren_none, map_map.
    unfold t_names. cbn [x_kind with_kind with_names x_names blank tmarks flat_map t_kind t_data x_mut app existsb id]. rewrite MD. cbn. now destruct d. }
  split; [rewrite RE; reflexivity|reflexivity|reflexivity|]. intros V H. rewrite RE in H. cbn [VisibleSpec.visible apply].
  assert (VL : values_of [e] = 1) by (pose proof (mn_flat _ _ _ E) as Z; unfold values_of; cbn [fold_right]; destruct e; try reflexivity; discriminate).
  rewrite VL. split.
  - cbn [VisibleTree.tok] in H. destruct H as (_ & H & _). specialize (H eq_refl eq_refl _ eq_refl). unfold t_values in H. cbn [filter] in H.
    change (of_ K_CallArg (NT (with_kind K_CallArg d) (view b))) with true in H. cbn [fold_right] in H. unfold t_width in H. cbn [t_children] in H.
    rewrite (width_one _ (no_swizzle b B O)) in H. exact H.
  - apply (tok_threaded callable) in H; [|reflexivity|reflexivity|reflexivity]. destruct H as (H1 & _). cbn [over loopb] in H1.
    apply (tok_threaded callable) in H1; [|reflexivity|cbn [with_kind x_op]; now rewrite OP|reflexivity]. cbn [all_in]. split; [|exact Logic.I].
    apply (am_vis _ _ _ (mn_arg _ _ _ E)). apply one_threaded; [|exact H1]. unfold view. rewrite map_length. apply (am_one _ _ _ (mn_arg _ _ _ E)).
Qed.

(** ** Arguments of calls *)
Definition clean (l : list stx) : bool := forallb (fun t => negb (is_void t) && negb (existsb (named "swizzle") (body_of t))) l.
Record V_args (l : list stx) (ms : list bool) (es : list expr) : Prop := {
  vg_parts : oks l = true -> regs l = true -> no_intro l = true -> Forall2 part (view l) es;
  vg_calls : oks l = true -> regs l = true -> clean l = true -> tmarks (map wo (forest l)) = ms /\ t_values (view l) = values_of es;
  vg_noitem : oks l = true -> Forall (fun t => of_ K_Item t = false) (map wo (forest l)) }.
Definition V_arg (b : list stx) (e : expr) : Prop := oks b = true -> regs b = true -> a_means b e.
Lemma arg_v : forall b m e pre l ms es, (forall r, forest (pre ++ r) = forest r) -> (forall Q, forallb (nodes_all Q) pre = true) -> (forall r, clean (pre ++ r) = clean r) -> no_intro pre = true ->
  a_body b m -> V_arg b e -> V_args l ms es -> V_args (pre ++ SNode "call_arg" b :: l) (m :: ms) (e :: es).
Proof.
  intros b m e pre l ms es FP OP CP NP B E [A1 A2 A3].
  assert (EV : view (pre ++ SNode "call_arg" b :: l) = seen (node K_CallArg b) :: view l) by (unfold view; rewrite FP, (forest_node "call_arg" K_CallArg) by reflexivity; reflexivity).
  assert (EF : forest (pre ++ SNode "call_arg" b :: l) = node K_CallArg b :: forest l) by (now rewrite FP, (forest_node "call_arg" K_CallArg)).
  assert (W : In K_CallArg wrappers) by (simpl; tauto).
  assert (X : forall Q, forallb (nodes_all Q) (pre ++ SNode "call_arg" b :: l) = true -> forallb (nodes_all Q) b = true /\ forallb (nodes_all Q) l = true).
  { intros Q H. rewrite forallb_app, OP in H. cbn [andb forallb nodes_all] in H. rewrite !andb_true_iff in H. tauto. }
  split.
  - intros O R N. destruct (X _ O) as [O1 O2], (X _ R) as [R1 R2]. rewrite EV. apply no_intro_app in N. destruct N as [_ N]. apply no_intro_cons in N. destruct N as [N1 N2].
    constructor; [|auto]. destruct (wrapper_part callable K_CallArg b m e W B O1 (E O1 R1)) as (P1 & P2 & P3). split; auto.
  - intros O R C. destruct (X _ O) as [O1 O2], (X _ R) as [R1 R2]. rewrite CP in C. unfold clean in C. cbn [forallb] in C. rewrite !andb_true_iff, !negb_true_iff in C. destruct C as [[C1 C2] C3].
    change (voids b = false) in C1. cbn [body_of] in C2. destruct (A2 O2 R2 C3) as [T1 T2]. rewrite EV, EF.
    destruct (wrapper_node K_CallArg b m W B O1) as (d & D & SE & S_ & C & OPd & OV & KD & MD & WO). rewrite C1 in KD. split.
    + cbn [map tmarks flat_map]. rewrite WO. unfold t_kind at 1. cbn [t_data]. rewrite KD, MD. cbn [app]. f_equal. exact T1.
    + unfold t_values. rewrite SE. cbn [filter]. unfold of_ at 1. unfold t_kind at 1. cbn [t_data]. rewrite KD. change (is_kind K_CallArg K_CallArg) with true. cbn [fold_right].
      assert (E1 : t_width (NT d (view b)) = 1).
      { unfold t_width. cbn [t_children]. destruct (B O1) as (_ & _ & Y). destruct (Y (blank K_Expr None)) as (t & tr & ts & Z & _ & _ & KI & _). specialize (KI C2).
        assert (EB : forest b = ts) by (unfold forest; now rewrite Z). rewrite width_one; [reflexivity|]. unfold view. rewrite EB. clear - KI. induction KI as [|t ts K H IH]; [reflexivity|]. cbn [map forallb]. rewrite IH.
        unfold of_. rewrite seen_kind. unfold kin, kind_of in K. destruct (t_kind (wo t)); try reflexivity. simpl in K. repeat (destruct K as [K|K]; [discriminate|]). destruct K. }
      rewrite E1. unfold t_values in T2. rewrite T2. unfold values_of. cbn [fold_right]. pose proof (am_flat _ _ _ (E O1 R1) C2) as NS. destruct e; try reflexivity. discriminate.
  - intros O. destruct (X _ O) as [O1 O2]. rewrite EF. cbn [map]. constructor; [|now apply A3].
    destruct (wrapper_node K_CallArg b m W B O1) as (d & D & SE & S_ & C & OPd & OV & KD & MD & WO). rewrite WO. unfold of_, t_kind. cbn [t_data]. rewrite KD. now destruct (voids b).
Qed.
Lemma args_v_nil : V_args [] [] [].
Proof. split; intros; try constructor; reflexivity. Qed.
Lemma args_v_cons : forall b m e l ms es, a_body b m -> V_arg b e -> V_args l ms es -> V_args (SNode "call_arg" b :: l) (m :: ms) (e :: es).
Proof. intros b m e l ms es. apply (arg_v b m e []); reflexivity. Qed.
Lemma args_v_word : forall w b m e l ms es, a_body b m -> V_arg b e -> V_args l ms es -> V_args (str "word" w :: SNode "call_arg" b :: l) (m :: ms) (e :: es).
Proof. intros w b m e l ms es. apply (arg_v b m e [str "word" w]); try reflexivity. intros r. unfold str. apply forest_value. Qed.
(** the words of a call *)
Definition join (n : string) (ws : list string) : string := (n ++ String.concat "" (map (fun w => "_" ++ w) ws))%string.
Lemma append_assoc : forall a b c : string, ((a ++ b) ++ c = a ++ b ++ c)%string.
Proof. induction a; intros; cbn; [reflexivity|]. now rewrite IHa. Qed.
Lemma concat_cons : forall s l, String.concat "" (s :: l) = (s ++ String.concat "" l)%string.
Proof.
  intros s [|t l]; [|reflexivity]. cbn. induction s; [reflexivity|]. cbn. now rewrite <- IHs.
Qed.
Lemma join_cons : forall n w ws, join (n ++ "_" ++ w) ws = join n (w :: ws).
Proof. intros. unfold join. cbn [map]. rewrite concat_cons, !append_assoc. reflexivity. Qed.
Lemma named_data : forall l ws ms es, named_mean in_of alloc l ws ms es -> forall d n l0, x_names d = n :: l0 -> fst (builds l d) = with_names (join n ws :: l0) d.
Proof.
  induction l as [l IH] using (well_founded_induction (Wf_nat.well_founded_ltof _ (@length stx))). intros ws ms es H d n l0 N. inversion H; subst.
  - cbn. unfold join. cbn. assert (X : (n ++ "")%string = n) by (clear; induction n; [reflexivity|cbn; now rewrite IHn]). rewrite X, <- N. symmetry. apply with_names_same.
  - unfold str. rewrite builds_value. cbn [say]. unfold set_string. change ("word" =? "alias")%string with false. change ("word" =? "name")%string with false. change ("word" =? "word")%string with true. cbv iota.
    rewrite N. cbn [GrammarBuild.builds fst]. rewrite build_node. change (kind_new "call_arg") with (Some K_CallArg). cbn [fst].
    rewrite (IH l1) with (ws := ws0) (ms := ms0) (es := es0) (n := (n ++ "_" ++ w)%string) (l0 := l0); [|unfold ltof; cbn; lia|assumption|reflexivity]. rewrite join_cons. reflexivity.
Qed.
Lemma concat_join : forall w ws, String.concat "_" (w :: ws) = join w ws.
Proof.
  intros w ws. revert w. induction ws as [|v ws IH]; intros w.
  - unfold join. cbn. clear. induction w; [reflexivity|]. cbn. now rewrite <- IHw.
  - change (String.concat "_" (w :: v :: ws)) with (w ++ "_" ++ String.concat "_" (v :: ws))%string. rewrite IH. rewrite <- join_cons. unfold join. now rewrite !append_assoc.
Qed.
Lemma words_joined : forall x ws, words_name x ws = join (x ++ "_") ws.
Proof. intros. unfold words_name, join. now rewrite append_assoc. Qed.

(** ** Calls *)
Definition V_call (c : stx) (f : string) (es : list expr) : Prop := nodes_all tidy c = true -> nodes_all regular c = true ->
  exists t, forest [c] = [t] /\ opless (seen t) /\ forall V, tok false false V (seen t) -> callable f (values_of es) /\ all_in visible V es.
Lemma call_v : forall n x l0 l ms es, kind_new n = Some K_Call -> fst (builds l0 (blank K_Call None)) = with_names [x] (blank K_Call None) -> forest l0 = forest l ->
  V_args l ms es -> (nodes_all tidy (SNode n l0) = true -> oks l = true /\ clean l = true) -> (nodes_all regular (SNode n l0) = true -> regs l = true /\ no_intro l = true) ->
  V_call (SNode n l0) (full_name x ms) es.
Proof.
  intros n x l0 l ms es K D F [A1 A2 A3] O' R' O R. destruct (O' O) as [Ol Cl]. destruct (R' R) as [Rl Nl]. specialize (A1 Ol Rl Nl). destruct (A2 Ol Rl Cl) as [M1 M2].
  exists (node K_Call l0). split; [now rewrite (forest_node n K_Call)|].
  assert (E : seen (node K_Call l0) = NT (with_names [full_name x ms] (blank K_Call None)) (view l)).
  { unfold seen, node, dat. change (start_ty K_Call) with (@None ty). rewrite D, F. rewrite simple_wo by reflexivity. cbn [ren]. unfold word_in. cbn [x_kind with_names blank]. rewrite ren_none, map_map. f_equal.
    unfold t_names. cbn [x_kind with_names blank x_names]. rewrite M1. unfold full_name. now destruct (existsb id ms). }
  split; [rewrite E; reflexivity|]. intros V H. rewrite E in H. split.
  - cbn [VisibleTree.tok] in H. destruct H as (_ & H & _). specialize (H eq_refl eq_refl _ eq_refl). now rewrite M2 in H.
  - apply (tok_threaded callable) in H; [|reflexivity|reflexivity|reflexivity]. eapply parts_threaded; eauto.
Qed.
Lemma call_oks : forall n a m v l, In n ["call"; "named_call"] -> nodes_all tidy (SNode n (strs "alias" a ++ SValue (MString m v) :: l)) = true -> a = None /\ oks l = true /\ clean l = true.
Proof.
  intros n a m v l I O. apply ok_node in O. destruct O as [T O]. destruct (call_traceable true n a m v l I T) as [X Y].
  split; [destruct a; [|reflexivity]; specialize (X ltac:(discriminate)); discriminate|]. rewrite oks_alias in O. apply oks_cons in O. split; [apply O|now apply Y].
Qed.
Lemma call_regs : forall n a m v l, In n ["call"; "named_call"] -> nodes_all regular (SNode n (strs "alias" a ++ SValue (MString m v) :: l)) = true -> regs l = true /\ no_intro l = true.
Proof.
  intros n a m v l I R. apply reg_node in R. destruct R as [R0 R]. apply regs_app in R. destruct R as [_ R]. apply regs_cons in R. split; [apply R|].
  apply regular_intro in R0; [|simpl in I; destruct I as [<-|[<-|[]]]; reflexivity|simpl in I; intros ->; intuition discriminate].
  apply no_intro_app in R0. destruct R0 as [_ R0]. apply no_intro_cons in R0. apply R0.
Qed.
Lemma arguments_nodes : forall i a l ms es, arguments_mean i a l ms es -> forallb is_node l = true.
Proof. intros i a. induction l; intros ms es H; inversion H; subst; [reflexivity|]. cbn. eauto. Qed.
Lemma plain_call_v : forall a x l ms es, arguments_mean in_of alloc l ms es -> V_args l ms es -> V_call (SNode "call" (strs "alias" a ++ str "name" x :: l)) (path a (full_name x ms)) es.
Proof.
  intros a x l ms es M A O R. destruct (call_oks "call" a "name" x l ltac:(simpl; auto) O) as (-> & Ol). cbn [strs app path] in *.
  refine (call_v "call" x (str "name" x :: l) l ms es eq_refl _ _ A _ _ O R); [|unfold str; apply forest_value|now intros _|intros _; exact (call_regs "call" None "name" x l ltac:(simpl; auto) R)].
  unfold str. rewrite builds_value. now rewrite (nodes_data _ _ (arguments_nodes _ _ _ _ _ M)).
Qed.
Lemma named_call_v : forall a x l ws ms es, named_mean in_of alloc l ws ms es -> V_args l ms es ->
  V_call (SNode "named_call" (strs "alias" a ++ str "word" x :: l)) (path a (full_name (words_name x ws) ms)) es.
Proof.
  intros a x l ws ms es M A O R. destruct (call_oks "named_call" a "word" x l ltac:(simpl; auto) O) as (-> & Ol). cbn [strs app path] in *.
  refine (call_v "named_call" _ (str "word" x :: l) l ms es eq_refl _ _ A _ _ O R); [|unfold str; apply forest_value|now intros _|intros _; exact (call_regs "named_call" None "word" x l ltac:(simpl; auto) R)].
  unfold str. rewrite builds_value. cbn [say]. rewrite (named_data _ _ _ _ M _ (x ++ "_")%string []) by reflexivity. rewrite words_joined. reflexivity.
Qed.
Lemma call_means_v : forall n k c f es, (n = "call" \/ n = "named_call") -> kind_new n = Some k -> V_call (SNode n c) f es -> V_expr [SNode n c] (apply f es).
Proof.
  intros n k c f es N K H O R. apply oks_cons in O. apply regs_cons in R. destruct (H (proj1 O) (proj1 R)) as (t & F & OP & T).
  rewrite (forest_node n k _ _ K) in F. injection F as <-. eapply node_means; eauto; try (intros ->; destruct N; discriminate).
Qed.
End Parts.
