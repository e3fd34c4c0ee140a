(** * The cases of the grammar: what their trees have. *)
From Coq Require Import String List Bool Arith ZArith Lia.
From Verif Require Import PrintModel ColorModel Float64 TypeModel LifetimeModel NodesModel FoldModel TransformModel NodesSpec LivesSpec Syntax AstModel AstSpec AstProofs AstFile GrammarSpec GrammarBuild GrammarFits.
Import ListNotations.
Local Open Scope string_scope.
Local Open Scope nat_scope.
Local Open Scope list_scope.

Section Cases.
Context (L : bool).
Notation tidy := (tidy L).
Notation oks := (forallb (nodes_all tidy)).
Notation sorted := (sorted parse_type).
Notation build := (build parse_type).
Notation builds := (builds parse_type).
Notation good := (good L).
Notation one_node := (one_node L).
Notation all_nodes := (all_nodes L).
Notation body := (body L).
Notation a_body := (a_body L).
Notation wrapped := (wrapped L).

Lemma builds_all : forall l ts r d, (forall d, builds l d = (d, ts)) -> builds (l ++ r) d = (fst (builds r d), ts ++ snd (builds r d)).
Proof. intros l ts r d H. rewrite builds_app, H. reflexivity. Qed.
Lemma builds_one : forall s t r d, (forall d, build s d = (d, [t])) -> builds (s :: r) d = (fst (builds r d), t :: snd (builds r d)).
Proof. intros s t r d H. cbn [GrammarBuild.builds]. rewrite H. reflexivity. Qed.
Lemma type_pieces : forall name k T t, kind_new name = Some k -> is_type k = true -> type_piece name T t ->
  Forall sorted T /\ forall r d, builds (T ++ r) d = builds r (match t with Some t => with_ty t d | None => d end).
Proof.
  intros name k T t K KT H. inversion H; subst; [split; [constructor|reflexivity]|]. pose proof (parse_type_ok name b t0 H0) as P. split.
  - constructor; [|constructor]. exists k, t0. auto.
  - intros r d. cbn [app GrammarBuild.builds GrammarBuild.build]. rewrite (type_parsed _ _ _ _ P). cbn [fst snd app]. now destruct (builds r (with_ty t0 d)).
Qed.
Lemma symbol_set : forall s o, In (s, o) symbols -> forall d, set_bool s true d = with_binops (x_binops d ++ [o]) d.
Proof. intros s o H d. simpl in H. repeat (destruct H as [H|H]; [inversion H; subst; reflexivity|]). destruct H. Qed.
Lemma assign_set : forall s o, In (s, o) assignments -> forall d, set_bool s true d = with_op o d.
Proof. intros s o H d. simpl in H. repeat (destruct H as [H|H]; [inversion H; subst; reflexivity|]). destruct H. Qed.

(** ** Bodies *)
Lemma body_try : forall b, body b -> body (b ++ [flag "try"]).
Proof.
  intros b H O. apply oks_app in O. destruct (H (proj1 O)) as (W & (M1 & M2 & M3) & X). split; [apply Forall_app; split; [exact W|repeat constructor]|].
  unfold voids in *. rewrite !existsb_app. cbn. rewrite M1, M2, !orb_false_r.
  split; [split; [reflexivity|split; [reflexivity|exact M3]]|]. intros d. destruct (X d) as (t & tr & ts & A & B & C & D). exists t, true, ts.
  split; [|auto]. rewrite builds_app, A. cbn [fst snd]. unfold flag. rewrite builds_value. cbn. rewrite app_nil_r. reflexivity.
Qed.
Lemma value_body : forall m, sorted (SValue m) -> is_flag "mut" (SValue m) = false ->
  (forall d, exists t, say m d = after d (is_flag "return_void" (SValue m)) false t (x_try d)) -> body [SValue m].
Proof.
  intros m W M S_ _. split; [constructor; [exact W|constructor]|]. split; [cbn [existsb is_node named]; rewrite M; auto|]. intros d. destruct (S_ d) as [t E].
  exists t, (x_try d), []. split; [|repeat split; try constructor; discriminate]. rewrite builds_value, E. unfold voids. cbn [existsb]. now rewrite orb_false_r.
Qed.
(** the body is one node of a kind that can be there *)
Lemma node_body1 : forall n c k, n <> "swizzle" -> In k plain_kinds -> (tidy n c = true -> oks c = true -> one_node (SNode n c) [k]) -> body [SNode n c].
Proof. intros n c k N K H. apply node_body; [exact N|]. intros T O. eapply one_kind; eauto. Qed.

(** ** Operators *)
Lemma unary : forall n k name b, kind_new n = Some k -> unop_name k = Some name -> body b -> oks b = true -> voids b = false ->
  one_node (SNode n [SNode "expr" b]) [K_Call].
Proof.
  intros n k name b K U B O V. destruct (B O) as (W & (M1 & M2 & M3) & X).
  destruct (X (blank K_Expr None)) as (t & tr & ts & Y & G & KI & NE). rewrite V in Y.
  assert (F : is_type k = false /\ is_sig_type k = false /\ start_ty k = None /\ is_kind k K_Add || is_kind k K_Mul = false) by (destruct k; try discriminate U; repeat split).
  destruct F as (F1 & F2 & F3 & F4).
  split.
  { apply sorted_node. split; [eauto|]. constructor; [|constructor]. apply sorted_node. split; [|exact W]. exists K_Expr. repeat split. }
  set (inner := NT (after (blank K_Expr None) false false t tr) ts).
  exists (NT (blank k None) [inner]).
  assert (A : accepts (after (blank K_Expr None) false false t tr) plain_kinds false = true) by reflexivity.
  assert (A' : accepts (after (blank K_CallArg None) false false t tr) plain_kinds false = true) by reflexivity.
  destruct (accepts_good L _ _ ts _ A) as [GI EI]; [discriminate|assumption|assumption|].
  destruct (accepts_good L _ _ ts _ A') as [GI' EI']; [discriminate|assumption|assumption|].
  assert (E : wo (NT (blank k None) [inner]) = NT (to_call name (blank k None)) [wo (NT (after (blank K_CallArg None) false false t tr) ts)]).
  { change (wo (NT (blank k None) [inner])) with (without_operator (blank k None) [wo inner]). unfold without_operator. cbn [x_binops blank x_kind]. rewrite U. unfold inner. rewrite EI, EI'. reflexivity. }
  split; [|split].
  - intros d. rewrite build_node, K, F3. cbv zeta. rewrite (builds_one _ inner); [reflexivity|]. intros d'. rewrite build_node. change (kind_new "expr") with (Some K_Expr). cbv iota zeta. change (start_ty K_Expr) with (@None ty). now rewrite Y.
  - destruct GI as [I1 I2 I3 I4 I5], GI' as [J1 J2 J3 J4 J5]. split.
    + apply fits_node. split; [left; left; reflexivity|]. split; [reflexivity|]. split; [|constructor; [exact I1|constructor]].
      intros _. split; [reflexivity|]. intros t' [<-|[]]. split; reflexivity.
    + apply andb_true_iff. split; [now destruct k|]. apply andb_true_iff. split; [exact I2|reflexivity].
    + rewrite E. cbn [every forallb]. rewrite J3, andb_true_r. rewrite EI'. reflexivity.
    + intros l. rewrite E. cbn [every forallb]. rewrite (J4 l), andb_true_r. rewrite EI'. unfold lively. cbn [t_data t_children forallb].
      assert (Z : forallb (fun s => negb (of_ K_Swizzle s)) (map wo ts) = true) by (apply (none_kind _ _ _ KI); reflexivity). rewrite Z. reflexivity.
    + rewrite E. left. reflexivity.
  - unfold kin, kind_of. rewrite E. now left.
Qed.
Definition operands (l : list stx) : Prop := oks l = true -> Forall sorted l /\ exists t us bs, length us = length bs /\ Forall good (t :: us) /\
  Forall (kin operand_kinds) (t :: us) /\ forall d, builds l d = (with_binops (x_binops d ++ bs) d, t :: us).
Definition operands' (l : list stx) : Prop := oks l = true -> Forall sorted l /\ exists us bs, length us = length bs /\ Forall good us /\
  Forall (kin operand_kinds) us /\ forall d, builds l d = (with_binops (x_binops d ++ bs) d, us).
Lemma operators_node : forall n k l, kind_new n = Some k -> In k [K_Add; K_Mul; K_Compare; K_Pow] -> operands l -> oks l = true ->
  one_node (SNode n l) (K_Compare :: operand_kinds) /\ (k <> K_Compare -> one_node (SNode n l) operand_kinds).
Proof.
  intros n k l K I H O. destruct (H O) as (W & t & us & bs & N & G & KI & B).
  assert (F : is_type k = false /\ is_sig_type k = false /\ start_ty k = None) by (simpl in I; intuition (subst; reflexivity)). destruct F as (F1 & F2 & F3).
  destruct (op_good L k bs t us I N G KI) as (A & C & D).
  assert (E : forall d, build (SNode n l) d = (d, [NT (with_binops bs (blank k None)) (t :: us)])).
  { intros d. rewrite build_node, K, F3. cbv zeta. now rewrite B. }
  assert (W' : sorted (SNode n l)) by (apply sorted_node; split; eauto).
  split; [|intros X; specialize (D X)]; (split; [exact W'|]); eauto.
Qed.
Lemma operands_cons : forall s l, (nodes_all tidy s = true -> one_node s operand_kinds) -> operands' l -> operands (s :: l).
Proof.
  intros s l H H' O. apply oks_cons in O. destruct (H (proj1 O)) as (A & t & B & C & D). destruct (H' (proj2 O)) as (W & us & bs & N & G & KI & E).
  split; [now constructor|]. exists t, us, bs. split; [exact N|]. split; [constructor; assumption|]. split; [constructor; assumption|].
  intros d. now rewrite (builds_one _ _ _ _ B), E.
Qed.
Lemma operands_rest : forall s o t l, In (s, o) symbols -> (nodes_all tidy t = true -> one_node t operand_kinds) -> operands' l -> operands' (flag s :: t :: l).
Proof.
  intros s o t l I H H' O. apply oks_cons in O. destruct O as [_ O]. apply oks_cons in O. destruct (H (proj1 O)) as (A & u & B & C & D).
  destruct (H' (proj2 O)) as (W & us & bs & N & G & KI & E).
  split; [constructor; [constructor|constructor; assumption]|]. exists (u :: us), (o :: bs). split; [simpl; now rewrite N|].
  split; [constructor; assumption|]. split; [constructor; assumption|].
  intros d. unfold flag. rewrite builds_value. cbn [say]. rewrite (symbol_set _ _ I), (builds_one _ _ _ _ B), E. cbn. now rewrite <- app_assoc.
Qed.

(** ** Assignments *)
Lemma assign_node : forall b o op c, In (o, op) assignments -> body b -> body c -> linkable "assign" [SNode "left" b; flag o; SNode "right" c] = true ->
  oks b = true -> oks c = true -> one_node (SNode "assign" [SNode "left" b; flag o; SNode "right" c]) [K_Assign].
Proof.
  intros b o op c I B C LK Ob Oc. cbn in LK.
  destruct (B Ob) as (_ & (_ & _ & NV) & _). rewrite LK in NV. cbn [andb] in NV.
  destruct (wrap L "left" K_Left b false) as (W1 & t1 & T1); [reflexivity|simpl; tauto|now apply body_arg|assumption|discriminate|].
  destruct (wrap L "right" K_Right c false) as (W2 & t2 & T2); [reflexivity|simpl; tauto|now apply body_arg|assumption|discriminate|].
  split. { apply sorted_node. split; [exists K_Assign; repeat split|]. repeat (constructor; auto). }
  exists (NT (with_op op (blank K_Assign None)) [t1; t2]).
  destruct T1 as [B1 G1 K1 M1 S1 Z1 Y1 _ D1], T2 as [B2 G2 K2 M2 S2 Z2 Y2 _ D2]. rewrite NV in K1. specialize (S1 LK).
  assert (K2' : kind_of t2 = K_Right \/ kind_of t2 = K_ReturnVoid) by (rewrite K2; destruct (voids c); auto).
  assert (H : good (NT (with_op op (blank K_Assign None)) [t1; t2]) /\ wo (NT (with_op op (blank K_Assign None)) [t1; t2]) = NT (with_op op (blank K_Assign None)) [wo t1; wo t2]).
  { destruct (wo t1) as [d1 [|c1 cs1]] eqn:E1; [now contradict S1|]. rewrite <- E1. apply node_good; [reflexivity|now right|repeat (constructor; auto)| |].
    - cbn [map]. unfold written. cbn [t_data t_children forallb]. rewrite E1. cbn. unfold kind_of in *. unfold of_. rewrite E1 in K1. cbn in K1. unfold t_kind at 1. cbn [t_data]. unfold t_kind in K1. cbn [t_data] in K1.
      rewrite K1. destruct K2' as [-> | ->]; reflexivity.
    - intros l. cbn [map]. unfold lively. cbn [t_data t_children forallb]. unfold kind_of in *. unfold of_, one_of. rewrite K1. rewrite E1. destruct K2' as [-> | ->]; reflexivity. }
  destruct H as [H E]. split; [|split; [exact H|unfold kin, kind_of; rewrite E; now left]].
  intros d. rewrite build_node. change (kind_new "assign") with (Some K_Assign). cbv iota zeta. rewrite (builds_one _ _ _ _ B1). unfold flag. rewrite builds_value. cbn [say]. rewrite (assign_set _ _ I).
  rewrite (builds_one _ _ _ _ B2). reflexivity.
Qed.

(** ** Arguments of calls *)
Definition an_arg (s : stx) (t : ntree) : Prop := exists b m, s = SNode "call_arg" b /\ wrapped "call_arg" K_CallArg b m t.
Definition args_are (l : list stx) (ts : list ntree) : Prop := Forall2 an_arg (filter is_node l) ts.
Definition a_args (l : list stx) : Prop := oks l = true -> Forall sorted l /\ exists ts, (forall d, builds l d = (d, ts)) /\ args_are l ts.
Definition n_args (ws : list string) (l : list stx) : Prop := oks l = true -> Forall sorted l /\ exists ts, args_are l ts /\
  forall d, exists ns, builds l d = (with_names ns d, ts) /\ (x_names d <> [] \/ ws <> [] -> ns <> []).
Lemma arg_node : forall b m, a_body b m -> nodes_all tidy (SNode "call_arg" b) = true -> sorted (SNode "call_arg" b) /\ exists t, wrapped "call_arg" K_CallArg b m t.
Proof. intros b m A O. apply ok_node in O. apply wrap; [reflexivity|simpl; tauto|exact A|apply O|discriminate]. Qed.
Lemma args_nil : a_args [].
Proof. intros _. split; [constructor|]. exists []. split; [reflexivity|constructor]. Qed.
Lemma args_cons : forall b m l, a_body b m -> a_args l -> a_args (SNode "call_arg" b :: l).
Proof.
  intros b m l A B O. apply oks_cons in O. destruct (arg_node b m A (proj1 O)) as (W & t & T). destruct (B (proj2 O)) as (W' & ts & E & F).
  split; [now constructor|]. exists (t :: ts). split; [|constructor; [exists b, m; auto|exact F]].
  intros d. now rewrite (builds_one _ _ _ _ (wr_build _ _ _ _ _ _ T)), E.
Qed.
Lemma named_nil : n_args [] [].
Proof. intros _. split; [constructor|]. exists []. split; [constructor|]. intros d. exists (x_names d). split; [now destruct d|]. intros [H|H]; congruence. Qed.
Lemma word_names : forall w d, exists ns, set_string "word" w d = with_names ns d /\ ns <> [].
Proof. intros w d. cbn. destruct (x_names d); eexists; (split; [reflexivity|discriminate]). Qed.
Lemma named_cons : forall w b m ws l, a_body b m -> n_args ws l -> n_args (w :: ws) (str "word" w :: SNode "call_arg" b :: l).
Proof.
  intros w b m ws l A B O. apply oks_cons in O. destruct O as [_ O]. apply oks_cons in O.
  destruct (arg_node b m A (proj1 O)) as (W & t & T). destruct (B (proj2 O)) as (W' & ts & E & F).
  split; [constructor; [constructor|now constructor]|]. exists (t :: ts). split; [constructor; [exists b, m; auto|exact E]|].
  intros d. unfold str. rewrite builds_value. cbn [say]. destruct (word_names w d) as (ns & -> & N).
  rewrite (builds_one _ _ _ _ (wr_build _ _ _ _ _ _ T)). destruct (F (with_names ns d)) as (ns' & -> & N'). exists ns'. split; [reflexivity|]. intros _. apply N'. now left.
Qed.
Lemma args_good : forall l ts, args_are l ts -> Forall good ts /\ Forall (kin [K_CallArg; K_ReturnVoid]) ts.
Proof.
  unfold args_are. intros l ts H. induction H as [|s t l' ts (b & m & -> & T) H IH]; [split; constructor|]. destruct IH, T as [B G K _ _ _ _ _ _].
  split; constructor; auto. unfold kin. rewrite K. destruct (voids b); simpl; auto.
Qed.
Lemma args_lively : forall l ts, args_are l ts -> forallb (fun t => negb (is_void t) && negb (existsb (named "swizzle") (body_of t))) l = true ->
  forallb (fun c => of_ K_CallArg c && forallb (fun s => negb (of_ K_Swizzle s)) (t_children c)) (map wo ts) = true.
Proof.
  unfold args_are. intros l ts H F. assert (F' : forallb (fun t => negb (is_void t) && negb (existsb (named "swizzle") (body_of t))) (filter is_node l) = true).
  { rewrite forallb_forall in F |- *. intros x I. apply filter_In in I. now apply F. }
  clear F. induction H as [|s t l' ts (b & m & -> & T) H IH]; [reflexivity|]. cbn [forallb map] in *. rewrite !andb_true_iff, !negb_true_iff in F'.
  destruct F' as [[A B] C]. cbn [body_of] in B. change (voids b = false) in A. destruct T as [_ _ K _ _ S_ _ _ _]. rewrite A in K. unfold of_ at 1. unfold kind_of in K. rewrite K, (S_ B).
  exact (IH C).
Qed.
Lemma args_mut : forall l ts, args_are l ts -> forallb (fun t => negb (has_mut t)) l = true ->
  existsb (fun t => (of_ K_Arg t || of_ K_CallArg t) && x_mut (t_data t)) (map wo ts) = false.
Proof.
  unfold args_are. intros l ts H F. assert (F' : forallb (fun t => negb (has_mut t)) (filter is_node l) = true).
  { rewrite forallb_forall in F |- *. intros x I. apply filter_In in I. now apply F. }
  clear F. induction H as [|s t l' ts (b & m & -> & T) H IH]; [reflexivity|]. cbn [forallb map existsb] in *. rewrite andb_true_iff, negb_true_iff in F'.
  destruct F' as [A C]. unfold has_mut in A. cbn [body_of] in A. destruct T as [_ _ _ M _ _ _ S_ _]. rewrite M, <- S_, A, andb_false_r. exact (IH C).
Qed.

(** ** Calls *)
Lemma call_good : forall d ns l ts, d = with_names ns (blank K_Call None) \/ (exists a, d = with_names ns (with_alias a (blank K_Call None))) /\ L = false ->
  ns <> [] -> args_are l ts -> (L = true -> forallb (fun t => negb (is_void t) && negb (existsb (named "swizzle") (body_of t))) l = true) ->
  good (NT d ts) /\ kin [K_Call] (NT d ts).
Proof.
  intros d ns l ts D N A F. destruct (args_good _ _ A) as [G K].
  assert (H : good (NT d ts) /\ wo (NT d ts) = NT d (map wo ts)).
  { apply node_good.
    - destruct D as [-> |[[a ->] _]]; reflexivity.
    - left. destruct D as [-> |[[a ->] _]]; reflexivity.
    - exact G.
    - unfold written. cbn [t_data t_children]. rewrite (none_kind _ K_Fn _ K) by reflexivity. destruct ns; [congruence|]. destruct D as [-> |[[a ->] _]]; reflexivity.
    - intros l'. destruct D as [-> |[_ D]]; [|congruence]. unfold lively. cbn [t_data t_children]. rewrite (args_lively _ _ A (F l')).
      rewrite (none_of _ odd_kinds _ K) by reflexivity. rewrite !orb_true_r. cbn. rewrite !andb_true_r.
      pose proof (none_kind _ K_Arg _ K eq_refl) as Y. rewrite forallb_forall in Y |- *. intros c I. now rewrite (Y c I). }
  destruct H as [X E]. split; [exact X|]. unfold kin, kind_of. rewrite E. destruct D as [-> |[[a ->] _]]; now left.
Qed.
Lemma alias_data : forall a n v d, exists d', builds (strs "alias" a ++ [SValue (MString n v)]) d = (set_string n v d', []) /\
  (a = None /\ d' = d \/ exists x, a = Some x /\ d' = with_alias x d).
Proof. intros [x|] n v d; cbn; eexists; (split; [reflexivity|]); [right|left]; eauto. Qed.
Lemma call_traceable : forall n a m v l, In n ["call"; "named_call"] -> tidy n (strs "alias" a ++ SValue (MString m v) :: l) = true ->
  (a <> None -> L = false) /\ (L = true -> forallb (fun t => negb (is_void t) && negb (existsb (named "swizzle") (body_of t))) l = true).
Proof.
  intros n a m v l I H. unfold GrammarFits.tidy in H. apply andb_true_iff in H. destruct H as [_ H]. destruct L; [|split; [auto|discriminate]]. cbn [negb orb] in H.
  assert (H' : forallb (fun t => negb (is_string "alias" t) && negb (is_void t) && negb (existsb (named "swizzle") (body_of t)))
     (strs "alias" a ++ SValue (MString m v) :: l) = true) by (destruct I as [<-|[<-|[]]]; exact H). clear H.
  rewrite forallb_app in H'. apply andb_true_iff in H'. destruct H' as [X Y]. split; [destruct a; [discriminate X|congruence]|]. intros _.
  cbn [forallb] in Y. apply andb_true_iff in Y. destruct Y as [_ Y]. rewrite forallb_forall in Y |- *. intros t T. specialize (Y t T).
  rewrite !andb_true_iff in *. tauto.
Qed.
Lemma oks_alias : forall a l, oks (strs "alias" a ++ l) = oks l.
Proof. intros [] l; reflexivity. Qed.
Lemma call_node : forall a x l, a_args l -> tidy "call" (strs "alias" a ++ str "name" x :: l) = true -> oks (strs "alias" a ++ str "name" x :: l) = true ->
  one_node (SNode "call" (strs "alias" a ++ str "name" x :: l)) [K_Call].
Proof.
  intros a x l A T O. rewrite oks_alias in O. destruct (A O) as (W & ts & E & F). destruct (call_traceable "call" _ _ _ _ ltac:(simpl; auto) T) as [T1 T2].
  split. { apply sorted_node. split; [exists K_Call; repeat split|]. apply Forall_app. split; [apply sorted_strs|constructor; [exact Logic.I|exact W]]. }
  destruct (alias_data a "name" x (blank K_Call None)) as (d & D & D').
  exists (NT (set_string "name" x d) ts). split.
  - intros e. rewrite build_node. change (kind_new "call") with (Some K_Call). cbv iota zeta. change (start_ty K_Call) with (@None ty).
    replace (strs "alias" a ++ str "name" x :: l) with ((strs "alias" a ++ [str "name" x]) ++ l) by (now rewrite <- app_assoc).
    rewrite builds_app. unfold str. rewrite D. cbn [fst snd]. now rewrite E.
  - apply (call_good _ [x] l); [|discriminate|exact F|exact T2]. destruct D' as [[-> ->]|(y & -> & ->)]; [left; reflexivity|right]. split; [exists y; reflexivity|apply T1; discriminate].
Qed.
Lemma named_node : forall a x ws l, n_args ws l -> tidy "named_call" (strs "alias" a ++ str "word" x :: l) = true -> oks (strs "alias" a ++ str "word" x :: l) = true ->
  one_node (SNode "named_call" (strs "alias" a ++ str "word" x :: l)) [K_Call].
Proof.
  intros a x ws l A T O. rewrite oks_alias in O. destruct (A O) as (W & ts & F & E). destruct (call_traceable "named_call" _ _ _ _ ltac:(simpl; auto) T) as [T1 T2].
  split. { apply sorted_node. split; [exists K_Call; repeat split|]. apply Forall_app. split; [apply sorted_strs|constructor; [exact Logic.I|exact W]]. }
  destruct (alias_data a "word" x (blank K_Call None)) as (d & D & D'). destruct (word_names x d) as (ns & S_ & N).
  destruct (E (with_names ns d)) as (ns' & E' & N'). 
  exists (NT (with_names ns' (with_names ns d)) ts). split.
  - intros e. rewrite build_node. change (kind_new "named_call") with (Some K_Call). cbv iota zeta. change (start_ty K_Call) with (@None ty).
    replace (strs "alias" a ++ str "word" x :: l) with ((strs "alias" a ++ [str "word" x]) ++ l) by (now rewrite <- app_assoc).
    rewrite builds_app. unfold str. rewrite D. cbn [fst snd]. rewrite S_, E'. reflexivity.
  - apply (call_good _ ns' l); [|apply N'; now left|exact F|exact T2]. destruct D' as [[-> ->]|(y & -> & ->)]; [left; reflexivity|right]. split; [exists y; reflexivity|apply T1; discriminate].
Qed.
(** calls of closures *)
Lemma closure_good : forall d t l ts, d = blank K_CallClosure None \/ (exists n ns, d = with_names (n :: ns) (blank K_CallClosure None)) ->
  good t -> kin [K_Item] t -> args_are l ts -> (d = blank K_CallClosure None -> forallb (fun t => negb (has_mut t)) l = true) ->
  good (NT d (t :: ts)) /\ kin [K_CallClosure] (NT d (t :: ts)).
Proof.
  intros d t l ts D G K A M. destruct (args_good _ _ A) as [GS KS].
  assert (KA : Forall (kin [K_Item; K_CallArg; K_ReturnVoid]) (t :: ts)).
  { constructor; [destruct K as [K|[]]; left; exact K|]. eapply kin_more; [exact KS|]. intros k H. now right. }
  assert (H : good (NT d (t :: ts)) /\ wo (NT d (t :: ts)) = NT d (map wo (t :: ts))).
  { apply node_good.
    - destruct D as [-> |(n & ns & ->)]; reflexivity.
    - left. destruct D as [-> |(n & ns & ->)]; reflexivity.
    - constructor; assumption.
    - unfold written. cbn [t_data t_children]. rewrite (none_kind _ K_Fn _ KA) by reflexivity.
      assert (I : of_ K_Item (wo t) = true) by (destruct K as [K|[]]; unfold of_; unfold kind_of in K; now rewrite <- K).
      assert (I' : (of_ K_Arg (wo t) || of_ K_CallArg (wo t)) = false) by (destruct K as [K|[]]; unfold of_; unfold kind_of in K; now rewrite <- K).
      destruct D as [D|(n & ns & ->)].
      + specialize (M D). rewrite D. cbn [map existsb]. unfold t_kind. cbn [t_data blank x_kind x_op x_names has_names]. rewrite (args_mut _ _ A M), I'. reflexivity.
      + cbn [map existsb]. unfold t_kind. cbn. fold (t_kind (wo t)). rewrite I. reflexivity.
    - intros l'. unfold lively. cbn [t_data t_children]. rewrite (none_of _ odd_kinds _ KA) by reflexivity. rewrite !orb_true_r.
      replace (forallb _ (map wo (t :: ts))) with true.
      + destruct D as [-> |(n & ns & ->)]; reflexivity.
      + symmetry. pose proof (none_kind _ K_Arg _ KA eq_refl) as Y. rewrite forallb_forall in Y |- *. intros c I. now rewrite (Y c I). }
  destruct H as [X E]. split; [exact X|]. unfold kin, kind_of. rewrite E. destruct D as [-> |(n & ns & ->)]; now left.
Qed.
Lemma call_closure_node : forall it l, one_node it [K_Item] -> a_args l -> tidy "call_closure" (it :: l) = true -> oks l = true ->
  one_node (SNode "call_closure" (it :: l)) [K_CallClosure].
Proof.
  intros it l (W & t & B & G & K) A T O. destruct (A O) as (W' & ts & E & F). split; [apply sorted_node; split; [exists K_CallClosure; repeat split|now constructor]|].
  exists (NT (blank K_CallClosure None) (t :: ts)). split.
  - intros d. rewrite build_node. change (kind_new "call_closure") with (Some K_CallClosure). cbv iota zeta. rewrite (builds_one _ _ _ _ B), E. reflexivity.
  - apply (closure_good _ _ l); auto. intros _. unfold GrammarFits.tidy in T. apply andb_true_iff in T. destruct T as [T _].
    change (forallb (fun t => negb (has_mut t)) (it :: l) = true) in T. cbn [forallb] in T. now apply andb_true_iff in T.
Qed.
Lemma named_closure_node : forall it ws l, one_node it [K_Item] -> n_args ws l -> ws <> [] -> oks l = true ->
  one_node (SNode "named_call_closure" (it :: l)) [K_CallClosure].
Proof.
  intros it ws l (W & t & B & G & K) A N O. destruct (A O) as (W' & ts & E & F). split; [apply sorted_node; split; [exists K_CallClosure; repeat split|now constructor]|].
  destruct (F (blank K_CallClosure None)) as (ns & H & N'). specialize (N' (or_intror N)). destruct ns as [|n ns]; [congruence|].
  exists (NT (with_names (n :: ns) (blank K_CallClosure None)) (t :: ts)). split.
  - intros d. rewrite build_node. change (kind_new "named_call_closure") with (Some K_CallClosure). cbv iota zeta. rewrite (builds_one _ _ _ _ B).
    change (start_ty K_CallClosure) with (@None ty). rewrite H. reflexivity.
  - apply (closure_good _ _ l); eauto. discriminate.
Qed.

(** ** Variables *)
Lemma all_say : forall m l ks, sorted (SValue m) -> (forall d, say m d = d) -> all_nodes l ks -> all_nodes (SValue m :: l) ks.
Proof.
  intros m l ks W E (A & ts & B & C & D). split; [now constructor|]. exists ts. split; [|auto]. intros d. now rewrite builds_value, E.
Qed.
Lemma all_flags : forall n v l ks, (forall d, set_bool n true d = d) -> all_nodes l ks -> all_nodes (flags n v ++ l) ks.
Proof. intros n [] l ks E H; [apply all_say; auto; exact Logic.I|exact H]. Qed.
Lemma item_node : forall c x q, one_node (SNode "item" (flags "current" c ++ str "name" x :: flags "try_item" q)) [K_Item].
Proof.
  intros c x q. eapply (contain L "item" K_Item _ [] (with_try q (with_names [x] (blank K_Item None)))) with (ne := false);
    [reflexivity|split; reflexivity| | |constructor|constructor|reflexivity|discriminate].
  - apply Forall_app. split; [apply sorted_flags|constructor; [exact Logic.I|apply sorted_flags]].
  - destruct c, q; reflexivity.
Qed.
Lemma extra_node : forall c x q l, all_nodes l [K_Id; K_ReturnVoid] ->
  one_node (SNode "item" (flags "current" c ++ str "name" x :: flags "try_item" q ++ [SNode "item_extra" l])) [K_Item].
Proof.
  intros c x q l H. assert (X : one_node (SNode "item_extra" l) [K_ItemExtra]) by (eapply contain_all; [reflexivity|split; reflexivity|exact H|reflexivity]).
  destruct X as (W & t & B & G & K).
  eapply (contain L "item" K_Item _ [K_ItemExtra] (with_try q (with_names [x] (blank K_Item None))) [t]) with (ne := false);
    [reflexivity|split; reflexivity| | |constructor; [exact G|constructor]|constructor; [exact K|constructor]|reflexivity|discriminate].
  - apply Forall_app. split; [apply sorted_flags|constructor; [exact Logic.I|]]. apply Forall_app. split; [apply sorted_flags|constructor; [exact W|constructor]].
  - rewrite builds_flags. unfold str. rewrite builds_value, builds_flags, (builds_one _ _ _ _ B). now destruct c, q.
Qed.

(** ** Arguments of functions and closures, current objects *)
Definition no_lifetimes (l : list stx) : bool := forallb (fun t => negb (named "arg" t) || forallb (fun s => negb (is_string "lifetime" s)) (body_of t)) l.
Definition f_args (l : list stx) : Prop := oks l = true -> Forall sorted l /\ exists ts, (forall d, builds l d = (d, ts)) /\ Forall good ts /\
  Forall (kin [K_Arg]) ts /\ Forall (fun t => starts_local (wo t) = false) ts /\ (no_lifetimes l = true -> Forall (fun t => x_lifetime (t_data (wo t)) = None) ts).
Lemma f_args_nil : f_args [].
Proof. intros _. split; [constructor|]. exists []. repeat split; constructor. Qed.
Lemma quiet_local : forall ks ts, Forall good ts -> Forall (kin ks) ts -> ~ In K_Assign ks -> forall d, starts_local (NT d (map wo ts)) = false.
Proof.
  intros ks ts G K N d. unfold starts_local. cbn [t_children]. destruct ts as [|t ts]; [reflexivity|]. inversion_clear G. inversion_clear K. cbn [map].
  destruct (gd_op _ _ H) as [E|E]; [now rewrite E|]. contradict N. unfold kin, kind_of in H1. now rewrite <- E.
Qed.
Lemma f_args_cons : forall m x lt T t l0 l, type_piece "type" T t -> (oks l0 = true -> all_nodes l0 [K_Grab]) -> f_args l ->
  f_args (SNode "arg" (flags "mut" m ++ str "name" x :: strs "lifetime" lt ++ T ++ l0) :: l).
Proof.
  intros m x lt T t l0 l TP LZ A O. apply oks_cons in O. destruct O as [O1 O2]. apply ok_node in O1. destruct O1 as [_ O1].
  rewrite oks_flags in O1. apply oks_cons in O1. destruct O1 as [_ O1]. rewrite oks_strs in O1. apply oks_app in O1.
  destruct (LZ (proj2 O1)) as (W0 & ts0 & B0 & G0 & K0). destruct (A O2) as (W & ts & B & G & K & S_ & N).
  destruct (type_pieces "type" K_Type T t eq_refl eq_refl TP) as [WT BT].
  assert (W' : sorted (SNode "arg" (flags "mut" m ++ str "name" x :: strs "lifetime" lt ++ T ++ l0))).
  { apply sorted_node. split; [exists K_Arg; repeat split|]. apply Forall_app. split; [apply sorted_flags|]. constructor; [exact Logic.I|].
    apply Forall_app. split; [apply sorted_strs|]. apply Forall_app. split; assumption. }
  set (d := let d := with_names [x] (with_mut m (blank K_Arg None)) in
            let d := match lt with Some v => with_lifetime v d | None => d end in match t with Some t => with_ty t d | None => d end).
  assert (BA : forall e, build (SNode "arg" (flags "mut" m ++ str "name" x :: strs "lifetime" lt ++ T ++ l0)) e = (e, [NT d ts0])).
  { intros e. rewrite build_node. change (kind_new "arg") with (Some K_Arg). cbv iota zeta.
    rewrite builds_flags. unfold str. rewrite builds_value, builds_strs, BT, B0. unfold d. now destruct m, lt, t. }
  destruct (accepts_good L d [K_Grab] ts0 false) as [GA EA]; [unfold d; now destruct m, lt, t|discriminate|assumption|assumption|].
  split; [now constructor|]. exists (NT d ts0 :: ts). split; [|split; [|split; [|split]]].
  - intros e. now rewrite (builds_one _ _ _ _ BA), B.
  - now constructor.
  - constructor; [|exact K]. unfold kin, kind_of. rewrite EA. left. unfold d. now destruct m, lt, t.
  - constructor; [|exact S_]. rewrite EA. apply (quiet_local _ _ G0 K0). intros [X|[]]; discriminate.
  - intros H. cbn [no_lifetimes forallb] in H. apply andb_true_iff in H. destruct H as [H1 H2]. constructor; [|exact (N H2)]. rewrite EA.
    cbn [named body_of] in H1. change (negb ("arg" =? "arg")%string) with false in H1. cbn [orb] in H1. rewrite forallb_app in H1. apply andb_true_iff in H1. destruct H1 as [_ H1].
    cbn [forallb] in H1. apply andb_true_iff in H1. destruct H1 as [_ H1]. rewrite forallb_app in H1. apply andb_true_iff in H1. destruct H1 as [H1 _].
    unfold d. destruct lt; [discriminate H1|]. now destruct t.
Qed.
Lemma currents_nodes : forall l cs, currents_mean l cs -> all_nodes l [K_Current].
Proof.
  induction 1 as [|m x T t l cs TP H IH]; [apply all_none|]. apply all_cons; [|exact IH].
  destruct (type_pieces "type" K_Type T t eq_refl eq_refl TP) as [WT BT].
  set (d := let d := with_names [x] (with_mut m (blank K_Current None)) in match t with Some t => with_ty t d | None => d end).
  assert (E : x_kind d = K_Current) by (unfold d; now destruct t). rewrite <- E.
  eapply (contain L "current" K_Current _ [] d []) with (ne := false); [reflexivity|split; reflexivity| | |constructor|constructor|unfold d; now destruct m, t|discriminate].
  - apply Forall_app. split; [apply sorted_flags|]. constructor; [exact Logic.I|exact WT].
  - rewrite builds_flags. unfold str. rewrite builds_value. specialize (BT []). rewrite app_nil_r in BT. rewrite BT. unfold d. now destruct m, t.
Qed.
(** what is before the expression of a closure or the block of a function *)
Lemma head_nodes : forall args currents cs, f_args args -> currents_mean currents cs -> oks args = true ->
  Forall sorted (args ++ currents) /\ exists as_ us, (forall d, builds (args ++ currents) d = (d, as_ ++ us)) /\ Forall good (as_ ++ us) /\
  Forall (kin [K_Arg]) as_ /\ Forall (kin [K_Current]) us /\ Forall (fun t => starts_local (wo t) = false) (as_ ++ us) /\
  (no_lifetimes args = true -> Forall (fun t => x_lifetime (t_data (wo t)) = None) as_).
Proof.
  intros args currents cs A C O. destruct (A O) as (W & ts & B & G & K & S_ & N). destruct (currents_nodes _ _ C) as (WC & us & BC & GC & KC).
  split; [now apply Forall_app|]. exists ts, us. split; [intros d; now rewrite (builds_all _ _ _ _ B), BC|]. split; [now apply Forall_app|].
  do 2 (split; [assumption|]). split; [|exact N]. apply Forall_app. split; [exact S_|].
  (* current objects have no parts *)
  clear - L C BC. revert us BC. induction C as [|m x T t l cs TP H IH]; intros us BC; [specialize (BC (blank K_Fn None)); inversion BC; constructor|].
  destruct (type_pieces "type" K_Type T t eq_refl eq_refl TP) as [WT BT].
  destruct (currents_nodes _ _ H) as (_ & us' & BC' & _). specialize (BC (blank K_Fn None)) as X.
  cbn [GrammarBuild.builds] in X. rewrite build_node in X. change (kind_new "current") with (Some K_Current) in X. cbv iota zeta in X. cbn [fst snd] in X.
  rewrite builds_flags in X. unfold str in X. rewrite builds_value in X. specialize (BT []). rewrite app_nil_r in BT. rewrite BT in X. cbn [GrammarBuild.builds fst snd app] in X.
  rewrite BC' in X. cbn [fst snd] in X. inversion X. constructor; [now destruct t, m|]. apply IH. exact BC'.
Qed.
Lemma closure_node : forall args currents cs b, f_args args -> currents_mean currents cs -> body b ->
  tidy "closure" (args ++ currents ++ [SNode "expr" b]) = true -> oks (args ++ currents ++ [SNode "expr" b]) = true ->
  one_node (SNode "closure" (args ++ currents ++ [SNode "expr" b])) [K_Closure].
Proof.
  intros args currents cs b A C B T O. rewrite app_assoc, oks_app in O. destruct O as [O1 O2]. rewrite oks_app in O1. rewrite oks_cons in O2. destruct O2 as [O2 _].
  apply ok_node in O2. destruct (head_nodes _ _ _ A C (proj1 O1)) as (W & as_ & us & BH & GH & KA & KU & S_ & N).
  destruct (wrap L "expr" K_Expr b false) as (WE & t & TW); [reflexivity|simpl; tauto|now apply body_arg|apply O2|discriminate|].
  destruct TW as [BE GE KE _ _ _ _ _ _]. rewrite app_assoc.
  split. { apply sorted_node. split; [exists K_Closure; repeat split|]. apply Forall_app. split; [exact W|constructor; [exact WE|constructor]]. }
  exists (NT (blank K_Closure None) ((as_ ++ us) ++ [t])). 
  assert (KE' : kin [K_Expr; K_ReturnVoid] t) by (unfold kin; rewrite KE; destruct (voids b); simpl; auto).
  assert (KK : Forall (kin [K_Arg; K_Current; K_Expr; K_ReturnVoid]) ((as_ ++ us) ++ [t])).
  { apply Forall_app. split; [apply Forall_app; split|constructor; [|constructor]].
    - eapply kin_more; [exact KA|]. intros k [<-|[]]. simpl. auto.
    - eapply kin_more; [exact KU|]. intros k [<-|[]]. simpl. auto.
    - destruct KE' as [E|[E|[]]]; unfold kin; rewrite <- E; simpl; auto. }
  assert (H : good (NT (blank K_Closure None) ((as_ ++ us) ++ [t])) /\
              wo (NT (blank K_Closure None) ((as_ ++ us) ++ [t])) = NT (blank K_Closure None) (map wo ((as_ ++ us) ++ [t]))).
  { apply node_good; [reflexivity|now left|apply Forall_app; split; [exact GH|constructor; [exact GE|constructor]]| |].
    - unfold written. cbn [t_data t_children]. rewrite (none_kind _ K_Fn _ KK), (none_kind _ K_Item _ KK) by reflexivity.
      rewrite map_app. cbn [map]. rewrite removelast_last. cbn. rewrite !andb_true_r. apply forallb_forall. intros c I. apply in_map_iff in I. destruct I as (u & <- & I).
      rewrite (proj1 (Forall_forall _ _) S_ _ I). reflexivity.
    - intros l. unfold lively. cbn [t_data t_children]. rewrite (none_kind _ K_CallArg _ KK), (none_of _ odd_kinds _ KK) by reflexivity. rewrite !orb_true_r, !andb_true_r. unfold of_ at 1. cbn [blank x_op x_kind t_kind t_data orb]. rewrite ?andb_true_r.
      unfold GrammarFits.tidy in T. apply andb_true_iff in T. destruct T as [_ T]. rewrite l in T. cbn [negb orb] in T. change (no_lifetimes (args ++ currents ++ [SNode "expr" b]) = true) in T.
      unfold no_lifetimes in T. rewrite forallb_app in T. apply andb_true_iff in T. destruct T as [T _]. specialize (N T).
      apply forallb_forall. intros c I. apply in_map_iff in I. destruct I as (u & <- & I). apply in_app_or in I. destruct I as [I|[<-|[]]]; [apply in_app_or in I; destruct I as [I|I]|].
      + now rewrite (proj1 (Forall_forall _ _) N _ I), orb_true_r.
      + apply (proj1 (Forall_forall _ _) KU) in I. destruct I as [E|[]]. unfold of_. unfold kind_of in E. now rewrite <- E.
      + destruct KE' as [E|[E|[]]]; unfold of_; unfold kind_of in E; now rewrite <- E. }
  destruct H as [H E]. split; [|split; [exact H|unfold kin, kind_of; rewrite E; now left]].
  intros d. rewrite build_node. change (kind_new "closure") with (Some K_Closure). cbv iota zeta. rewrite (builds_all _ _ _ _ BH), (builds_one _ _ _ _ BE). reflexivity.
Qed.
End Cases.
