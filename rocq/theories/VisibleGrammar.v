(** * Every text that follows the grammar: what the checkers see in its trees is visible. *)
From Coq Require Import String List Bool Arith ZArith Lia.
From Verif Require Import PrintModel ColorModel Float64 TypeModel LifetimeModel NodesModel FoldModel TransformModel NodesSpec LivesSpec Syntax AstModel AstSpec AstProofs AstFile GrammarSpec GrammarBuild GrammarFits GrammarCases GrammarAll VisibleSpec VisibleTree NodesLayout VisibleText VisibleCases VisibleParts VisibleAll VisibleLoops.
Import ListNotations.
Local Open Scope string_scope.
Local Open Scope nat_scope.
Local Open Scope list_scope.

Section Visible_.
Context (callable : string -> nat -> Prop) (in_of : option string -> string -> callee) (alloc : Z -> bool).
Notation tidy := (tidy true).
Notation oks := (forallb (nodes_all tidy)).
Notation regs := (forallb (nodes_all regular)).
Notation body := (body true).
Notation a_body := (a_body true).
Notation tok := (tok callable).
Notation threaded := (threaded callable).
Notation visible := (visible callable).
Notation visible_item := (visible_item callable).
Notation visible_idx := (visible_idx callable).
Notation means := (means callable).
Notation a_means := (a_means callable).
Notation fits := (fits callable).
Notation part := (part callable).
Notation stmt := (stmt callable).
Notation V_expr := (V_expr callable).
Notation V_all := (V_all callable).
Notation V_item := (V_item callable).
Notation V_ids := (V_ids callable).
Notation V_args := (V_args callable).
Notation V_arg := (V_arg callable).



Notation V_call := (V_call callable).
Notation V_operand := (V_operand callable).
Notation V_operands := (V_operands callable).
Notation V_rest := (V_rest callable).
Notation V_indices := (V_indices callable).
Notation V_pairs := (V_pairs callable).
Notation V_parts := (V_parts callable).
Notation V_elses := (V_elses callable).
Notation V_else := (V_else callable).

Lemma good_body : forall b e, expr_body in_of alloc b e -> body b.
Proof. apply (grammar_good true in_of alloc). Qed.
Lemma good_arg : forall b m e, arg_body in_of alloc b m e -> a_body b m.
Proof. apply (grammar_good true in_of alloc). Qed.
Lemma good_item : forall it i, item_means in_of alloc it i -> is_a "item" it.
Proof. intros it i H. destruct (grammar_good true in_of alloc) as (_ & _ & _ & _ & _ & _ & _ & _ & G & _). exact (proj1 (G it i H)). Qed.
Lemma good_call : forall c f es, call_means in_of alloc c f es -> exists n k b, c = SNode n b /\ (n = "call" \/ n = "named_call") /\ kind_new n = Some k.
Proof. intros c f es []; [exists "call"|exists "named_call"]; eexists; eexists; (split; [reflexivity|]); split; auto; reflexivity. Qed.
Lemma good_ids : forall k l ids tr, ids_mean in_of alloc k l ids tr -> oks l = true -> all_nodes true l [K_Id; K_ReturnVoid].
Proof. apply (grammar_good true in_of alloc). Qed.
Lemma good_elses : forall l cs bs, elses_mean in_of alloc l cs bs -> oks l = true -> exists ks, all_nodes true l ks.
Proof. intros l cs bs H O. eexists. destruct (grammar_good true in_of alloc) as (_ & _ & _ & _ & _ & _ & _ & _ & _ & _ & _ & _ & _ & _ & G & _). exact (G _ _ _ H O). Qed.
Lemma good_else : forall l eb, else_mean in_of alloc l eb -> oks l = true -> exists ks, all_nodes true l ks.
Proof. intros l eb H O. eexists. destruct (grammar_good true in_of alloc) as (_ & _ & _ & _ & _ & _ & _ & _ & _ & _ & _ & _ & _ & _ & _ & G & _). exact (G _ _ H O). Qed.
Lemma good_lazy : forall l zs, lazy_mean in_of alloc l zs -> oks l = true -> all_nodes true l [K_Grab].
Proof. apply (grammar_good true in_of alloc). Qed.
Lemma good_pairs : forall l kvs, pairs_mean in_of alloc l kvs -> oks l = true -> all_nodes true l [K_KeyValue].
Proof. apply (grammar_good true in_of alloc). Qed.
Lemma parts_nodes : forall ns l es, parts_mean in_of alloc ns l es -> forallb is_node l = true.
Proof. induction 1; auto. Qed.

Lemma try_v : forall b e, V_expr b e -> V_expr (b ++ [flag "try"]) (ETry e).
Proof.
  intros b e H O R. apply oks_app in O. apply regs_app in R. destruct (H (proj1 O) (proj1 R)) as [[A1 A2 A3 A4] F D I].
  assert (EF : forest (b ++ [flag "try"]) = forest b) by (rewrite forest_app; unfold flag; rewrite forest_value; apply app_nil_r).
  assert (EV : view (b ++ [flag "try"]) = view b) by (unfold view; now rewrite EF).
  split; [split|..]; rewrite ?EF, ?EV; auto.
  - intros X. apply A3. unfold introd in *. rewrite existsb_app in X. now apply orb_false_iff in X.
  - intros X. exfalso. rewrite existsb_app in X. apply orb_false_iff in X. destruct X as [_ X]. discriminate X.
  - intros c X. exfalso. destruct b as [|? [|? b]]; discriminate X.
Qed.
Lemma array_v : forall l es, all_mean in_of alloc "array_item" l es -> V_all "array_item" l es -> V_expr [SNode "array" l] (EArray es).
Proof.
  intros l es M A O R. apply oks_cons in O. apply regs_cons in R. destruct O as [O _], R as [R _]. apply reg_parts in R; [|reflexivity|discriminate]. destruct R as [R NI]. apply ok_node in O. destruct O as [_ O].
  eapply plain_parts with (k := K_Array); eauto; try discriminate; try reflexivity.
  - apply nodes_data. eapply all_nodes_; eauto.
  - eapply va_parts; eauto; [reflexivity|simpl; tauto].
Qed.
Lemma link_v : forall l es, all_mean in_of alloc "link_item" l es -> V_all "link_item" l es -> V_expr [SNode "link" l] (ELink es).
Proof.
  intros l es M A O R. apply oks_cons in O. apply regs_cons in R. destruct O as [O _], R as [R _]. apply reg_node in R. apply ok_node in O. destruct O as [_ O], R as [R0 R].
  destruct (plain_seen callable K_Link l eq_refl) as (_ & OP & T); [apply nodes_data; eapply all_nodes_; eauto|].
  eapply node_means with (k := K_Link); eauto; try discriminate. intros V H. apply T in H. cbn [VisibleSpec.visible]. eapply stmts_seen; [eapply va_stmts; eauto; [reflexivity|simpl; tauto|]|apply incl_refl|exact H].
  unfold regular in R0. change (existsb (String.eqb "link") statements) with true in R0. cbv iota in R0. rewrite !andb_true_iff in R0. tauto.
Qed.
Lemma block_expr_v : forall l es, all_mean in_of alloc "expr" l es -> V_all "expr" l es -> V_expr [SNode "block" l] (EBlock es).
Proof.
  intros l es M A O R. apply oks_cons in O. apply regs_cons in R. destruct O as [O _], R as [R _]. destruct (block_part callable in_of alloc "block" K_Block l es) as (_ & OP & T); auto; try (simpl; tauto).
  eapply node_means with (k := K_Block); eauto; discriminate.
Qed.
Lemma loop_v : forall label l es, all_mean in_of alloc "expr" l es -> V_all "expr" l es ->
  V_expr [SNode "loop" (strs "label" label ++ [SNode "block" l])] (EFor label (EBlock []) (EVar (vbool true)) (EBlock []) es).
Proof.
  intros label l es M A O R. apply oks_cons in O. apply regs_cons in R. destruct O as [O _], R as [R _]. apply ok_node in O. apply reg_node in R. destruct O as [_ O], R as [_ R].
  rewrite oks_strs in O. apply regs_app in R. apply oks_cons in O. destruct R as [_ R]. apply regs_cons in R. destruct O as [O _], R as [R _].
  destruct (block_part callable in_of alloc "block" K_Block l es) as (_ & _ & BV); auto; try (simpl; tauto).
  destruct (plain_seen callable K_Loop (strs "label" label ++ [SNode "block" l]) eq_refl) as (_ & OP & T); [rewrite label_data; now apply nodes_data|].
  eapply node_means with (k := K_Loop); eauto; try discriminate. intros V H. apply T in H. rewrite view_strs, (view_node "block" K_Block) in H by reflexivity. destruct H as [H _].
  cbn [VisibleSpec.visible declared_by app in_turn]. split; [exact Logic.I|]. split; [exact Logic.I|]. split; [exact Logic.I|]. now apply BV.
Qed.
(** nodes around a value *)
Lemma fill_v : forall b c e n, body b -> V_expr b e -> body c -> V_expr c n -> V_expr [SNode "array_fill" [SNode "fill" b; SNode "n" c]] (EArrayFill e n).
Proof.
  intros b c e n B HB C HC O R. apply oks_cons in O. apply regs_cons in R. destruct O as [O _], R as [R _]. apply reg_parts in R; [|reflexivity|discriminate]. destruct R as [R NI]. apply ok_node in O. destruct O as [_ O].
  rewrite !oks_cons in O. rewrite !regs_cons in R. rewrite !no_intro_cons in NI. destruct O as (O1 & O2 & _), R as (R1 & R2 & _), NI as (N1 & N2 & _).
  destruct (wrap_part callable "fill" K_Fill b e) as (_ & _ & P1 & _); auto; [simpl; tauto|]. destruct (wrap_part callable "n" K_N c n) as (_ & _ & P2 & _); auto; [simpl; tauto|].
  eapply plain_parts with (k := K_ArrayFill) (es := [e; n]); try discriminate; try reflexivity.
  - rewrite (view_node "fill" K_Fill), (view_node "n" K_N) by reflexivity. constructor; [now apply P1|]. constructor; [now apply P2|constructor].
  - intros V (X1 & X2 & _). split; assumption.
Qed.
Lemma try_expr_v : forall b e, body b -> V_expr b e -> V_expr [SNode "try_expr" [SNode "expr" b]] (ETryExpr e).
Proof.
  intros b e B HB O R. apply oks_cons in O. apply regs_cons in R. destruct O as [O _], R as [R _]. apply reg_parts in R; [|reflexivity|discriminate]. destruct R as [R NI]. apply ok_node in O. destruct O as [_ O].
  rewrite !oks_cons in O. rewrite !regs_cons in R. rewrite !no_intro_cons in NI. destruct O as (O1 & _), R as (R1 & _), NI as (N1 & _).
  destruct (wrap_part callable "expr" K_Expr b e) as (_ & _ & P1 & _); auto; [simpl; tauto|].
  eapply plain_parts with (k := K_TryExpr) (es := [e]); try discriminate; try reflexivity.
  - rewrite (view_node "expr" K_Expr) by reflexivity. constructor; [now apply P1|constructor].
  - intros V (X1 & _). exact X1.
Qed.
Lemma return_v : forall b e, body b -> V_expr b e -> V_expr [SNode "return" b] (EReturn e).
Proof.
  intros b e B HB O R. apply oks_cons in O. apply regs_cons in R. destruct O as [O _], R as [R _].
  destruct (wrap_part callable "return" K_Return b e) as (P1 & P2 & _); auto; [simpl; tauto|]. eapply node_means with (k := K_Return); eauto; discriminate.
Qed.
Lemma object_v : forall l kvs, pairs_mean in_of alloc l kvs -> V_pairs l kvs -> V_expr [SNode "object" l] (EObject kvs).
Proof.
  intros l kvs M P O R. apply oks_cons in O. apply regs_cons in R. destruct O as [O _], R as [R _]. apply reg_node in R. apply ok_node in O. destruct O as [_ O], R as [_ R].
  eapply plain_parts with (k := K_Object); try discriminate; try reflexivity.
  - eapply all_data, good_pairs; eauto.
  - apply P; auto.
  - intros V. apply object_visible.
Qed.
Lemma vector_v : forall n k ns l x es ds e, kind_new n = Some k -> n <> "swizzle" -> n <> "item" -> n <> "for" -> existsb (String.eqb n) statements = false -> plain_node k = true -> incl ns part_names ->
  parts_mean in_of alloc ns l (Some x :: es) -> V_parts ns l (Some x :: es) -> (forall V, all_in visible V ds) -> is_swizzle e = false ->
  (forall V, all_in visible V (fill_up (Some x :: es) ds) -> visible V e) -> V_expr [SNode n l] e.
Proof.
  intros n k ns l x es ds e K N1 N2 N3 NS PN I M P D F H O R. apply oks_cons in O. apply regs_cons in R. destruct O as [O _], R as [R _]. apply reg_parts in R; auto. destruct R as [R NI]. apply ok_node in O. destruct O as [_ O].
  eapply plain_parts with (k := k); eauto.
  - apply nodes_data. eapply parts_nodes; eauto.
  - intros V X. apply H, fill_visible; auto.
Qed.
Lemma grab_v : forall level b e e', expr_body in_of alloc b e -> is_swizzle e' = false -> (forall V, visible V e') -> V_expr [SNode "grab" (level_pieces level ++ [SNode "expr" b])] e'.
Proof.
  intros level b e e' B F H O R. apply oks_cons in O. destruct O as [O _]. apply ok_node in O. destruct O as [T O].
  eapply node_means with (k := K_Grab); eauto; try discriminate; [|intros V _; apply H].
  eapply opless_good; [apply grab_node; [eapply good_body; eauto|exact T|exact O]|reflexivity|]. intros [X|[]]. discriminate X.
Qed.
Lemma in_v : forall a x c, V_expr [SNode "in" (strs "alias" a ++ [str "name" x])] (EIn c).
Proof.
  intros a x c _ _. eapply node_means with (k := K_In); try discriminate; [reflexivity|reflexivity| |intros V _; exact Logic.I].
  unfold opless. rewrite seen_op. unfold node, dat. rewrite builds_strs. now destruct a.
Qed.
Lemma leaf_v : forall n k label e, kind_new n = Some k -> In k [K_Break; K_Continue] -> is_swizzle e = false -> (forall V, visible V e) -> n <> "swizzle" -> n <> "item" -> V_expr [SNode n (strs "label" label)] e.
Proof.
  intros n k label e K I F H N1 N2 _ _. eapply node_means; eauto; [|intros V _; apply H]. unfold opless. rewrite seen_op. unfold node, dat.
  destruct label; simpl in I; destruct I as [<-|[<-|[]]]; reflexivity.
Qed.
Lemma operators_means_v : forall name l e es r, In name ["add"; "mul"; "compare"] -> V_operands l e es -> applied e es r -> V_expr [SNode name l] r.
Proof.
  intros name l e es r I H A O R. apply oks_cons in O. apply regs_cons in R. destruct O as [O _], R as [R _]. apply ok_node in O. apply reg_node in R.
  assert (X : exists k, kind_new name = Some k /\ In k [K_Add; K_Mul; K_Compare; K_Pow] /\ name <> "swizzle" /\ name <> "item").
  { simpl in I. destruct I as [<-|[<-|[<-|[]]]]; eexists; (split; [reflexivity|]); (split; [simpl; tauto|]); split; discriminate. }
  destruct X as (k & K & IK & N1 & N2). eapply oper_means; eauto. eapply operators_v; eauto; [apply O|apply R].
Qed.
Lemma no_void : forall n b, n = "not" \/ n = "norm" \/ n = "neg" -> nodes_all tidy (SNode n [SNode "expr" b]) = true -> nodes_all tidy (SNode "expr" b) = true /\ voids b = false.
Proof.
  intros n b I O. apply ok_node in O. destruct O as [T O]. apply oks_cons in O. split; [apply O|]. unfold GrammarFits.tidy in T. apply andb_true_iff in T. destruct T as [T _].
  assert (X : forallb (fun t => negb (is_void t)) [SNode "expr" b] = true) by (destruct I as [-> |[-> | ->]]; exact T). cbn [forallb] in X. rewrite andb_true_r in X. apply negb_true_iff in X. exact X.
Qed.
Lemma unary_means_v : forall n k name b e, n = "not" \/ n = "norm" \/ n = "neg" -> kind_new n = Some k -> unop_name k = Some name -> body b -> V_expr b e ->
  nodes_all tidy (SNode n [SNode "expr" b]) = true -> nodes_all regular (SNode n [SNode "expr" b]) = true -> oper callable (wo (node k [SNode "expr" b])) (apply name [e]).
Proof.
  intros n k name b e I K U B H O R. destruct (no_void _ _ I O) as [O' NV]. apply reg_node in R. destruct R as [_ R]. apply regs_cons in R. eapply unary_v; eauto. apply R.
Qed.
Lemma go_v : forall c f es, call_means in_of alloc c f es -> V_call c f es -> V_expr [SNode "go" [c]] (EGo f es).
Proof.
  intros c f es M H O R. destruct (good_call _ _ _ M) as (n & k & b & -> & _ & K). apply oks_cons in O. apply regs_cons in R. destruct O as [O _], R as [R _]. apply ok_node in O. apply reg_node in R. destruct O as [_ O], R as [_ R].
  apply oks_cons in O. apply regs_cons in R. destruct (H (proj1 O) (proj1 R)) as (t & F & OP & T).
  destruct (plain_seen callable K_Go [SNode n b] eq_refl) as (_ & OP' & T'); [now apply nodes_data|]. eapply node_means with (k := K_Go); eauto; try discriminate.
  intros V X. apply T' in X. unfold view in X. rewrite F in X. destruct X as [X _]. now apply T.
Qed.

Theorem grammar_visible :
  (forall b e, expr_body in_of alloc b e -> V_expr b e) /\
  (forall n l es, all_mean in_of alloc n l es -> V_all n l es) /\
  (forall l kvs, pairs_mean in_of alloc l kvs -> V_pairs l kvs) /\
  (forall b m e, arg_body in_of alloc b m e -> V_arg b e) /\
  (forall l ms es, arguments_mean in_of alloc l ms es -> V_args l ms es) /\
  (forall l ws ms es, named_mean in_of alloc l ws ms es -> V_args l ms es) /\
  (forall ns l es, parts_mean in_of alloc ns l es -> V_parts ns l es) /\
  (forall c f es, call_means in_of alloc c f es -> V_call c f es) /\
  (forall it i, item_means in_of alloc it i -> V_item it i) /\
  (forall (k : nat) l ids (tries : list nat), ids_mean in_of alloc k l ids tries -> V_ids l ids) /\
  (forall t e, operand_means in_of alloc t e -> V_operand t e) /\
  (forall l e es, operands_mean in_of alloc l e es -> V_operands l e es) /\
  (forall l es, rest_mean in_of alloc l es -> V_rest l es) /\
  (forall l is_, indices_mean in_of alloc l is_ -> V_indices l is_) /\
  (forall l cs bs, elses_mean in_of alloc l cs bs -> V_elses l cs bs) /\
  (forall l eb, else_mean in_of alloc l eb -> V_else l eb) /\
  (forall l xs (lz : list (list lazy)), args_mean in_of alloc l xs lz -> V_params l (map r_name xs)) /\
  (forall (l : list stx) (zs : list lazy), lazy_mean in_of alloc l zs -> True).
Proof.
  apply grammar_ind.
  - intros b e _ H. now apply try_v.
  - intros a x. apply in_v.
  - intros args currents b xs lz cs e _ HA C M B. eapply closure_v; eauto using good_body.
  - intros l kvs M H. now apply object_v.
  - intros l es M H. now apply array_v.
  - intros b c e n M B M' C. apply fill_v; eauto using good_body.
  - intros l es M H. now apply link_v.
  - intros l es M H. now apply block_expr_v.
  - intros label b c d l i t s es M1 B M2 C M3 D M4 H. eapply for_v; eauto using good_body.
  - intros label l es M H. now apply loop_v.
  - intros name k label l is_ b es e I M H M' B LO _. eapply index_v; eauto.
  - intros name k label x b l it es I M B M' H _. eapply receive_v; eauto using good_body.
  - intros b l r r' c t cs bs eb M1 B M2 H M3 HR M4 HE. eapply if_v; eauto using good_body, good_elses, good_else.
  - intros label. eapply leaf_v with (k := K_Break); try reflexivity; try discriminate; simpl; tauto.
  - intros label. eapply leaf_v with (k := K_Continue); try reflexivity; try discriminate; simpl; tauto.
  - intros b o op c l r I M B M' C. eapply assign_v; eauto using good_body.
  - intros b e M B. apply return_v; eauto using good_body.
  - intros _ _. apply value_means; [reflexivity|]. intros V. exact Logic.I.
  - intros name l e es r I M H A. eapply operators_means_v; eauto.
  - intros b e M B O R. apply oks_cons in O. apply regs_cons in R. eapply oper_means with (k := K_Not); try discriminate; [reflexivity|]. eapply (unary_means_v "not"); eauto using good_body; try reflexivity; tauto.
  - intros b e M B O R. apply oks_cons in O. apply regs_cons in R. eapply oper_means with (k := K_Norm); try discriminate; [reflexivity|]. eapply (unary_means_v "norm"); eauto using good_body; try reflexivity; tauto.
  - intros l x es M H. eapply vector_v with (k := K_Vec4) (ds := [zero_; zero_; zero_; zero_]); eauto; try discriminate; try reflexivity; [intros y Y; simpl in *; tauto|]. intros V. cbn. tauto.
  - intros l x es M H. eapply vector_v with (k := K_Mat4) (ds := [unit_row 0; unit_row 1; unit_row 2; unit_row 3]); eauto; try discriminate; try reflexivity; [intros y Y; simpl in *; tauto|]. intros V. cbn. tauto.
  - intros len n x b e I _ B _ R. exfalso. apply regs_cons in R. destruct R as [R _]. apply reg_node in R. destruct R as [R _]. unfold regular in R. rewrite !andb_true_iff in R. destruct R as [_ R]. discriminate R.
  - intros level b e v M B _. eapply grab_v; eauto. intros V. exact Logic.I.
  - intros level b e M B _. eapply grab_v; eauto. intros V. exact Logic.I.
  - intros b e M B. apply try_expr_v; eauto using good_body.
  - intros x _ _. apply value_means; [reflexivity|]. intros V. exact Logic.I.
  - intros x _ _. apply value_means; [reflexivity|]. intros V. exact Logic.I.
  - intros v _ _. apply value_means; [reflexivity|]. intros V. exact Logic.I.
  - intros x c _ _ _. apply value_means; [reflexivity|]. intros V. exact Logic.I.
  - intros it i M H O R. apply oks_cons in O. apply regs_cons in R. destruct (good_item _ _ M) as [c ->]. apply item_means_v. apply H; tauto.
  - intros c f args M H. destruct (good_call _ _ _ M) as (n & k & b & -> & N & K). eapply call_means_v; eauto.
  - intros c f args M H. now apply go_v.
  - intros it i l ms es M H M' A. eapply plain_closure_v; eauto using good_item.
  - intros it i l ws ms es M H M' A N _. eapply named_closure_v; eauto using good_item.
  - intros n. apply all_v_nil.
  - intros n b e l es M B _ H. apply all_v_cons; eauto using good_body.
  - intros _ _. constructor.
  - intros k b e l kvs M B _ H. apply pairs_v_cons; eauto using good_body.
  - intros it i M H O R. apply oks_cons in O. apply regs_cons in R. destruct O as [_ O], R as [_ R]. apply oks_cons in O. apply regs_cons in R. apply (item_a_means callable [flag "mut"]); [unfold flag; apply forest_value|reflexivity|]. apply H; tauto.
  - intros l inds b e S_ M B. eapply swizzle_v; eauto using good_body.
  - intros b e _ B O R. exact (mn_arg _ _ _ (B O R)).
  - apply args_v_nil.
  - intros b m e l ms es M A _ H. apply args_v_cons; eauto using good_arg.
  - apply args_v_nil.
  - intros w b m e l ws ms es M A _ H. apply args_v_word; eauto using good_arg.
  - intros _ _ _ _. constructor.
  - intros n b m e ns l es M A _ H. eapply parts_v_cons; eauto using good_arg.
  - intros n ns l es _ H I. apply H. intros y Y. apply I. now right.
  - intros a x l ms es M H. eapply plain_call_v; eauto.
  - intros a x l ws ms es _ M H. eapply named_call_v; eauto.
  - intros c x q. apply plain_item.
  - intros c x q l ids tries N M H. apply extra_item; eauto using good_ids.
  - intros k. split; intros; try constructor; auto.
  - intros k x q l ids tries _ H. apply ids_v_skip; [intros V; exact Logic.I|exact H].
  - intros k x q l ids tries _ H. apply ids_v_skip; [intros V; exact Logic.I|exact H].
  - intros k b e q l ids tries M B _ H. apply ids_v_expr; eauto using good_body.
  - intros b e M B O R. exists (node K_Neg [SNode "expr" b]). split; [now rewrite (forest_node "neg" K_Neg)|]. eapply (unary_means_v "neg"); eauto using good_body; try reflexivity; tauto.
  - intros l e es r M H A O R. exists (node K_Pow l). split; [now rewrite (forest_node "pow" K_Pow)|]. apply ok_node in O. apply reg_node in R. eapply operators_v; eauto; [simpl; tauto|apply O|apply R].
  - intros b e M B O R. exists (node K_Expr b). split; [now rewrite (forest_node "expr" K_Expr)|]. destruct (wrap_part callable "expr" K_Expr b e) as (P1 & P2 & _); auto; [simpl; tauto|eapply good_body; eauto|].
    apply ok_node in O. apply reg_node in R. destruct (wrapper_node K_Expr b false) as (d & _ & _ & _ & _ & _ & _ & K & _ & W); [simpl; tauto|apply body_arg; eapply good_body; eauto|apply O|].
    split; [exact P2| |exact (mn_flat _ _ _ (B (proj2 O) (proj2 R)))|exact P1]. rewrite W. unfold of_, t_kind, t_data. rewrite K. now destruct (voids b).
  - intros t e l es M H _ H'. eapply operands_v; eauto.
  - apply rest_v_nil.
  - intros s o t e l es I M H _ H'. eapply rest_v_cons; eauto.
  - apply indices_v_nil.
  - intros x b c s e l is_ M B M' C _ H. apply (indices_v callable x b c s e l is_ true); eauto using good_body.
  - intros x c e l is_ M' C _ H. apply (indices_v callable x c c e e l is_ false); eauto using good_body.
  - intros x l is_ _ H. now apply indices_v_open.
  - intros _ _ _. split; [constructor|]. intros V _. split; exact Logic.I.
  - intros b c l es r cs bs M B M' H _ H'. eapply elses_v_cons; eauto using good_body.
  - intros _ _. split; [constructor|]. intros V _. exact Logic.I.
  - intros l es M H. eapply else_v_some; eauto.
  - apply params_v_nil.
  - intros m x lt T t l0 lz l xs lzs TP M _ _ H. cbn [map r_name]. eapply params_v_cons; eauto using good_lazy.
  - exact Logic.I.
  - intros. exact Logic.I.
  - intros. exact Logic.I.
  - intros. exact Logic.I.
  - intros. exact Logic.I.
Qed.
End Visible_.
