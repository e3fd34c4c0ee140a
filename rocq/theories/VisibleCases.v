(** * The cases of the grammar: what the checkers see in their trees is visible. *)
From Coq Require Import String List Bool Arith ZArith Lia.
From Verif Require Import PrintModel ColorModel Float64 TypeModel LifetimeModel NodesModel FoldModel TransformModel NodesSpec LivesSpec Syntax AstModel AstSpec AstProofs AstFile GrammarSpec GrammarBuild GrammarFits GrammarCases GrammarAll VisibleSpec VisibleTree NodesLayout VisibleText.
Import ListNotations.
Local Open Scope string_scope.
Local Open Scope nat_scope.
Local Open Scope list_scope.

Section Cases.
Context (callable : string -> nat -> Prop) (in_of : option string -> string -> callee) (alloc : Z -> bool).
Notation tidy := (tidy true).
Notation oks := (forallb (nodes_all tidy)).
Notation regs := (forallb (nodes_all regular)).
Notation body := (body true).
Notation a_body := (a_body true).
Notation tok := (tok callable).
Notation threaded := (threaded callable).
Notation visible := (visible callable).
Notation visible_item := (visible_item callable).
Notation visible_idx := (visible_idx callable).

Lemma regs_app : forall a b, regs (a ++ b) = true <-> regs a = true /\ regs b = true.
Proof. intros. rewrite forallb_app. apply andb_true_iff. Qed.
Lemma regs_cons : forall t b, regs (t :: b) = true <-> nodes_all regular t = true /\ regs b = true.
Proof. intros. cbn [forallb]. apply andb_true_iff. Qed.
Lemma reg_node : forall n b, nodes_all regular (SNode n b) = true <-> regular n b = true /\ regs b = true.
Proof. intros. cbn [nodes_all]. apply andb_true_iff. Qed.

(** ** Bodies *)
Definition introd (b : list stx) : bool := existsb is_intro b.
Definition is_swizzle (e : expr) : bool := match e with ESwizzle _ _ => true | _ => false end.
Record a_means (b : list stx) (e : expr) : Prop := {
  am_one : length (forest b) <= 1;
  am_flat : existsb (named "swizzle") b = false -> is_swizzle e = false;
  am_quiet : introd b = false -> declares_t (view b) = [];
  am_vis : forall V, Forall (tok false false V) (view b) -> visible V e }.
(** the tree of a variable *)
Record an_item (it : stx) (d : data) (ts : list ntree) (x : string) (ids : list idx) : Prop := {
  ai_forest : forest [it] = [NT d ts];
  ai_kind : x_kind d = K_Item;
  ai_names : x_names d = [x];
  ai_op : x_op d = None;
  ai_simple : simple d = true;
  ai_none : ts = [] <-> ids = [];
  ai_ids : forall V, threaded V (map seen ts) -> Forall (visible_idx V) ids;
  ai_opless : Forall (fun t => is_local (x_op (t_data t)) = false) (map seen ts) }.
Definition item_ok (it : stx) (i : item) : Prop := exists d ts x c q ids tr, i = Item x None c q ids tr /\ an_item it d ts x ids.
Record means (b : list stx) (e : expr) : Prop := {
  mn_arg : a_means b e;
  mn_flat : is_swizzle e = false;
  mn_decl : existsb (is_flag "try") b = false -> incl (declares_t (view b)) (declared_by e);
  mn_item : forall c, b = [SNode "item" c] -> exists i, e = EItem i /\ item_ok (SNode "item" c) i }.

(** ** Nodes around bodies *)
Lemma wrapper_facts : forall k v m t tr, In k wrappers -> let d := after (blank k (start_ty k)) v m t tr in
  simple d = true /\ container (x_kind d) = true /\ is_local (x_op d) = false /\ over d = [] /\ steady (x_kind d) = true.
Proof. intros k v m t tr H. simpl in H. repeat (destruct H as [<-|H]; [destruct v; repeat split; reflexivity|]). destruct H. Qed.
Lemma wrapper_node : forall k b m, In k wrappers -> a_body b m -> oks b = true -> exists d, dat k b = d /\ seen (node k b) = NT d (view b) /\
  simple d = true /\ container (x_kind d) = true /\ x_op d = None /\ over d = [] /\ x_kind d = (if voids b then K_ReturnVoid else k) /\ x_mut d = m /\
  wo (node k b) = NT d (map wo (forest b)).
Proof.
  intros k b m K B O. destruct (B O) as (_ & _ & X). destruct (X (blank k (start_ty k))) as (t & tr & ts & Y & _).
  exists (after (blank k (start_ty k)) (voids b) m t tr). assert (D : dat k b = after (blank k (start_ty k)) (voids b) m t tr) by (unfold dat; now rewrite Y).
  destruct (wrapper_facts k (voids b) m t tr K) as (A1 & A2 & A3 & A4 & A5). split; [exact D|]. unfold node. rewrite D.
  split; [now rewrite (seen_node _ _ A1 A5)|]. do 2 (split; [assumption|]). split; [reflexivity|]. split; [assumption|]. split; [reflexivity|].
  split; [now destruct m|]. now apply simple_wo.
Qed.
Lemma one_threaded : forall ts V, length ts <= 1 -> threaded V ts -> Forall (tok false false V) ts.
Proof. intros [|t [|? ?]] V L H; [constructor|constructor; [apply H|constructor]|cbn in L; lia]. Qed.
Lemma wrapper_tok : forall k b m V, In k wrappers -> a_body b m -> oks b = true -> length (forest b) <= 1 ->
  tok false false V (seen (node k b)) -> Forall (tok false false V) (view b).
Proof.
  intros k b m V K B O L H. destruct (wrapper_node k b m K B O) as (d & D & E & S_ & C & OP & OV & _).
  unfold node in H. rewrite D in H. apply container_tok in H; [|exact S_|exact C|now rewrite OP]. rewrite OV in H. apply one_threaded in H; [exact H|]. now rewrite map_length.
Qed.
Lemma wrapper_kids : forall k b m, In k wrappers -> a_body b m -> oks b = true -> t_children (seen (node k b)) = view b.
Proof. intros k b m K B O. destruct (wrapper_node k b m K B O) as (d & _ & E & _). now rewrite E. Qed.

(** ** Parts *)
Definition fits (t : ntree) (e : expr) : Prop := forall V, tok false false V t -> visible V e.
Definition part (t : ntree) (e : expr) : Prop := silent t /\ fits t e.
Definition stmt (t : ntree) (e : expr) : Prop := incl (declares_t (t_children t)) (declared_by e) /\ fits t e.
Definition opless (t : ntree) : Prop := is_local (x_op (t_data t)) = false.
Lemma wrapper_part : forall k b m e, In k wrappers -> a_body b m -> oks b = true -> a_means b e ->
  fits (seen (node k b)) e /\ opless (seen (node k b)) /\ (introd b = false -> silent (seen (node k b))).
Proof.
  intros k b m e K B O [M1 M2 M3 M4]. split; [|split].
  - intros V H. apply M4. eapply wrapper_tok; eauto.
  - destruct (wrapper_node k b m K B O) as (d & _ & E & _ & _ & OP & _). unfold opless. rewrite E. cbn. now rewrite OP.
  - intros I. unfold silent. rewrite (wrapper_kids _ _ _ K B O). now apply M3.
Qed.
Lemma stmts_seen : forall ts es, Forall2 stmt ts es -> forall V V', incl V V' -> threaded V ts -> in_turn visible V' es.
Proof.
  induction 1 as [|t e ts es [A B] H IH]; intros V V' I T; [exact Logic.I|]. destruct T as [T1 T2]. cbn [in_turn]. split; [apply B; eapply tok_more; eauto|].
  eapply IH; [|exact T2]. apply incl_app; [apply incl_appl, A|apply incl_appr, I].
Qed.
Lemma parts_seen : forall ts es V, Forall2 part ts es -> Forall (tok false false V) ts -> all_in visible V es.
Proof. intros ts es V H. induction H as [|t e ts es [A B] H IH]; intros T; [exact Logic.I|]. inversion_clear T. cbn [all_in]. split; auto. Qed.
Lemma parts_silent : forall ts es, Forall2 part ts es -> Forall silent ts.
Proof. induction 1 as [|t e ts es [A B] H IH]; constructor; auto. Qed.
Lemma parts_threaded : forall ts es V, Forall2 part ts es -> threaded V ts -> all_in visible V es.
Proof. intros ts es V H T. eapply parts_seen; [exact H|]. apply threaded_all; [eapply parts_silent; eauto|exact T]. Qed.

(** ** Several nodes of the same name *)
Definition V_expr (b : list stx) (e : expr) : Prop := oks b = true -> regs b = true -> means b e.
Record V_all (n : string) (l : list stx) (es : list expr) : Prop := {
  va_parts : forall k, kind_new n = Some k -> In k wrappers -> oks l = true -> regs l = true -> forallb (fun t => negb (introduces_ t)) l = true -> Forall2 part (view l) es;
  va_stmts : forall k, kind_new n = Some k -> In k wrappers -> oks l = true -> regs l = true -> forallb statement l = true -> Forall2 stmt (view l) es;
  va_opless : forall k, kind_new n = Some k -> In k wrappers -> oks l = true -> regs l = true -> Forall opless (view l) }.
Lemma all_v_nil : forall n, V_all n [] [].
Proof. intros n. split; constructor. Qed.
Lemma all_v_cons : forall n b e l es, body b -> V_expr b e -> V_all n l es -> V_all n (SNode n b :: l) (e :: es).
Proof.
  intros n b e l es B E [A1 A2 A3].
  assert (X : forall k, kind_new n = Some k -> In k wrappers -> oks (SNode n b :: l) = true -> regs (SNode n b :: l) = true ->
    means b e /\ oks b = true /\ oks l = true /\ regs l = true /\ view (SNode n b :: l) = seen (node k b) :: view l).
  { intros k K W O R. rewrite oks_cons, ok_node in O. rewrite regs_cons, reg_node in R. destruct O as [[_ O1] O2], R as [[_ R1] R2]. split; [now apply E|].
    do 3 (split; [assumption|]). now apply view_node. }
  split; intros k K W O R; destruct (X k K W O R) as (M & O1 & O2 & R2 & EV); rewrite EV;
    destruct (wrapper_part k b false e W (body_arg _ b B) O1 (mn_arg _ _ M)) as (P1 & P2 & P3).
  - intros I. cbn [forallb] in I. apply andb_true_iff in I. destruct I as [I1 I2]. constructor; [|eapply A1; eauto]. split; [|exact P1]. apply P3. now apply negb_true_iff.
  - intros I. cbn [forallb] in I. apply andb_true_iff in I. destruct I as [I1 I2]. constructor; [|eapply A2; eauto]. split; [|exact P1].
    unfold statement in I1. apply orb_true_iff in I1. destruct I1 as [I1|I1]; apply negb_true_iff in I1.
    + specialize (P3 I1). unfold silent in P3. rewrite P3. intros x [].
    + rewrite (wrapper_kids _ _ _ W (body_arg _ b B) O1). now apply M.
  - constructor; [exact P2|]. eapply A3; eauto.
Qed.

(** a block *)
Lemma block_facts : forall k, In k [K_Block; K_TrueBlock; K_ElseIfBlock; K_ElseBlock; K_Link; K_Array] -> simple (blank k (start_ty k)) = true /\ container k = true /\ over (blank k (start_ty k)) = [].
Proof. intros k H. simpl in H. repeat (destruct H as [<-|H]; [repeat split; reflexivity|]). destruct H. Qed.
Lemma nodes_data : forall l d, forallb is_node l = true -> fst (builds l d) = d.
Proof.
  induction l as [|t l IH]; intros d H; [reflexivity|]. cbn [forallb] in H. apply andb_true_iff in H. destruct H as [H1 H2]. cbn [GrammarBuild.builds fst]. rewrite (IH _ H2).
  destruct t; try discriminate. rewrite build_node. now destruct (kind_new name).
Qed.
Lemma all_nodes_ : forall i a n l es, all_mean i a n l es -> forallb is_node l = true.
Proof. induction 1; [reflexivity|assumption]. Qed.
Lemma block_seen : forall k l, In k [K_Block; K_TrueBlock; K_ElseIfBlock; K_ElseBlock; K_Link; K_Array] -> forallb is_node l = true ->
  seen (node k l) = NT (blank k (start_ty k)) (view l) /\ forall V, tok false false V (seen (node k l)) -> threaded V (view l).
Proof.
  intros k l K N. destruct (block_facts k K) as (S_ & C & OV). unfold node, dat. rewrite (nodes_data _ _ N). split.
  - apply seen_node; [exact S_|]. now apply container_steady.
  - intros V H. apply container_tok in H; [|exact S_|exact C|reflexivity]. now rewrite OV in H.
Qed.
Lemma opless_declares : forall ts, Forall opless ts -> declares_t ts = [].
Proof. intros [|t ts] H; [reflexivity|]. inversion_clear H. now apply quiet_first. Qed.
Lemma block_v : forall n k l es V, kind_new n = Some k -> In k [K_Block; K_TrueBlock; K_ElseIfBlock; K_ElseBlock] -> In n statements -> all_mean in_of alloc "expr" l es -> V_all "expr" l es ->
  nodes_all tidy (SNode n l) = true -> nodes_all regular (SNode n l) = true ->
  silent (seen (node k l)) /\ opless (seen (node k l)) /\ (tok false false V (seen (node k l)) -> in_turn visible V es).
Proof.
  intros n k l es V K I N M [_ A2 A3] O R. apply ok_node in O. apply reg_node in R. destruct O as [_ O], R as [R0 R].
  destruct (block_seen k l) as [E T]; [simpl in *; tauto|exact (all_nodes_ _ _ _ _ _ M)|].
  split; [unfold silent; rewrite E; apply opless_declares; eapply A3; eauto; [reflexivity|simpl; tauto]|]. split; [unfold opless; rewrite E; reflexivity|].
  intros H. eapply stmts_seen; [eapply A2; eauto; [reflexivity|simpl; tauto|]|apply incl_refl|exact (T V H)].
  unfold regular in R0. rewrite !andb_true_iff in R0. destruct R0 as ((((R0 & _) & _) & _) & _).
  assert (X : existsb (String.eqb n) statements = true) by (apply existsb_exists; exists n; split; [exact N|apply String.eqb_refl]). now rewrite X in R0.
Qed.

(** ** Bodies that are one node *)
Lemma node_means : forall n k c e, kind_new n = Some k -> n <> "swizzle" -> n <> "item" -> is_swizzle e = false -> opless (seen (node k c)) ->
  fits (seen (node k c)) e -> means [SNode n c] e.
Proof.
  intros n k c e K N NI F OP T. assert (E : forest [SNode n c] = [node k c]) by (now rewrite (forest_node n k)).
  assert (D : declares_t (view [SNode n c]) = []) by (unfold view; rewrite E; now apply quiet_first).
  split; [split|..].
  - rewrite E. cbn. lia.
  - auto.
  - auto.
  - intros V H. unfold view in H. rewrite E in H. inversion_clear H. now apply T.
  - exact F.
  - intros _. rewrite D. intros x [].
  - intros c' X. injection X as -> _. congruence.
Qed.
Lemma value_means : forall m e, is_swizzle e = false -> (forall V, visible V e) -> means [SValue m] e.
Proof.
  intros m e F H. split; [split; auto|exact F|intros _ x []|discriminate].
Qed.
(** the parts of a node that is not special *)
Definition plain_node (k : kind) : bool := container k && negb (loopb k) && simple (blank k (start_ty k)).
Lemma plain_seen : forall k l, plain_node k = true -> fst (builds l (blank k (start_ty k))) = blank k (start_ty k) ->
  seen (node k l) = NT (blank k (start_ty k)) (view l) /\ opless (seen (node k l)) /\ forall V, tok false false V (seen (node k l)) -> threaded V (view l).
Proof.
  intros k l K D. unfold plain_node in K. rewrite !andb_true_iff in K. destruct K as [[C NL] S_]. unfold node, dat. rewrite D.
  assert (E : seen (NT (blank k (start_ty k)) (forest l)) = NT (blank k (start_ty k)) (view l)) by (apply seen_node; [exact S_|now apply container_steady]).
  split; [exact E|]. split; [unfold opless; rewrite E; reflexivity|]. intros V H. apply container_tok in H; [|exact S_|exact C|reflexivity].
  unfold over in H. cbn [blank x_kind] in H. apply negb_true_iff in NL. rewrite NL in H. exact H.
Qed.
Lemma label_data : forall o l d, fst (builds (strs "label" o ++ l) d) = fst (builds l d).
Proof. intros. now rewrite builds_label. Qed.
Definition no_intro (l : list stx) : bool := forallb (fun t => negb (introduces_ t)) l.
(** any node that is not a closure, a function or a grab *)
Definition inner (k : kind) : bool := negb (existsb (is_kind k) [K_Grab; K_Closure; K_Fn]).
Lemma tok_threaded : forall d ts V lf, inner (x_kind d) = true -> is_local (x_op d) = false -> lf = false -> tok lf false V (NT d ts) -> threaded (over d ++ V) ts.
Proof.
  intros d ts V lf K L -> H. cbn [VisibleTree.tok] in H. destruct H as (_ & _ & [H|H]); [rewrite H in K; discriminate|].
  assert (P : params d ts = []) by (unfold params; destruct (x_kind d); try reflexivity; discriminate K). rewrite P in H.
  apply (kids_threaded callable d [] V) in H; [exact H|exact L|]. destruct (x_kind d); try reflexivity; discriminate K.
Qed.
Lemma opless_good : forall n k c ks, one_node true (SNode n c) ks -> kind_new n = Some k -> ~ In K_Assign ks -> opless (seen (node k c)).
Proof.
  intros n k c ks (_ & t & B & G & K) KN N. assert (E : t = node k c).
  { pose proof (forest_node n k c [] KN) as X. unfold forest in X. rewrite (builds_one _ _ _ _ B) in X. cbn in X. now injection X. }
  subst t. unfold opless. rewrite seen_op. destruct (gd_op _ _ G) as [X|X]; [now rewrite X|]. contradict N. unfold kin, kind_of in K. now rewrite <- X.
Qed.
Lemma all_data : forall l ks d, all_nodes true l ks -> fst (builds l d) = d.
Proof. intros l ks d (_ & ts & B & _). now rewrite B. Qed.

(** ** Variables *)
Lemma item_tok : forall it d ts x ids w dc V, an_item it d ts x ids -> tok false dc V (ren w (wo (NT d ts))) ->
  let y := match ts, w with [], Some w => (x ++ "__" ++ w)%string | _, _ => x end in
  (dc && none ts = false -> y = "return" \/ In y V) /\ Forall (visible_idx V) ids.
Proof.
  intros it d ts x ids w dc V A H. rewrite (simple_wo _ _ (ai_simple _ _ _ _ _ A)) in H. cbn [ren] in H.
  assert (W : word_in d = None) by (unfold word_in; now rewrite (ai_kind _ _ _ _ _ A)). rewrite W, ren_none, map_map in H. fold seen in H.
  assert (N : t_names w d (map wo ts) = [match ts, w with [], Some w => (x ++ "__" ++ w)%string | _, _ => x end]).
  { unfold t_names. rewrite (ai_kind _ _ _ _ _ A), (ai_names _ _ _ _ _ A). destruct ts, w; reflexivity. }
  rewrite N in H. cbv zeta. set (y := match ts, w with [], Some w => (x ++ "__" ++ w)%string | _, _ => x end) in *. clearbody y.
  split.
  - intros D. cbn [VisibleTree.tok] in H. destruct H as [H _]. apply H; [exact (ai_kind _ _ _ _ _ A)| |reflexivity]. rewrite <- D. f_equal. now destruct ts.
  - apply (ai_ids _ _ _ _ _ A). cbn [VisibleTree.tok] in H. destruct H as (H1 & H2 & H).
    destruct H as [H|H]; [cbn in H; rewrite (ai_kind _ _ _ _ _ A) in H; discriminate|].
    set (d' := with_names [y] d) in *.
    assert (KD : x_kind d' = K_Item) by exact (ai_kind _ _ _ _ _ A). assert (OD : x_op d' = None) by exact (ai_op _ _ _ _ _ A).
    assert (P : forall l, params d' l = []) by (intros l; unfold params; now rewrite KD). rewrite P in H.
    apply (kids_threaded callable d' [] V) in H; [|now rewrite OD|now rewrite KD]. unfold over in H. rewrite KD in H. exact H.
Qed.
Lemma ids_visible : forall V ids, Forall (visible_idx V) ids <-> (fix go (l : list idx) : Prop := match l with [] => True | i :: l => visible_idx V i /\ go l end) ids.
Proof.
  intros V. induction ids as [|i ids IH]; [split; [reflexivity|constructor]|]. split.
  - intros H. inversion_clear H. split; [assumption|now apply IH].
  - intros [A B]. constructor; [assumption|now apply IH].
Qed.
Lemma item_fits : forall it i, item_ok it i -> forall d ts, forest [it] = [NT d ts] -> fits (seen (NT d ts)) (EItem i) /\ opless (seen (NT d ts)).
Proof.
  intros it i (d' & ts' & x & c & q & ids & tr & -> & A) d ts F. rewrite (ai_forest _ _ _ _ _ A) in F. injection F as <- <-. split.
  - intros V H. apply (item_tok _ _ _ _ _ _ _ _ A) in H. destruct H as [H1 H2]. cbn [VisibleSpec.visible VisibleSpec.visible_item]. split; [|now apply ids_visible].
    specialize (H1 eq_refl). cbv zeta in H1. now destruct ts'.
  - unfold opless. rewrite seen_op, (simple_wo _ _ (ai_simple _ _ _ _ _ A)). cbn [t_data]. now rewrite (ai_op _ _ _ _ _ A).
Qed.
Lemma item_a_means : forall pre it i, forest (pre ++ [it]) = forest [it] -> introd (pre ++ [it]) = introd [it] -> item_ok it i -> a_means (pre ++ [it]) (EItem i).
Proof.
  intros pre it i F I H. pose proof (item_fits _ _ H) as X. destruct H as (d & ts & x & c & q & ids & tr & -> & A). specialize (X _ _ (ai_forest _ _ _ _ _ A)). destruct X as [X O].
  pose proof (ai_forest _ _ _ _ _ A) as E.
  split; [rewrite F, E; cbn; lia|reflexivity| |].
  - intros _. unfold view. rewrite F, E. now apply quiet_first.
  - intros V T. unfold view in T. rewrite F, E in T. inversion_clear T. now apply X.
Qed.
Lemma is_intro_name : forall n c, n <> "assign" -> is_intro (SNode n c) = false.
Proof.
  intros n c N. destruct c as [|a [|[| | |] [|? [|? ?]]]]; try reflexivity; destruct m; try reflexivity. cbn. now destruct (String.eqb_spec n "assign").
Qed.
Lemma item_means_v : forall c i, item_ok (SNode "item" c) i -> means [SNode "item" c] (EItem i).
Proof.
  intros c i H. pose proof (item_a_means [] _ i eq_refl eq_refl H) as M. split; [exact M|reflexivity| |].
  - intros _. cbn [app] in M. rewrite (am_quiet _ _ M); [intros y []|]. unfold introd. cbn [existsb]. now rewrite is_intro_name.
  - intros c' E. injection E as <-. eauto.
Qed.
Definition V_item (it : stx) (i : item) : Prop := nodes_all tidy it = true -> nodes_all regular it = true -> item_ok it i.
Record V_ids (l : list stx) (ids : list idx) : Prop := {
  vd_silent : oks l = true -> regs l = true -> no_intro l = true -> Forall silent (view l);
  vd_opless : oks l = true -> regs l = true -> Forall opless (view l);
  vd_seen : oks l = true -> regs l = true -> forall V, Forall (tok false false V) (view l) -> Forall (visible_idx V) ids;
  vd_len : (length ids = 0 -> l = []) }.
Lemma item_facts : forall c x q, dat K_Item (flags "current" c ++ str "name" x :: flags "try_item" q) = with_try q (with_names [x] (blank K_Item None)).
Proof. intros [] x []; reflexivity. Qed.
Lemma plain_item : forall c x q, V_item (SNode "item" (flags "current" c ++ str "name" x :: flags "try_item" q)) (Item x None c q [] []).
Proof.
  intros c x q _ _. exists (with_try q (with_names [x] (blank K_Item None))), [], x, c, q, [], []. split; [reflexivity|].
  split; try reflexivity; try constructor; auto. rewrite (forest_node "item" K_Item) by reflexivity. unfold node. rewrite item_facts. f_equal. f_equal.
  rewrite forest_flags. unfold str. rewrite forest_value. now destruct q.
Qed.
Lemma extra_item : forall c x q l ids tr, l <> [] -> (oks l = true -> all_nodes true l [K_Id; K_ReturnVoid]) -> V_ids l ids ->
  V_item (SNode "item" (flags "current" c ++ str "name" x :: flags "try_item" q ++ [SNode "item_extra" l])) (Item x None c q ids tr).
Proof.
  intros c x q l ids tr NE AN [D1 D2 D3 D4] O R. apply ok_node in O. apply reg_node in R. destruct O as [_ O], R as [_ R].
  assert (O' : oks l = true /\ regs l = true /\ no_intro l = true).
  { rewrite oks_flags in O. apply oks_cons in O. destruct O as [_ O]. rewrite oks_flags in O. apply oks_cons in O. destruct O as [O _]. apply ok_node in O.
    assert (R' : nodes_all regular (SNode "item_extra" l) = true).
    { rewrite forallb_app in R. apply andb_true_iff in R. destruct R as [_ R]. cbn [forallb] in R. apply andb_true_iff in R. destruct R as [_ R].
      rewrite forallb_app in R. apply andb_true_iff in R. destruct R as [_ R]. cbn [forallb] in R. now rewrite andb_true_r in R. }
    apply reg_node in R'. destruct R' as [R' R'']. split; [apply O|]. split; [exact R''|]. unfold regular in R'. rewrite !andb_true_iff in R'. destruct R' as ((((R' & _) & _) & _) & _). exact R'. }
  destruct O' as (Ol & Rl & Nl). specialize (D1 Ol Rl Nl). specialize (D2 Ol Rl). specialize (D3 Ol Rl).
  destruct (plain_seen K_ItemExtra l eq_refl) as (E & OP & T); [eapply all_data; now apply AN|].
  exists (with_try q (with_names [x] (blank K_Item None))), [node K_ItemExtra l], x, c, q, ids, tr. split; [reflexivity|].
  split; try reflexivity.
  - rewrite (forest_node "item" K_Item) by reflexivity. unfold node at 1. f_equal. f_equal.
    + unfold dat. rewrite builds_flags. unfold str. rewrite builds_value, builds_flags. cbn [GrammarBuild.builds fst]. rewrite build_node. change (kind_new "item_extra") with (Some K_ItemExtra). now destruct c, q.
    + rewrite forest_flags. unfold str. rewrite forest_value, forest_flags. now rewrite (forest_node "item_extra" K_ItemExtra).
  - split; [discriminate|]. intros ->. contradict NE. now apply D4.
  - intros V [H _]. apply D3. apply threaded_all; [exact D1|]. now apply T.
  - constructor; [exact OP|constructor].
Qed.

Lemma ids_v_skip : forall m q l ids i, (forall V, visible_idx V i) -> V_ids l ids -> V_ids (SValue m :: flags "try_id" q ++ l) (i :: ids).
Proof.
  intros m q l ids i H [D1 D2 D3 D4].
  assert (E : view (SValue m :: flags "try_id" q ++ l) = view l) by (unfold view; rewrite forest_value, forest_flags; reflexivity).
  assert (O : forall Q, forallb (nodes_all Q) (SValue m :: flags "try_id" q ++ l) = true -> forallb (nodes_all Q) l = true).
  { intros Q X. cbn [forallb] in X. rewrite forallb_app in X. cbn [nodes_all] in X. rewrite !andb_true_iff in X. apply X. }
  assert (N : no_intro (SValue m :: flags "try_id" q ++ l) = true -> no_intro l = true).
  { unfold no_intro. intros X. cbn [forallb] in X. rewrite forallb_app, !andb_true_iff in X. apply X. }
  split; rewrite ?E; [eauto|eauto| |discriminate]. intros A B V T. constructor; [apply H|eauto].
Qed.
Lemma ids_v_expr : forall b e q l ids, body b -> V_expr b e -> V_ids l ids -> V_ids (SNode "id" b :: flags "try_id" q ++ l) (IdExpr e :: ids).
Proof.
  intros b e q l ids B E [D1 D2 D3 D4].
  assert (EV : view (SNode "id" b :: flags "try_id" q ++ l) = seen (node K_Id b) :: view l) by (rewrite (view_node "id" K_Id) by reflexivity; unfold view; now rewrite forest_flags).
  assert (X : oks (SNode "id" b :: flags "try_id" q ++ l) = true -> regs (SNode "id" b :: flags "try_id" q ++ l) = true ->
    oks b = true /\ means b e /\ oks l = true /\ regs l = true).
  { intros O R. rewrite oks_cons, ok_node, oks_flags in O. rewrite regs_cons, reg_node, regs_app in R. destruct O as [[_ O] O'], R as [[_ R] [_ R']]. auto. }
  split; rewrite ?EV; [| | |discriminate]; intros O R; destruct (X O R) as (Ob & M & Ol & Rl); destruct (wrapper_part K_Id b false e ltac:(simpl; tauto) (body_arg _ b B) Ob (mn_arg _ _ M)) as (P1 & P2 & P3).
  - intros N. unfold no_intro in N. cbn [forallb] in N. rewrite forallb_app, !andb_true_iff in N. destruct N as (N1 & _ & N2). constructor; [|apply D1; auto]. apply P3. now apply negb_true_iff in N1.
  - constructor; auto.
  - intros V T. inversion_clear T. constructor; [now apply P1|now apply D3].
Qed.
End Cases.
