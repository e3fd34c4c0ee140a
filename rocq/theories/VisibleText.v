(** * From the trees of a text to its syntax tree: what the checkers see is what can be used. *)
From Coq Require Import String List Bool Arith ZArith Lia.
From Verif Require Import PrintModel ColorModel Float64 TypeModel LifetimeModel NodesModel FoldModel TransformModel NodesSpec LivesSpec Syntax AstModel AstSpec AstProofs AstFile GrammarSpec GrammarBuild GrammarFits GrammarCases GrammarAll VisibleSpec VisibleTree NodesLayout.
Import ListNotations.
Local Open Scope string_scope.
Local Open Scope nat_scope.
Local Open Scope list_scope.

(** ** Trees with other variables around them *)
Definition off (xs : list string) (t : ntree) : bool := negb (of_ K_Item t && existsb (fun x => existsb (String.eqb x) xs) (t_name t)).
Section Change.
Context (callable : string -> nat -> Prop).
Notation tok := (tok callable).
Lemma tok_change : forall t xs lf dc V V', every (off xs) t = true -> (forall y, In y V -> In y xs \/ In y V') -> tok lf dc V t -> tok lf dc V' t.
Proof.
  induction t as [d ts IH] using ntree_ind'. intros xs lf dc V V' E I. cbn [every] in E. apply andb_true_iff in E. destruct E as [E1 E2]. cbn [VisibleTree.tok].
  intros (A & B & C). split; [|split; [exact B|]].
  - intros K N x X. destruct (A K N x X) as [->|Y]; [now left|]. right. destruct (I x Y) as [Z|Z]; [|exact Z]. exfalso.
    unfold off, of_, t_kind, t_name in E1. cbn [t_data] in E1. rewrite K in E1. change (is_kind K_Item K_Item) with true in E1. cbn [andb] in E1.
    destruct (x_names d) as [|z zs]; [discriminate|]. injection X as ->. cbn [existsb] in E1. rewrite orb_false_r in E1. apply negb_true_iff in E1.
    assert (W : existsb (String.eqb x) xs = true) by (apply existsb_exists; exists x; split; [exact Z|apply String.eqb_refl]). congruence.
  - destruct C as [C|C]; [now left|right]. revert C. generalize (params d ts) as P. intros P. generalize true as first. generalize (@nil string) as pre.
    clear A B E1. induction ts as [|t ts IHt]; intros pre first; [auto|]. cbn [kids]. intros [C1 C2]. cbn [forallb] in E2. apply andb_true_iff in E2. destruct E2 as [E2 E3].
    inversion_clear IH as [|? ? IH1 IH2]. split.
    + eapply IH1; [exact E2| |exact C1]. intros y Y. rewrite !in_app_iff in *. destruct (is_kind (x_kind d) K_Closure); [tauto|]. destruct Y as [Y|[Y|[Y|Y]]]; auto. destruct (I y Y); auto.
    + apply IHt; assumption.
Qed.
Lemma every_off : forall t, every (off []) t = true.
Proof.
  induction t as [d ts IH] using ntree_ind'. cbn [every]. apply andb_true_iff. split.
  - unfold off. destruct (of_ K_Item _); [|reflexivity]. destruct (t_name _) as [|a l]; [reflexivity|]. cbn. induction l; auto.
  - induction IH; [reflexivity|]. cbn [forallb]. now rewrite H.
Qed.
Lemma tok_more : forall t lf dc V V', incl V V' -> tok lf dc V t -> tok lf dc V' t.
Proof. intros t lf dc V V' I. apply (tok_change t []); [apply every_off|]. intros y Y. right. now apply I. Qed.

(** one part after the other *)
Fixpoint threaded (V : list string) (ts : list ntree) : Prop :=
  match ts with [] => True | t :: ts => tok false false V t /\ threaded (declares_t (t_children t) ++ V) ts end.
Definition silent (t : ntree) : Prop := declares_t (t_children t) = [].
Lemma threaded_more : forall ts V V', incl V V' -> threaded V ts -> threaded V' ts.
Proof.
  induction ts as [|t ts IH]; intros V V' I; [auto|]. cbn [threaded]. intros [A B]. split; [eapply tok_more; eauto|]. eapply IH; [|exact B].
  apply incl_app; [apply incl_appl, incl_refl|apply incl_appr, I].
Qed.
Lemma kids_threaded : forall d P V ts, is_local (x_op d) = false -> is_kind (x_kind d) K_Closure = false ->
  kids tok d false P V true [] ts -> threaded (over d ++ P ++ V) ts.
Proof.
  intros d P V ts L K. change (over d ++ P ++ V) with (over d ++ [] ++ P ++ V). generalize (@nil string) as pre. generalize true as first. induction ts as [|t ts IH]; intros first pre; [auto|].
  cbn [kids threaded]. rewrite L, K, !andb_false_r. intros [A B]. split; [exact A|].
  eapply threaded_more; [|exact (IH false _ B)]. intros y. rewrite !in_app_iff. tauto.
Qed.
Lemma threaded_all : forall ts V, Forall silent ts -> threaded V ts -> Forall (tok false false V) ts.
Proof. induction ts as [|t ts IH]; intros V S_ H; [constructor|]. inversion_clear S_ as [|? ? S1 S2]. destruct H as [A B]. constructor; [exact A|]. rewrite S1 in B. now apply IH. Qed.
Lemma threaded_app : forall a b V, Forall silent a -> threaded V (a ++ b) -> Forall (tok false false V) a /\ threaded V b.
Proof.
  induction a as [|t a IH]; intros b V S_ H; [split; [constructor|exact H]|]. inversion_clear S_ as [|? ? S1 S2]. destruct H as [A B]. rewrite S1 in B.
  destruct (IH b V S2 B). split; [now constructor|assumption].
Qed.
End Change.

(** ** The forest of a text *)
Notation build := (build parse_type).
Notation builds := (builds parse_type).
Definition forest (b : list stx) : list ntree := snd (builds b (blank K_Expr None)).
(** a tree as the checkers see it *)
Definition seen (t : ntree) : ntree := ren None (wo t).
Definition view (b : list stx) : list ntree := map seen (forest b).
Definition dat (k : kind) (b : list stx) : data := fst (builds b (blank k (start_ty k))).
Definition node (k : kind) (b : list stx) : ntree := NT (dat k b) (forest b).

Lemma build_forest : forall t d d', snd (build t d) = snd (build t d').
Proof. intros [n b|m|n i|n i] d d'; try reflexivity. rewrite !build_node. now destruct (kind_new n). Qed.
Lemma builds_forest : forall b d, snd (builds b d) = forest b.
Proof.
  intros b d. unfold forest. generalize (blank K_Expr None) as d'. revert d. induction b as [|t b IH]; intros d d'; [reflexivity|]. cbn [GrammarBuild.builds snd].
  rewrite (build_forest t d d'), (IH _ (fst (build t d'))). reflexivity.
Qed.
Lemma forest_app : forall a b, forest (a ++ b) = forest a ++ forest b.
Proof. intros a b. unfold forest at 1. rewrite builds_app. cbn [snd]. now rewrite !builds_forest. Qed.
Lemma forest_node : forall n k b l, kind_new n = Some k -> forest (SNode n b :: l) = node k b :: forest l.
Proof.
  intros n k b l K. change (SNode n b :: l) with ([SNode n b] ++ l). rewrite forest_app. unfold forest at 1. cbn [GrammarBuild.builds]. rewrite build_node, K. cbn [fst snd app].
  unfold node, dat. now rewrite builds_forest.
Qed.
Lemma forest_value : forall m l, forest (SValue m :: l) = forest l.
Proof. intros m l. change (SValue m :: l) with ([SValue m] ++ l). now rewrite forest_app. Qed.
Lemma forest_type : forall n i l, forest (SType n i :: l) = forest l.
Proof. intros n i l. change (SType n i :: l) with ([SType n i] ++ l). now rewrite forest_app. Qed.
Lemma forest_strs : forall n o l, forest (strs n o ++ l) = forest l.
Proof. intros n [] l; [apply forest_value|reflexivity]. Qed.
Lemma forest_flags : forall n o l, forest (flags n o ++ l) = forest l.
Proof. intros n [] l; [apply forest_value|reflexivity]. Qed.
Lemma forest_piece : forall n T t l, type_piece n T t -> forest (T ++ l) = forest l.
Proof. intros n T t l []; [reflexivity|apply forest_type]. Qed.
Lemma view_app : forall a b, view (a ++ b) = view a ++ view b.
Proof. intros. unfold view. now rewrite forest_app, map_app. Qed.
Lemma view_node : forall n k b l, kind_new n = Some k -> view (SNode n b :: l) = seen (node k b) :: view l.
Proof. intros. unfold view. now rewrite (forest_node n k). Qed.
Lemma view_value : forall m l, view (SValue m :: l) = view l.
Proof. intros. unfold view. now rewrite forest_value. Qed.
Lemma view_strs : forall n o l, view (strs n o ++ l) = view l.
Proof. intros. unfold view. now rewrite forest_strs. Qed.

Lemma with_names_same : forall d, with_names (x_names d) d = d.
Proof. now intros []. Qed.
(** nodes whose names stay *)
Definition steady (k : kind) : bool := negb (existsb (is_kind k) [K_Fn; K_Call; K_CallClosure; K_Item]).
Lemma seen_node : forall d ts, simple d = true -> steady (x_kind d) = true -> seen (NT d ts) = NT d (map seen ts).
Proof.
  intros d ts S_ K. unfold seen at 1. rewrite (simple_wo d ts S_). cbn [ren].
  assert (W : word_in d = None) by (unfold word_in; destruct (x_kind d); try reflexivity; discriminate K).
  assert (N : t_names None d (map wo ts) = x_names d) by (unfold t_names; destruct (x_kind d); try reflexivity; discriminate K).
  rewrite W, N, with_names_same, ren_none, map_map. reflexivity.
Qed.
Definition container (k : kind) : bool := negb (existsb (is_kind k) [K_Fn; K_Call; K_CallClosure; K_Item; K_Grab; K_Closure]).
Lemma container_steady : forall k, container k = true -> steady k = true.
Proof. intros []; try reflexivity; discriminate. Qed.
Lemma container_tok : forall callable d ts V, simple d = true -> container (x_kind d) = true -> is_local (x_op d) = false ->
  tok callable false false V (seen (NT d ts)) -> threaded callable (over d ++ V) (map seen ts).
Proof.
  intros callable d ts V S_ K L H. rewrite (seen_node d ts S_ (container_steady _ K)) in H. cbn [tok] in H. destruct H as (_ & _ & [H|H]); [rewrite H in K; discriminate|].
  assert (P : params d (map seen ts) = []) by (unfold params; destruct (x_kind d); try reflexivity; discriminate K). rewrite P in H.
  apply (kids_threaded callable d [] V) in H; [exact H|exact L|]. destruct (x_kind d); try reflexivity; discriminate K.
Qed.
Lemma seen_op : forall t, x_op (t_data (seen t)) = x_op (t_data (wo t)).
Proof. intros t. unfold seen. now destruct (wo t). Qed.
Lemma seen_kind : forall t, t_kind (seen t) = t_kind (wo t).
Proof. intros t. apply ren_kind. Qed.
Lemma quiet_first : forall t ts, is_local (x_op (t_data t)) = false -> declares_t (t :: ts) = [].
Proof. intros [d [|[d' [|m l]] r]] ts; cbn; try reflexivity. destruct (x_op d) as [[]|]; try reflexivity. discriminate. Qed.

(** ** Texts without some variables *)
Lemma set_bool_kind : forall n v d, x_kind (set_bool n v d) = x_kind d \/ x_kind (set_bool n v d) = K_ReturnVoid.
Proof.
  intros n v d. unfold set_bool. destruct (assoc n op_table); [left; reflexivity|]. destruct (assoc n binop_table); [left; reflexivity|].
  repeat match goal with |- context [if ?c then _ else _] => destruct c end; auto.
Qed.
Lemma set_bool_names : forall n v d, x_names (set_bool n v d) = x_names d.
Proof.
  intros n v d. unfold set_bool. destruct (assoc n op_table); [reflexivity|]. destruct (assoc n binop_table); [reflexivity|].
  repeat match goal with |- context [if ?c then _ else _] => destruct c end; auto.
Qed.
Lemma set_string_kind : forall n v d, x_kind (set_string n v d) = x_kind d.
Proof. intros n v d. unfold set_string. repeat match goal with |- context [if ?c then _ else _] => destruct c end; auto; destruct (x_names d); auto. Qed.
Lemma set_f64_same : forall n v d d', set_f64 n v d = NOk d' -> x_kind d' = x_kind d /\ x_names d' = x_names d.
Proof.
  intros n v d d'. unfold set_f64. repeat match goal with |- context [if ?c then _ else _] => destruct c end; intros H; try discriminate; injection H as <-; auto.
Qed.
Lemma say_kind : forall m d, x_kind (say m d) = x_kind d \/ x_kind (say m d) = K_ReturnVoid.
Proof.
  intros m d. destruct m; cbn [say]; try (left; reflexivity); [left; apply set_string_kind|apply set_bool_kind|].
  match goal with |- context [set_f64 ?n ?v d] => destruct (set_f64 n v d) eqn:E end; auto. left. apply (set_f64_same _ _ _ _ E).
Qed.
Lemma dat_kind : forall b d, x_kind (fst (builds b d)) = x_kind d \/ x_kind (fst (builds b d)) = K_ReturnVoid.
Proof.
  induction b as [|t b IH]; intros d; [now left|]. cbn [GrammarBuild.builds fst].
  assert (X : x_kind (fst (build t d)) = x_kind d \/ x_kind (fst (build t d)) = K_ReturnVoid).
  { destruct t as [n c|m|n i|n i]; [rewrite build_node; destruct (kind_new n); now left|apply say_kind|left; cbn; now destruct (parsed _ _ _)|now left]. }
  destruct (IH (fst (build t d))) as [E|E]; rewrite E; auto.
Qed.
Definition name_pieces (b : list stx) : Prop := forall m x, In (SValue (MString m x)) b -> m = "name".
Lemma dat_names : forall b d y, name_pieces b -> In y (x_names (fst (builds b d))) -> In y (x_names d) \/ In (SValue (MString "name" y)) b.
Proof.
  induction b as [|t b IH]; intros d y N H; [now left|]. cbn [GrammarBuild.builds fst] in H.
  destruct (IH _ y (fun m x I => N m x (or_intror I)) H) as [J|J]; [|right; now right].
  destruct t as [n c|m|n i|n i].
  - rewrite build_node in J. destruct (kind_new n); now left.
  - cbn [GrammarBuild.build fst] in J. destruct m; cbn [say] in J; try (now left).
    + pose proof (N _ _ (or_introl eq_refl)) as ->. cbn in J. apply in_app_or in J. destruct J as [J|[<-|[]]]; [now left|right; now left].
    + rewrite set_bool_names in J. now left.
    + left. match type of J with context [set_f64 ?n ?v d] => destruct (set_f64 n v d) eqn:E end; auto. destruct (set_f64_same _ _ _ _ E) as [_ <-]. exact J.
  - left. cbn in J. now destruct (parsed _ _ _).
  - now left.
Qed.
(** no such variable, and no words in calls of closures *)
Definition clear (xs : list string) (t : ntree) : bool :=
  negb (of_ K_Item t && existsb (fun x => existsb (String.eqb x) xs) (x_names (t_data t))) && negb (of_ K_CallClosure t && has_names (t_data t)).
Lemma clear_kind : forall xs d ts, is_kind (x_kind d) K_Item = false -> is_kind (x_kind d) K_CallClosure = false -> clear xs (NT d ts) = true.
Proof. intros xs d ts A B. unfold clear, of_, t_kind. cbn [t_data]. now rewrite A, B. Qed.
Lemma table_name : forall n k, kind_new n = Some k -> In (n, k) kind_table.
Proof.
  unfold kind_new. generalize kind_table as l. induction l as [|[y a] l IH]; intros n k H; [discriminate|]. cbn [assoc] in H.
  destruct (String.eqb_spec n y) as [->|_]; [injection H as ->; now left|right; auto].
Qed.
Lemma kind_name : forall n k, kind_new n = Some k ->
  (k = K_Item -> n = "item") /\ (k = K_CallClosure -> n = "call_closure" \/ n = "named_call_closure").
Proof.
  intros n k H. apply table_name in H. unfold kind_table in H. cbn [In] in H.
  repeat (destruct H as [H|H]; [injection H as <- <-; (split; intros X; try discriminate X; auto)|]). destruct H.
Qed.
Lemma text_clear : forall xs t d, nodes_all (avoids xs) t = true -> forallb (every (clear xs)) (snd (build t d)) = true.
Proof.
  intros xs. fix IH 1. intros [n b|m|n i|n i] d H; try reflexivity.
  - rewrite build_node. destruct (kind_new n) as [k|] eqn:K; [|reflexivity]. cbn [nodes_all] in H. apply andb_true_iff in H. destruct H as [H1 H2].
    cbn [fst snd forallb every]. rewrite andb_true_r. apply andb_true_iff. split.
    + destruct (kind_name n k K) as [KI KC]. remember (fst (builds b (blank k (start_ty k)))) as dd eqn:DD.
      assert (DK : x_kind dd = k \/ x_kind dd = K_ReturnVoid) by (destruct (dat_kind b (blank k (start_ty k))) as [E|E]; rewrite DD, E; auto).
      destruct DK as [DK|DK]; [|apply clear_kind; rewrite DK; reflexivity].
      unfold clear, of_, t_kind. cbn [t_data]. rewrite DK.
      destruct (is_kind k K_Item) eqn:E1.
      * apply is_kind_iff in E1. specialize (KI E1). subst n. rewrite E1 in DD |- *. unfold avoids in H1. cbn in H1. rewrite forallb_forall in H1.
        change (is_kind K_Item K_CallClosure) with false. cbn [andb negb].
        destruct (existsb _ (x_names dd)) eqn:X; [|reflexivity]. exfalso.
        apply existsb_exists in X. destruct X as (y & Y & Z).
        destruct (dat_names b (blank K_Item (start_ty K_Item)) y) as [[]|J]; [|rewrite DD in Y; exact Y|].
        -- intros m x J. specialize (H1 _ J). cbn in H1. apply andb_true_iff in H1. apply String.eqb_eq, H1.
        -- specialize (H1 _ J). cbn in H1. rewrite Z in H1. discriminate.
      * destruct (is_kind k K_CallClosure) eqn:E2; [|reflexivity]. apply is_kind_iff in E2. cbn [andb negb].
        destruct (KC E2) as [-> | ->]; [|discriminate H1]. unfold avoids in H1. cbn in H1. rewrite forallb_forall in H1.
        unfold has_names. destruct (x_names dd) as [|y l] eqn:X; [reflexivity|]. exfalso.
        destruct (dat_names b (blank k (start_ty k)) y) as [[]|J].
        -- intros m x J. specialize (H1 _ J). discriminate.
        -- rewrite <- DD, X. now left.
        -- specialize (H1 _ J). discriminate.
    + clear H1 K. revert H2. generalize (blank k (start_ty k)) as e. induction b as [|t b IHb]; intros e H2; [reflexivity|].
      cbn [forallb] in H2. apply andb_true_iff in H2. destruct H2 as [H2 H3]. cbn [GrammarBuild.builds snd]. rewrite forallb_app. rewrite (IH t e H2). exact (IHb _ H3).
  - cbn [GrammarBuild.build snd]. destruct (kind_new n) as [k|] eqn:K; [|reflexivity]. cbn [forallb every]. rewrite !andb_true_r.
    destruct (kind_name n k K) as [KI KC]. unfold clear, of_, t_kind. cbn [t_data blank x_kind x_names existsb has_names]. rewrite !andb_false_r. reflexivity.
Qed.
Lemma wo_clear : forall xs t, every (clear xs) t = true -> every (clear xs) (wo t) = true.
Proof.
  intros xs. induction t as [d ts IH] using ntree_ind'. intros H. cbn [every] in H. apply andb_true_iff in H. destruct H as [H1 H2].
  assert (F : Forall (fun t => every (clear xs) t = true) (map wo ts)).
  { clear H1. induction IH as [|t ts H IH IHt]; [constructor|]. cbn [forallb] in H2. apply andb_true_iff in H2. destruct H2 as [H2 H3]. constructor; [now apply H|now apply IHt]. }
  assert (OC : forall dd b l r, every (clear xs) l = true -> every (clear xs) r = true -> every (clear xs) (op_call dd b l r) = true).
  { intros dd b l r A B. unfold op_call. cbn [every forallb argument]. rewrite A, B, !clear_kind by reflexivity. reflexivity. }
  assert (N : forall us, Forall (fun t => every (clear xs) t = true) us -> every (clear xs) (NT d us) = true).
  { intros us U. cbn [every]. apply andb_true_iff. split; [exact H1|]. apply forallb_forall. now apply Forall_forall. }
  cbn [wo]. unfold without_operator. destruct (x_binops d) as [|b bs].
  - destruct (map wo ts) as [|u [|u' us]]; try (now apply N). inversion_clear F as [|? ? FU _].
    destruct (unop_name (x_kind d)).
    + cbn [every forallb]. rewrite clear_kind by reflexivity. destruct u as [du us]. cbn [as_argument every forallb t_data t_children]. rewrite clear_kind by reflexivity.
      cbn [every] in FU. apply andb_true_iff in FU. now rewrite (proj2 FU).
    + destruct (_ || _); [exact FU|]. apply N. constructor; [exact FU|constructor].
  - destruct (map wo ts) as [|u [|u' us]].
    + now apply N.
    + inversion_clear F as [|? ? FU _]. destruct (unop_name (x_kind d)).
      * cbn [every forallb]. rewrite clear_kind by reflexivity. destruct u as [du us]. cbn [as_argument every forallb t_data t_children]. rewrite clear_kind by reflexivity.
        cbn [every] in FU. apply andb_true_iff in FU. now rewrite (proj2 FU).
      * destruct (_ || _); [exact FU|]. apply N. constructor; [exact FU|constructor].
    + inversion_clear F as [|? ? F1 F']. inversion_clear F' as [|? ? F2 F3]. unfold op_calls.
      generalize (OC d b u u' F1 F2). generalize (op_call d b u u') as acc. revert bs. clear F1 F2 u u'. induction F3 as [|u us U F3 IHu]; intros bs acc A; destruct bs as [|o bs]; try exact A.
      cbn [combine fold_left fst snd]. apply IHu. now apply OC.
Qed.
Lemma ren_off : forall xs t, every (clear xs) t = true -> every (off xs) (ren None t) = true.
Proof.
  intros xs. induction t as [d ts IH] using ntree_ind'. intros H. cbn [every] in H. apply andb_true_iff in H. destruct H as [H1 H2]. cbn [ren every].
  unfold clear, of_, t_kind in H1. cbn [t_data] in H1. apply andb_true_iff in H1. destruct H1 as [H1 H3].
  apply andb_true_iff. split.
  - unfold off, of_, t_kind, t_name. cbn [t_data with_names x_kind x_names]. destruct (is_kind (x_kind d) K_Item) eqn:K; [|reflexivity].
    apply is_kind_iff in K. unfold t_names. rewrite K. assert (E : match ts with [] => x_names d | _ :: _ => x_names d end = x_names d) by now destruct ts.
    rewrite E. cbn [andb] in *. destruct (x_names d) as [|y l]; [reflexivity|]. cbn [existsb] in *. rewrite negb_orb in H1. apply andb_true_iff in H1. rewrite orb_false_r. apply H1.
  - assert (W : word_in d = None).
    { unfold word_in. destruct (x_kind d); try reflexivity. cbn in H3. unfold has_names in H3. now destruct (x_names d). }
    rewrite W, ren_none. clear H1 H3 W. induction IH as [|t ts H IH IHt]; [reflexivity|]. cbn [forallb map] in *. apply andb_true_iff in H2. destruct H2 as [H2 H3]. rewrite (H H2). exact (IHt H3).
Qed.
Lemma avoids_off : forall xs n k b, kind_new n = Some k -> nodes_all (avoids xs) (SNode n b) = true -> every (off xs) (seen (node k b)) = true.
Proof.
  intros xs n k b K H. apply (text_clear xs _ (blank K_Expr None)) in H. rewrite build_node, K in H. cbn [snd forallb] in H. rewrite andb_true_r, builds_forest in H.
  unfold seen. apply ren_off, wo_clear. exact H.
Qed.
