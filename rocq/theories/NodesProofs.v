(** * Rewriting of operators keeps the meaning of the graph. *)
From Coq Require Import String List Bool Arith ZArith Lia Sorting.Sorted.
From Verif Require Import Syntax Float64 TypeModel LifetimeModel PrintModel NodesModel NodesSpec.
Import ListNotations.
Local Open Scope string_scope.
Local Open Scope nat_scope.
Local Open Scope list_scope.
Local Open Scope nodes_scope.

(** ** Lists *)
Lemma set_nth_nth : forall {A} (l : list A) i x j,
  nth_error (set_nth l i x) j = if j =? i then match nth_error l j with Some _ => Some x | None => None end else nth_error l j.
Proof.
  induction l; intros [|i] x [|j]; simpl; auto. destruct (j =? i); auto.
Qed.
Lemma set_nth_len : forall {A} (l : list A) i x, length (set_nth l i x) = length l.
Proof. induction l; intros [|i] x; simpl; auto. Qed.
Lemma upd_nth : forall g i f j, nth_error (upd g i f) j = if j =? i then option_map f (nth_error g j) else nth_error g j.
Proof.
  intros. unfold upd. destruct (nth_error g i) eqn:E.
  - rewrite set_nth_nth. destruct (Nat.eqb_spec j i); auto. subst. rewrite E. reflexivity.
  - destruct (Nat.eqb_spec j i); auto. subst. rewrite E. reflexivity.
Qed.
Lemma upd_len : forall g i f, length (upd g i f) = length g.
Proof. intros. unfold upd. destruct (nth_error g i); auto. apply set_nth_len. Qed.
Lemma upd_same : forall g i f n, nth_error g i = Some n -> nth_error (upd g i f) i = Some (f n).
Proof. intros. rewrite upd_nth, Nat.eqb_refl, H. reflexivity. Qed.
Lemma upd_other : forall g i f j, j <> i -> nth_error (upd g i f) j = nth_error g j.
Proof. intros. rewrite upd_nth. destruct (Nat.eqb_spec j i); congruence. Qed.
Lemma nth_lt : forall {A} (l : list A) i n, nth_error l i = Some n -> i < length l.
Proof. intros. apply nth_error_Some. congruence. Qed.
Lemma nth_ex : forall {A} (l : list A) i, i < length l -> exists n, nth_error l i = Some n.
Proof. intros. destruct (nth_error l i) eqn:E; eauto. apply nth_error_Some in H. contradiction. Qed.
Lemma nth_old : forall {A} (l l' : list A) i n, nth_error l i = Some n -> nth_error (l ++ l') i = Some n.
Proof. intros. rewrite nth_error_app1; auto. eapply nth_lt; eauto. Qed.
Lemma Forall2_len : forall {A B} (R : A -> B -> Prop) l l', Forall2 R l l' -> length l = length l'.
Proof. induction 1; simpl; auto. Qed.
Lemma Forall2_map_l : forall {A B C} (R : B -> C -> Prop) (f : A -> B) l l', Forall2 (fun a c => R (f a) c) l l' -> Forall2 R (map f l) l'.
Proof. induction 1; simpl; auto. Qed.
Lemma Forall2_imp : forall {A B} (R R' : A -> B -> Prop) l l', (forall a b, In a l -> R a b -> R' a b) -> Forall2 R l l' -> Forall2 R' l l'.
Proof.
  intros A B R R' l l' H F. induction F; constructor; [apply H; [now left|auto]|apply IHF].
  intros; apply H; auto; now right.
Qed.
Lemma Forall2_ex : forall {A B} (R : A -> B -> Prop) l, (forall a, In a l -> exists b, R a b) -> exists l', Forall2 R l l'.
Proof.
  induction l; intros H; [exists []; constructor|]. destruct (H a) as [b Hb]; [now left|].
  destruct IHl as [l' Hl]; [intros; apply H; now right|]. exists (b :: l'). now constructor.
Qed.
Lemma is_kind_true : forall a b, is_kind a b = true <-> a = b.
Proof. intros. unfold is_kind. destruct (kind_eq_dec a b); split; congruence. Qed.
Lemma is_kind_false : forall a b, is_kind a b = false <-> a <> b.
Proof. intros. unfold is_kind. destruct (kind_eq_dec a b); split; congruence. Qed.

(** ** The meaning of a graph, with operators or without *)
Inductive means (g : fgraph) : nat -> ntree -> Prop :=
| Means i n ts : nth_error g i = Some n -> Forall2 (means g) (f_children n) ts -> means g i (without_operator (f_data n) ts).

Section Ind.
  Variables (g : fgraph) (Q : nat -> ntree -> Prop).
  Hypothesis H : forall i n ts, nth_error g i = Some n -> Forall2 (means g) (f_children n) ts -> Forall2 Q (f_children n) ts ->
    Q i (without_operator (f_data n) ts).
  Fixpoint means_ind' i t (m : means g i t) : Q i t :=
    match m with
    | Means _ i n ts E F =>
        H i n ts E F ((fix go l ts (F : Forall2 (means g) l ts) : Forall2 Q l ts :=
          match F with Forall2_nil _ => Forall2_nil _ | Forall2_cons _ _ a b => Forall2_cons _ _ (means_ind' _ _ a) (go _ _ b) end) _ _ F)
    end.
End Ind.
Section IndReads.
  Variables (g : fgraph) (Q : nat -> ntree -> Prop).
  Hypothesis H : forall i n ts, nth_error g i = Some n -> Forall2 (reads g) (f_children n) ts -> Forall2 Q (f_children n) ts ->
    Q i (NT (f_data n) ts).
  Fixpoint reads_ind' i t (m : reads g i t) : Q i t :=
    match m with
    | Reads _ i n ts E F =>
        H i n ts E F ((fix go l ts (F : Forall2 (reads g) l ts) : Forall2 Q l ts :=
          match F with Forall2_nil _ => Forall2_nil _ | Forall2_cons _ _ a b => Forall2_cons _ _ (reads_ind' _ _ a) (go _ _ b) end) _ _ F)
    end.
End IndReads.

Lemma reads_means : forall g i t, reads g i t -> means g i (without_operators t).
Proof.
  intros g. apply reads_ind'. intros i n ts E _ F. cbn [without_operators]. apply Means; auto.
  induction F; simpl; auto.
Qed.
(** nodes that stand for themselves *)
Definition plain (d : data) (k : nat) : Prop :=
  (x_binops d = [] \/ k = 0) /\ (k = 1 -> unop_name (x_kind d) = None /\ x_kind d <> K_Add /\ x_kind d <> K_Mul).
Lemma plain_self : forall d ts, plain d (length ts) -> without_operator d ts = NT d ts.
Proof.
  intros d ts [A B]. unfold without_operator. destruct A as [A|A]; [|destruct ts; [destruct (x_binops d); reflexivity|discriminate]]. rewrite A. destruct ts as [|t [|u ts]]; auto.
  destruct (B eq_refl) as (C & D & E). rewrite C. apply is_kind_false in D. apply is_kind_false in E. rewrite D, E. reflexivity.
Qed.
Lemma means_reads : forall g, (forall i n, nth_error g i = Some n -> plain (f_data n) (length (f_children n))) ->
  forall i t, means g i t -> reads g i t.
Proof.
  intros g P. apply means_ind'. intros i n ts E F G. rewrite plain_self; [now constructor|].
  rewrite <- (Forall2_len _ _ _ F). eauto.
Qed.

(** ** One step of rewriting *)
Definition sub (i top j : nat) : nat := if j =? i then top else j.

(** [h] is what becomes of the trees of the children of [i] *)
Lemma means_step : forall g g' i top (h : nat -> ntree -> ntree),
  (forall j n, j <> i -> nth_error g j = Some n -> forall ts, Forall2 (means g) (f_children n) ts ->
     Forall2 (fun c t => means g' (sub i top c) (h c t)) (f_children n) ts -> means g' j (h j (without_operator (f_data n) ts))) ->
  (forall n ts, nth_error g i = Some n -> Forall2 (means g) (f_children n) ts ->
     Forall2 (fun c t => means g' (sub i top c) (h c t)) (f_children n) ts -> means g' top (h i (without_operator (f_data n) ts))) ->
  forall j t, means g j t -> means g' (sub i top j) (h j t).
Proof.
  intros g g' i top h A B. apply (means_ind' g (fun j t => means g' (sub i top j) (h j t))). intros j n ts E F G.
  unfold sub at 1. destruct (Nat.eqb_spec j i) as [-> | N]; [apply B|apply A]; auto.
Qed.
Lemma replace_sub : forall i top l, NoDup l -> replace_first i top l = map (sub i top) l.
Proof.
  induction l as [|x l IH]; intros N; simpl; auto. inversion_clear N. unfold sub at 1. destruct (Nat.eqb_spec x i) as [-> | E].
  - f_equal. rewrite <- (map_id l) at 1. apply map_ext_in. intros y Y. unfold sub. destruct (Nat.eqb_spec y i); congruence.
  - f_equal. auto.
Qed.
Lemma sub_same : forall i top l, ~ In i l -> map (sub i top) l = l.
Proof.
  intros. rewrite <- (map_id l) at 2. apply map_ext_in. intros y Y. unfold sub. destruct (Nat.eqb_spec y i); congruence.
Qed.
Lemma in_sub : forall i top l c, In c (map (sub i top) l) <-> (c <> i /\ In c l) \/ (c = top /\ In i l).
Proof.
  intros. rewrite in_map_iff. unfold sub. split.
  - intros (x & E & X). destruct (Nat.eqb_spec x i); subst; auto.
  - intros [[A B]|[-> B]].
    + exists c. destruct (Nat.eqb_spec c i); intuition.
    + exists i. rewrite Nat.eqb_refl. auto.
Qed.
Lemma nodup_sub : forall i top l, NoDup l -> ~ In top l -> NoDup (map (sub i top) l).
Proof.
  induction l as [|x l IH]; intros N T; simpl; [constructor|]. inversion_clear N. constructor; [|apply IH; auto; intro; apply T; now right].
  rewrite in_sub. unfold sub. destruct (Nat.eqb_spec x i) as [-> | E]; intros [[A B]|[A B]]; auto.
  - apply T. now right.
  - apply T. left. auto.
Qed.

(** What the grammar says, node by node. *)
Record fit (g : fgraph) : Prop := {
  ft_ops : forall i n, nth_error g i = Some n -> (x_binops (f_data n) = [] \/ (f_children n = [] /\ length (x_binops (f_data n)) = 1)) \/
    (length (f_children n) = S (length (x_binops (f_data n))) /\ f_parent n <> None);
  ft_add : forall i n, nth_error g i = Some n -> f_kind n = K_Add \/ f_kind n = K_Mul -> f_children n <> [] -> f_parent n <> None;
  ft_un : forall i n, nth_error g i = Some n -> unop_name (f_kind n) <> None -> x_binops (f_data n) = [] /\
    forall c cn, In c (f_children n) -> nth_error g c = Some cn -> f_kind cn = K_Expr /\ x_binops (f_data cn) = [] }.
Definition finite (g : fgraph) : Prop := forall i, i < length g -> exists t, means g i t.

(** ** Several operators become nested ones *)
Lemma nest_loop_spec : forall i k par g x, nth_error g i = Some x ->
  k + 2 <= length (f_children x) -> k < length (x_binops (f_data x)) ->
  (forall c, In c (f_children x) -> c < length g) -> NoDup (f_children x) ->
  exists g', nest_loop i k par g = NOk (g', match k with 0 => par | S k' => Some (length g + k') end) /\
    length g' = length g + k /\
    (forall j n, nth_error g j = Some n -> exists q, nth_error g' j = Some (with_parent q n) /\
       ((forall m, 2 <= m <= k + 1 -> nth_error (f_children x) m <> Some j) -> q = f_parent n) /\
       (forall m, 2 <= m <= k + 1 -> nth_error (f_children x) m = Some j -> q = Some (length g + (k + 1 - m)))) /\
    (forall m, m < k -> exists b c, nth_error (x_binops (f_data x)) (k - m) = Some b /\ nth_error (f_children x) (k + 1 - m) = Some c /\
       nth_error g' (length g + m) = Some (FNode (with_binops [b] (blank (f_kind x) None))
         (match m with 0 => par | S m' => Some (length g + m') end) [if S m =? k then i else length g + S m; c] None [])).
Proof.
  induction k as [|k IH]; intros par g x E L B C N.
  - exists g. cbn [nest_loop]. repeat split; auto; try lia. intros j n J. exists (f_parent n). destruct n; repeat split; auto. intros; lia.
  - destruct (nth_ex (f_children x) (S (S k))) as [c Hc]; [lia|]. destruct (nth_ex (x_binops (f_data x)) (S k)) as [b Hb]; [lia|].
    assert (c < length g) as Lc by (apply C; eapply nth_error_In; eauto). destruct (nth_ex g c Lc) as [cn Hcn].
    cbn [nest_loop]. unfold at_. rewrite E. cbn [nbind]. rewrite Hc. cbn [nbind]. rewrite Hcn. cbn [nbind]. rewrite Hb. cbn [nbind].
    set (new := FNode _ _ _ _ _). set (g1 := upd g c (with_parent (Some (length g))) ++ [new]).
    assert (length g1 = S (length g)) as L1 by (unfold g1; rewrite app_length, upd_len; simpl; lia).
    assert (exists x1, nth_error g1 i = Some x1 /\ f_children x1 = f_children x /\ f_data x1 = f_data x) as (x1 & E1 & X1 & X2).
    { unfold g1. rewrite nth_error_app1 by (rewrite upd_len; eapply nth_lt; eauto). rewrite upd_nth, E.
      destruct (i =? c); simpl; [exists (with_parent (Some (length g)) x)|exists x]; auto. }
    destruct (IH (Some (length g)) g1 x1 E1) as (g' & R & L' & O & W); rewrite ?X1, ?X2 in *; auto; try lia.
    { intros d D. apply C in D. lia. }
    exists g'. split; [rewrite R; destruct k; do 3 f_equal; lia|split; [|split]].
    + rewrite L', L1. lia.
    + intros j n J. assert (nth_error g1 j = Some (if j =? c then with_parent (Some (length g)) n else n)) as J1.
      { unfold g1. rewrite nth_error_app1 by (rewrite upd_len; eapply nth_lt; eauto). rewrite upd_nth, J. destruct (j =? c); reflexivity. }
      destruct (O _ _ J1) as (q & Q1 & Q2 & Q3). exists q. split; [|split].
      * rewrite Q1. destruct (j =? c); destruct n; reflexivity.
      * intros H. destruct (Nat.eqb_spec j c) as [-> | NE]; [exfalso; apply (H (S (S k))); auto; lia|]. apply Q2. intros m M. apply H. lia.
      * intros m M H. destruct (Nat.eq_dec m (S (S k))) as [-> | NE].
        -- rewrite Hc in H. injection H as ->. rewrite Nat.eqb_refl in Q2. rewrite Q2; [simpl; f_equal; lia|].
           intros m' M' Z. assert (m' = S (S k)); [|lia]. eapply (proj1 (NoDup_nth_error _) N); [apply nth_error_Some; congruence|congruence].
        -- rewrite (Q3 m); auto; [f_equal; lia|lia].
    + intros m M. destruct m as [|m].
      * exists b, c. replace (S k - 0) with (S k) by lia. replace (S k + 1 - 0) with (S (S k)) by lia. repeat split; auto.
        rewrite Nat.add_0_r. assert (nth_error g1 (length g) = Some new) as Z.
        { unfold g1. rewrite nth_error_app2; rewrite upd_len; auto. rewrite Nat.sub_diag. reflexivity. }
        destruct (O _ _ Z) as (q & Q1 & Q2 & _). rewrite Q1, Q2.
        -- unfold new, with_parent. simpl. rewrite Nat.add_1_r. destruct k; reflexivity.
        -- intros m' M' Y. apply nth_error_In in Y. apply C in Y. lia.
      * destruct (W m) as (b' & c' & B1 & B2 & B3); [lia|]. exists b', c'. replace (S k - S m) with (k - m) by lia.
        replace (S k + 1 - S m) with (k + 1 - m) by lia. repeat split; auto. replace (length g + S m) with (length g1 + m) by lia.
        rewrite B3. unfold f_kind. rewrite X2. f_equal. f_equal.
        -- destruct m; f_equal; lia.
        -- rewrite L1. change (S (S m) =? S k) with (S m =? k). destruct (S m =? k); auto. f_equal. lia.
Qed.
Lemma not_own_child : forall g i n t, nth_error g i = Some n -> means g i t -> ~ In i (f_children n).
Proof.
  intros g i n t E M I. revert t M. refine (fun t M => means_ind' g (fun j _ => j = i -> False) _ i t M eq_refl).
  intros j m ts F _ G ->. rewrite E in F. injection F as <-. clear - G I. induction G as [|a b l l' Ha]; [contradiction|].
  destruct I as [-> | I]; auto.
Qed.
Lemma at_some : forall {A} (l : list A) i n, nth_error l i = Some n -> at_ l i = NOk n.
Proof. intros. unfold at_. rewrite H. reflexivity. Qed.

Definition extra (x : fnode) : nat := length (f_children x) - 2.
Lemma nest_at_spec : forall g i x p, tree_ok g -> finite g -> nth_error g i = Some x -> f_parent x = Some p ->
  2 <= length (x_binops (f_data x)) -> length (f_children x) = S (length (x_binops (f_data x))) ->
  exists g', nest_at i g = NOk g' /\ length g' = length g + extra x /\
    nth_error g' i = Some (FNode (with_binops (firstn 1 (x_binops (f_data x))) (f_data x)) (Some (length g + (extra x - 1)))
                                 (firstn 2 (f_children x)) (f_decl x) (f_lts x)) /\
    (forall j n, j <> i -> nth_error g j = Some n -> exists q,
       nth_error g' j = Some (FNode (f_data n) q (map (sub i (length g)) (f_children n)) (f_decl n) (f_lts n)) /\
       (~ In j (skipn 2 (f_children x)) -> q = f_parent n) /\
       (forall m, 2 <= m -> nth_error (f_children x) m = Some j -> q = Some (length g + (extra x + 1 - m)))) /\
    (forall m, m < extra x -> exists b c, nth_error (x_binops (f_data x)) (extra x - m) = Some b /\ nth_error (f_children x) (extra x + 1 - m) = Some c /\
       nth_error g' (length g + m) = Some (FNode (with_binops [b] (blank (f_kind x) None))
         (match m with 0 => f_parent x | S m' => Some (length g + m') end) [if S m =? extra x then i else length g + S m; c] None [])).
Proof.
  intros g i x p T F E P B L. unfold extra.
  destruct (nest_loop_spec i (length (f_children x) - 2) (f_parent x) g x E) as (g1 & R & L1 & O & W); try lia.
  { intros c C. destruct (to_child _ T _ _ _ E C) as (cn & X & _). eapply nth_lt; eauto. }
  { eapply to_nodup; eauto. }
  assert (length (f_children x) - 2 = S (length (f_children x) - 3)) as K by lia.
  unfold nest_at. rewrite (at_some _ _ _ E). cbn [nbind]. destruct (Nat.leb_spec (length (x_binops (f_data x))) 1); [lia|].
  rewrite R. cbn [nbind]. rewrite P. eexists. split; [reflexivity|].
  destruct (F i (nth_lt _ _ _ E)) as [t M]. pose proof (not_own_child _ _ _ _ E M) as NI.
  destruct (to_parent _ T _ _ _ E P) as (pn & Hp & Ip).
  assert (p <> i) as PI. { intros ->. rewrite E in Hp. injection Hp as <-. auto. }
  split; [rewrite !upd_len; auto|split; [|split]].
  - rewrite (upd_nth _ i), Nat.eqb_refl, upd_other by auto. rewrite upd_nth, Nat.eqb_refl. destruct (O _ _ E) as (q & Q & _). rewrite Q, K.
    simpl. rewrite Nat.sub_0_r. reflexivity.
  - intros j n J N. destruct (O _ _ N) as (q & Q1 & Q2 & Q3). exists q. split; [|split].
    + rewrite upd_other by auto. rewrite upd_nth, upd_other, Q1 by auto. destruct (Nat.eqb_spec j p) as [-> | NE].
      * simpl. unfold with_children, with_parent. simpl. rewrite replace_sub; auto. eapply to_nodup; eauto.
      * unfold with_parent. rewrite sub_same; auto. intros C. destruct (to_child _ T _ _ _ N C) as (cn & X & Y). congruence.
    + intros HN. apply Q2. intros m M1 M2. apply HN. clear - M1 M2. destruct m as [|[|m]]; [lia|lia|].
      destruct (f_children x) as [|a [|b l]]; simpl in *; [discriminate|destruct m; discriminate|]. eapply nth_error_In; eauto.
    + intros m M1 M2. apply Q3; auto. apply nth_lt in M2. lia.
  - intros m M1. destruct (W m M1) as (b & c & W1 & W2 & W3). exists b, c. repeat split; auto.
    rewrite !upd_other; auto. 2,3,4: pose proof (nth_lt _ _ _ E); pose proof (nth_lt _ _ _ Hp); lia.
    rewrite W3, P. reflexivity.
Qed.
Lemma firstn_snoc : forall {A} (l : list A) s x, nth_error l s = Some x -> firstn (S s) l = firstn s l ++ [x].
Proof. induction l; intros [|s] x H; simpl in *; try discriminate; [congruence|]. f_equal. rewrite <- IHl; auto. Qed.
Lemma nth_combine : forall {A B} (l : list A) (l' : list B) s a b,
  nth_error l s = Some a -> nth_error l' s = Some b -> nth_error (combine l l') s = Some (a, b).
Proof. induction l; intros [|b' l'] [|s] x y H H'; simpl in *; try discriminate; [congruence|auto]. Qed.
Lemma Forall2_nth : forall {A B} (R : A -> B -> Prop) l l' s a, Forall2 R l l' -> nth_error l s = Some a ->
  exists b, nth_error l' s = Some b /\ R a b.
Proof. intros A B R l l' s a F. revert s. induction F; intros [|s] H'; simpl in *; try discriminate; [injection H' as ->; eauto|eauto]. Qed.
Lemma in_nth : forall {A} (l : list A) x, In x l -> exists m, nth_error l m = Some x.
Proof. intros. apply In_nth_error; auto. Qed.
Lemma in_skipn2 : forall {A} (l : list A) x, In x (skipn 2 l) -> exists m, 2 <= m /\ nth_error l m = Some x.
Proof. intros A [|a [|b l]] x H; simpl in H; try contradiction. apply In_nth_error in H as [m H]. exists (S (S m)). split; [lia|auto]. Qed.
Lemma in_split2 : forall {A} (l : list A) x, In x l -> In x (firstn 2 l) \/ In x (skipn 2 l).
Proof. intros A l x H. rewrite <- (firstn_skipn 2 l) in H. apply in_app_or in H; auto. Qed.
Lemma in_first2 : forall {A} (l : list A) x, In x (firstn 2 l) -> In x l.
Proof. intros A l x H. rewrite <- (firstn_skipn 2 l). apply in_or_app; auto. Qed.
Lemma nodup_split2 : forall {A} (l : list A) x, NoDup l -> In x (firstn 2 l) -> ~ In x (skipn 2 l).
Proof.
  intros A l x N H H'. rewrite <- (firstn_skipn 2 l) in N. remember (firstn 2 l) as a. remember (skipn 2 l) as b. clear - N H H'.
  induction a; simpl in *; [contradiction|]. inversion_clear N. destruct H as [-> | H]; auto. apply H0, in_or_app; auto.
Qed.
Lemma nodup_first2 : forall {A} (l : list A), NoDup l -> NoDup (firstn 2 l).
Proof.
  intros A [|a [|b l]] N; simpl; auto. inversion_clear N. inversion_clear H0. repeat constructor; simpl in *; intuition.
Qed.

(** what holds of the graph between two steps *)
Record good (g : fgraph) : Prop := { gd_tree : tree_ok g; gd_fin : finite g; gd_fit : fit g }.
(** roots keep their meaning *)
Definition roots_kept (g g' : fgraph) : Prop :=
  forall r n t, nth_error g r = Some n -> f_parent n = None -> means g r t ->
    means g' r t /\ exists n', nth_error g' r = Some n' /\ f_parent n' = None.
Lemma roots_refl : forall g, roots_kept g g.
Proof. intros g r n t A B C. eauto. Qed.
Lemma roots_trans : forall a b c, roots_kept a b -> roots_kept b c -> roots_kept a c.
Proof. intros a b c H H' r n t A B C. destruct (H r n t A B C) as (D & n' & E & F). exact (H' r n' t E F D). Qed.

Lemma nest_at_good : forall g i, good g -> i < length g -> exists g', nest_at i g = NOk g' /\ good g' /\ roots_kept g g' /\ length g <= length g' /\
  (forall n, nth_error g' i = Some n -> length (x_binops (f_data n)) <= 1) /\
  (forall j n, length g <= j -> nth_error g' j = Some n -> length (x_binops (f_data n)) <= 1) /\
  (forall j n n', j <> i -> nth_error g j = Some n -> nth_error g' j = Some n' -> f_data n' = f_data n).
Proof.
  intros g i [T F Ft] Li. destruct (nth_ex g i Li) as [x E].
  destruct (le_lt_dec (length (x_binops (f_data x))) 1) as [B|B].
  { exists g. unfold nest_at. rewrite (at_some _ _ _ E). cbn [nbind]. destruct (Nat.leb_spec (length (x_binops (f_data x))) 1); [|lia].
    split; auto. split; [split; auto|]. split; [apply roots_refl|]. split; auto. split; [|split].
    - intros n N. rewrite E in N. injection N as <-. auto.
    - intros j n J N. apply nth_lt in N. lia.
    - congruence. }
  destruct (ft_ops _ Ft _ _ E) as [[Z|[_ Z]]|[L PN]]; [rewrite Z in B; simpl in B; lia|lia|].
  destruct (f_parent x) as [p|] eqn:P; [|congruence].
  destruct (nest_at_spec g i x p T F E P ltac:(lia) L) as (g' & R & L' & N1 & N2 & N3).
  exists g'. split; auto.
  assert (1 <= extra x) as K by (unfold extra; lia).
  destruct (F i Li) as [ti Mi]. pose proof (not_own_child _ _ _ _ E Mi) as NI.
  destruct (to_parent _ T _ _ _ E P) as (pn & Hp & Ip).
  assert (p <> i) as PI. { intros ->. rewrite E in Hp. injection Hp as <-. auto. }
  assert (forall c, In c (f_children x) -> c <> i /\ c < length g) as CH.
  { intros c C. split; [congruence|]. destruct (to_child _ T _ _ _ E C) as (cn & X & _). eapply nth_lt; eauto. }
  (* the chain *)
  assert (forall ts, Forall2 (means g') (f_children x) ts -> exists b bs t1 t2 ts', x_binops (f_data x) = b :: bs /\ ts = t1 :: t2 :: ts' /\
            forall s, s <= extra x -> means g' (match s with 0 => i | _ => length g + (extra x - s) end)
                                            (op_calls (f_data x) b t1 t2 (firstn s (combine bs ts')))) as CHAIN.
  { intros ts FT. pose proof (Forall2_len _ _ _ FT) as LT.
    destruct (x_binops (f_data x)) as [|b bs] eqn:EB; [simpl in B; lia|]. destruct ts as [|t1 [|t2 ts']]; [simpl in *; lia..|].
    exists b, bs, t1, t2, ts'. repeat split; auto. induction s as [|s IH]; intros LS.
    - simpl. unfold op_calls. simpl.
      replace (op_call (f_data x) b t1 t2) with (without_operator (with_binops (firstn 1 (b :: bs)) (f_data x)) [t1; t2]) by reflexivity.
      refine (Means g' i _ _ N1 _). cbn [f_children]. destruct (f_children x) as [|c1 [|c2 cs]]; [inversion FT|inversion FT as [|? ? ? ? ? Z]; inversion Z|].
      inversion FT as [|? ? ? ? F1 Z]; subst. inversion Z; subst. simpl. auto.
    - destruct (N3 (extra x - S s)) as (b' & c & B1 & C1 & W); [lia|].
      replace (extra x - (extra x - S s)) with (S s) in B1 by lia. replace (extra x + 1 - (extra x - S s)) with (S (S s)) in C1 by lia.
      simpl in B1. destruct (Forall2_nth _ _ _ _ _ FT C1) as (t & T1 & T2). simpl in T1.
      rewrite (firstn_snoc _ _ _ (nth_combine _ _ _ _ _ B1 T1)). unfold op_calls. rewrite fold_left_app. simpl fold_left at 1.
      change (fold_left _ _ (op_call (f_data x) b t1 t2)) with (op_calls (f_data x) b t1 t2 (firstn s (combine bs ts'))).
      set (prev := op_calls _ _ _ _ _) in *.
      replace (op_call (blank (x_kind (f_data x)) None) b' prev t)
        with (without_operator (with_binops [b'] (blank (f_kind x) None)) [prev; t]) by reflexivity.
      refine (Means g' _ _ _ W _). cbn [f_children]. constructor; [|constructor; auto].
      assert (means g' (match s with 0 => i | S _ => length g + (extra x - s) end) prev) as PM by (apply IH; lia).
      destruct s as [|s].
      + assert (S (extra x - 1) =? extra x = true) as Z by (apply Nat.eqb_eq; lia). rewrite Z. auto.
      + assert (S (extra x - S (S s)) =? extra x = false) as Z by (apply Nat.eqb_neq; lia). rewrite Z.
        replace (S (extra x - S (S s))) with (extra x - S s) by lia. auto. }
  (* the meaning *)
  assert (forall j t, means g j t -> means g' (sub i (length g) j) t) as MEAN.
  { apply (means_step g g' i (length g) (fun _ t => t)).
    - intros j n J N ts _ G. destruct (N2 _ _ J N) as (q & Q & _). refine (Means g' j _ _ Q _). cbn [f_children]. apply Forall2_map_l. auto.
    - intros n ts N _ G. rewrite E in N. injection N as <-.
      assert (Forall2 (means g') (f_children x) ts) as FT.
      { eapply Forall2_imp; [|exact G]. intros c t C M. destruct (CH _ C). unfold sub in M. destruct (Nat.eqb_spec c i); congruence. }
      destruct (CHAIN _ FT) as (b & bs & t1 & t2 & ts' & EB & ET & CM). specialize (CM (extra x) ltac:(lia)).
      pose proof (Forall2_len _ _ _ FT) as LT. subst ts. rewrite EB in L. simpl in L, LT.
      rewrite firstn_all2 in CM by (rewrite combine_length; unfold extra; lia).
      unfold without_operator. rewrite EB. destruct (extra x) eqn:Ex; [lia|]. rewrite Nat.sub_diag, Nat.add_0_r in CM. auto. }
  assert (finite g') as FIN.
  { intros j J. destruct (Nat.eq_dec j i) as [-> | NE].
    - inversion Mi as [? n ts E' FT]. rewrite E in E'. injection E' as <-.
      assert (Forall2 (means g') (f_children x) ts) as FT'.
      { eapply Forall2_imp; [|exact FT]. intros c t C M. apply MEAN in M. destruct (CH _ C). unfold sub in M. destruct (Nat.eqb_spec c i); congruence. }
      destruct (CHAIN _ FT') as (b & bs & t1 & t2 & ts' & EB & ET & CM). specialize (CM 0 ltac:(lia)). eauto.
    - destruct (le_lt_dec (length g) j) as [GE|LT].
      + inversion Mi as [? n ts E' FT]. rewrite E in E'. injection E' as <-.
        assert (Forall2 (means g') (f_children x) ts) as FT'.
        { eapply Forall2_imp; [|exact FT]. intros c t C M. apply MEAN in M. destruct (CH _ C). unfold sub in M. destruct (Nat.eqb_spec c i); congruence. }
        destruct (CHAIN _ FT') as (b & bs & t1 & t2 & ts' & EB & ET & CM). specialize (CM (extra x - (j - length g)) ltac:(lia)).
        replace (match extra x - (j - length g) with 0 => i | S _ => length g + (extra x - (extra x - (j - length g))) end) with j in CM; eauto.
        destruct (extra x - (j - length g)) eqn:Z; lia.
      + destruct (F j LT) as [t M]. apply MEAN in M. unfold sub in M. destruct (Nat.eqb_spec j i); [contradiction|]. eauto. }
  assert (forall j n q, j <> i -> nth_error g j = Some n -> f_parent n <> None \/ In j (skipn 2 (f_children x)) ->
            nth_error g' j = Some (FNode (f_data n) q (map (sub i (length g)) (f_children n)) (f_decl n) (f_lts n)) -> q <> None) as QN.
  { intros j n q J N H Q. destruct (N2 _ _ J N) as (q' & Q1 & Q2 & Q3). rewrite Q in Q1. injection Q1 as <-.
    destruct (in_dec Nat.eq_dec j (skipn 2 (f_children x))) as [I|I].
    - apply in_skipn2 in I as (m & M1 & M2). rewrite (Q3 _ M1 M2). discriminate.
    - rewrite (Q2 I). destruct H; tauto. }
  assert (forall j n', nth_error g' j = Some n' -> j = i \/
    (exists n q, j <> i /\ nth_error g j = Some n /\ n' = FNode (f_data n) q (map (sub i (length g)) (f_children n)) (f_decl n) (f_lts n) /\
       (~ In j (skipn 2 (f_children x)) -> q = f_parent n) /\
       (forall m, 2 <= m -> nth_error (f_children x) m = Some j -> q = Some (length g + (extra x + 1 - m)))) \/
    (exists m, m < extra x /\ j = length g + m)) as CASES.
  { intros j n' J. destruct (Nat.eq_dec j i) as [-> | NE]; auto. right. destruct (le_lt_dec (length g) j) as [GE|LT].
    - right. exists (j - length g). apply nth_lt in J. lia.
    - left. destruct (nth_ex g j LT) as [n N]. destruct (N2 _ _ NE N) as (q & Q1 & Q2 & Q3). exists n, q. repeat split; auto; congruence. }
  split; [|split; [|split; [lia|split; [|split]]]].
  - split; [split| |split]; auto.
    + (* to_child *)
      intros j n' c J C. destruct (CASES _ _ J) as [-> | [(n & q & J1 & J2 & -> & J3 & J4)|(m & M & ->)]].
      * rewrite N1 in J. injection J as <-. simpl f_children in C. change (In c (firstn 2 (f_children x))) in C.
        pose proof (in_first2 _ _ C) as C'. destruct (CH _ C') as [Z1 Z2]. destruct (to_child _ T _ _ _ E C') as (cn & X & Y).
        destruct (N2 _ _ Z1 X) as (q & Q1 & Q2 & _). eexists. split; [exact Q1|]. simpl. rewrite Q2; auto.
        apply nodup_split2; auto. eapply to_nodup; eauto.
      * simpl in C. apply in_sub in C as [[C1 C2]|[-> C2]].
        -- destruct (to_child _ T _ _ _ J2 C2) as (cn & X & Y). destruct (N2 _ _ C1 X) as (q' & Q1 & Q2 & _). eexists. split; [exact Q1|]. simpl.
           rewrite Q2; auto. intros I. apply in_skipn2 in I as (m & _ & M). apply nth_error_In in M. destruct (to_child _ T _ _ _ E M) as (cn' & X' & Y'). congruence.
        -- destruct (to_child _ T _ _ _ J2 C2) as (cn & X & Y). rewrite E in X. injection X as <-.
           destruct (N3 0) as (b & c & _ & _ & W); [lia|]. rewrite Nat.add_0_r in W. eexists. split; [exact W|]. simpl. congruence.
      * destruct (N3 m M) as (b & c' & B1 & B2 & W). rewrite W in J. injection J as <-. simpl in C. destruct C as [C|[<-|[]]].
        -- change (match extra x with 0 => false | S m' => m =? m' end) with (S m =? extra x) in C.
           destruct (Nat.eqb_spec (S m) (extra x)) as [Z|Z]; subst c.
           ++ eexists. split; [exact N1|]. simpl. f_equal. lia.
           ++ destruct (N3 (S m)) as (b2 & c2 & _ & _ & W2); [lia|]. eexists. split; [exact W2|]. reflexivity.
        -- pose proof (nth_error_In _ _ B2) as I. destruct (CH _ I) as [Z1 Z2]. destruct (to_child _ T _ _ _ E I) as (cn & X & Y).
           destruct (N2 _ _ Z1 X) as (q & Q1 & _ & Q3). eexists. split; [exact Q1|]. simpl. rewrite (Q3 (extra x + 1 - m) ltac:(lia) B2). f_equal. lia.
    + (* to_nodup *)
      intros j n' J. destruct (CASES _ _ J) as [-> | [(n & q & J1 & J2 & -> & _)|(m & M & ->)]].
      * rewrite N1 in J. injection J as <-. apply nodup_first2. eapply to_nodup; eauto.
      * apply nodup_sub; [eapply to_nodup; eauto|]. intros I. destruct (to_child _ T _ _ _ J2 I) as (cn & X & _). apply nth_lt in X. lia.
      * destruct (N3 m M) as (b & c' & B1 & B2 & W). rewrite W in J. injection J as <-. cbn [f_children].
        destruct (CH _ (nth_error_In _ _ B2)). constructor; [|constructor; [intros []|constructor]]. intros [Z|[]].
        revert Z. change (match extra x with 0 => false | S m' => m =? m' end) with (S m =? extra x). destruct (S m =? extra x); intros Z; lia.
    + (* to_parent *)
      intros j n' q' J Q. destruct (CASES _ _ J) as [-> | [(n & q & J1 & J2 & -> & J3 & J4)|(m & M & ->)]].
      * rewrite N1 in J. injection J as <-. simpl in Q. injection Q as <-. destruct (N3 (extra x - 1)) as (b & c & _ & _ & W); [lia|].
        eexists. split; [exact W|]. cbn [f_children]. left.
        assert (S (extra x - 1) =? extra x = true) as Z by (apply Nat.eqb_eq; lia). rewrite Z. auto.
      * simpl in Q. subst q. destruct (in_dec Nat.eq_dec j (skipn 2 (f_children x))) as [I|I].
        -- apply in_skipn2 in I as (m & M1 & M2). specialize (J4 _ M1 M2). injection J4 as ->. pose proof (nth_lt _ _ _ M2) as LM.
           destruct (N3 (extra x + 1 - m)) as (b & c & _ & B2 & W); [unfold extra in *; lia|]. eexists. split; [exact W|]. cbn [f_children].
           right. left. replace (extra x + 1 - (extra x + 1 - m)) with m in B2 by (unfold extra in *; lia). congruence.
        -- specialize (J3 I). destruct (to_parent _ T _ _ _ J2 (eq_sym J3)) as (qn & X & Y). destruct (Nat.eq_dec q' i) as [-> | NE].
           ++ rewrite E in X. injection X as <-. eexists. split; [exact N1|]. cbn [f_children]. destruct (in_split2 _ _ Y); tauto.
           ++ destruct (N2 _ _ NE X) as (q2 & Q2 & _). eexists. split; [exact Q2|]. cbn [f_children]. apply in_sub. left; auto.
      * destruct (N3 m M) as (b & c' & B1 & B2 & W). rewrite W in J. injection J as <-. simpl in Q. destruct m as [|m].
        -- rewrite P in Q. injection Q as <-. destruct (N2 _ _ PI Hp) as (q2 & Q2 & _). eexists. split; [exact Q2|]. cbn [f_children].
           apply in_sub. right. split; auto.
        -- injection Q as <-. destruct (N3 m) as (b2 & c2 & _ & _ & W2); [lia|]. eexists. split; [exact W2|]. cbn [f_children]. left.
           destruct (Nat.eqb_spec (S m) (extra x)); auto; lia.
    + (* ft_ops *)
      intros j n' J. destruct (CASES _ _ J) as [-> | [(n & q & J1 & J2 & -> & J3 & J4)|(m & M & ->)]].
      * rewrite N1 in J. injection J as <-. right. cbn [f_children f_data f_parent]. destruct (x_binops (f_data x)) as [|b bs]; [simpl in B; lia|].
        simpl. split; [|discriminate]. destruct (f_children x) as [|c1 [|c2 cs]]; simpl in *; lia.
      * cbn [f_children f_data f_parent]. rewrite map_length. destruct (ft_ops _ Ft _ _ J2) as [[Z|[Z Z']]|[Z1 Z2]]; [auto|rewrite Z; auto|]. right. split; auto.
        eapply QN; eauto.
      * destruct (N3 m M) as (b & c' & B1 & B2 & W). rewrite W in J. injection J as <-. right. split; auto. simpl. destruct m; congruence.
    + (* ft_add *)
      intros j n' J A C. destruct (CASES _ _ J) as [-> | [(n & q & J1 & J2 & -> & J3 & J4)|(m & M & ->)]].
      * rewrite N1 in J. injection J as <-. discriminate.
      * cbn [f_children f_data f_parent] in *. eapply QN; eauto. left. apply (ft_add _ Ft _ _ J2); auto. intros Z. rewrite Z in C. auto.
      * destruct (N3 m M) as (b & c' & B1 & B2 & W). rewrite W in J. injection J as <-. simpl. destruct m; congruence.
    + (* ft_un *)
      intros j n' J A. destruct (CASES _ _ J) as [-> | [(n & q & J1 & J2 & -> & J3 & J4)|(m & M & ->)]].
      * rewrite N1 in J. injection J as <-. destruct (ft_un _ Ft _ _ E A) as [Z _]. rewrite Z in B. simpl in B. lia.
      * destruct (ft_un _ Ft _ _ J2 A) as [Z1 Z2]. split; auto. intros c cn C CN. cbn [f_children] in C. apply in_sub in C as [[C1 C2]|[-> C2]].
        -- destruct (to_child _ T _ _ _ J2 C2) as (cn0 & X & _). destruct (N2 _ _ C1 X) as (q2 & Q2 & _). rewrite Q2 in CN. injection CN as <-.
           apply (Z2 _ _ C2 X).
        -- destruct (Z2 _ _ C2 E) as [_ Z]. rewrite Z in B. simpl in B. lia.
      * destruct (N3 m M) as (b & c' & B1 & B2 & W). rewrite W in J. injection J as <-. change (f_kind _) with (f_kind x) in A.
        destruct (ft_un _ Ft _ _ E A) as [Z _]. rewrite Z in B. simpl in B. lia.
  - intros r n t N PN' M. assert (r <> i) as NE by congruence. split.
    + apply MEAN in M. unfold sub in M. destruct (Nat.eqb_spec r i); [contradiction|auto].
    + destruct (N2 _ _ NE N) as (q & Q1 & Q2 & _). eexists. split; [exact Q1|]. cbn [f_parent]. rewrite Q2; auto.
      intros I. apply in_skipn2 in I as (m & _ & M'). apply nth_error_In in M'. destruct (to_child _ T _ _ _ E M') as (cn & X & Y). congruence.
  - intros n N. rewrite N1 in N. injection N as <-. cbn [f_data]. destruct (x_binops (f_data x)); simpl; lia.
  - intros j n J N. destruct (CASES _ _ N) as [-> | [(n0 & q & J1 & J2 & _)|(m & M & ->)]]; [lia|apply nth_lt in J2; lia|].
    destruct (N3 m M) as (b & c' & B1 & B2 & W). rewrite W in N. injection N as <-. simpl. lia.
  - intros j n n' J N N'. destruct (N2 _ _ J N) as (q & Q1 & _). rewrite Q1 in N'. injection N' as <-. reflexivity.
Qed.
Lemma nest_good : forall g, good g -> exists g', nest g = NOk g' /\ good g' /\ roots_kept g g' /\ length g <= length g' /\
  forall j n, nth_error g' j = Some n -> length (x_binops (f_data n)) <= 1.
Proof.
  intros g0 G0. unfold nest.
  assert (forall m k g, good g -> k + m = length g0 -> length g0 <= length g ->
    (forall j n, j < k \/ length g0 <= j -> nth_error g j = Some n -> length (x_binops (f_data n)) <= 1) ->
    exists g', each nest_at (seq k m) g = NOk g' /\ good g' /\ roots_kept g g' /\ length g <= length g' /\
      forall j n, nth_error g' j = Some n -> length (x_binops (f_data n)) <= 1) as H.
  { induction m as [|m IH]; intros k g G L L0 D.
    - exists g. simpl. split; auto. split; auto. split; [apply roots_refl|]. split; auto. intros j n N. apply (D j n); auto. lia.
    - destruct (nest_at_good g k G) as (g1 & R & G1 & K1 & L1 & A & B & C); [lia|]. simpl. rewrite R. cbn [nbind].
      destruct (IH (S k) g1) as (g2 & R2 & G2 & K2 & L2 & D2); auto; try lia.
      + intros j n J N. destruct (Nat.eq_dec j k) as [-> | NE]; auto. destruct (le_lt_dec (length g) j) as [X|X]; [eauto|].
        destruct (nth_ex g j X) as [n0 N0]. rewrite (C _ _ _ NE N0 N). apply (D j n0); auto. lia.
      + exists g2. split; auto. split; auto. split; [eapply roots_trans; eauto|]. split; [lia|auto]. }
  destruct (H (length g0) 0 g0 G0) as (g' & X); auto. { intros j n [J|J] N; [lia|apply nth_lt in N; lia]. }
  exists g'. exact X.
Qed.

(** ** Operators become calls *)

(** one step that also keeps the nodes that are done *)
Record step (i : nat) (g g' : fgraph) : Prop := {
  sp_good : good g';
  sp_roots : roots_kept g g';
  sp_len : length g <= length g';
  sp_ops : forall j n, nth_error g' j = Some n -> length (x_binops (f_data n)) <= 1;
  sp_new : forall j n, length g <= j -> nth_error g' j = Some n -> plain (f_data n) (length (f_children n));
  sp_old : forall j n n', j <> i -> nth_error g j = Some n -> nth_error g' j = Some n' ->
    length (f_children n') = length (f_children n) /\ (f_data n' = f_data n \/ f_data n' = with_kind K_CallArg (f_data n)) }.

Lemma rewrite_unop_good : forall g i x c name, good g -> (forall j n, nth_error g j = Some n -> length (x_binops (f_data n)) <= 1) ->
  nth_error g i = Some x -> f_children x = [c] -> unop_name (f_kind x) = Some name ->
  exists g', rewrite_unop i name g = NOk g' /\ step i g g' /\
    forall n, nth_error g' i = Some n -> plain (f_data n) (length (f_children n)) /\ f_kind n = K_Call.
Proof.
  intros g i x c name [T F Ft] O E C U.
  assert (In c (f_children x)) as IC by (rewrite C; now left).
  destruct (to_child _ T _ _ _ E IC) as (cn & Hc & Pc).
  assert (unop_name (f_kind x) <> None) as U' by congruence.
  destruct (ft_un _ Ft _ _ E U') as [B0 CE]. destruct (CE _ _ IC Hc) as [KE BE].
  destruct (F i (nth_lt _ _ _ E)) as [ti Mi]. pose proof (not_own_child _ _ _ _ E Mi) as NI.
  assert (c <> i) as CI by (intros ->; auto).
  destruct (F c (nth_lt _ _ _ Hc)) as [tc Mc]. pose proof (not_own_child _ _ _ _ Hc Mc) as NC.
  unfold rewrite_unop. rewrite (at_some _ _ _ E). cbn [nbind]. rewrite C. cbn [at_ nth_error nbind]. rewrite (at_some _ _ _ Hc). cbn [nbind].
  eexists. split; [reflexivity|]. set (g' := upd (upd g i (with_data (to_call name))) c (with_data (with_kind K_CallArg))).
  assert (nth_error g' i = Some (with_data (to_call name) x)) as N1.
  { unfold g'. rewrite upd_other by auto. apply upd_same; auto. }
  assert (nth_error g' c = Some (with_data (with_kind K_CallArg) cn)) as N2.
  { unfold g'. apply upd_same. rewrite upd_other; auto. }
  assert (forall j, j <> i -> j <> c -> nth_error g' j = nth_error g j) as N3.
  { intros. unfold g'. rewrite !upd_other; auto. }
  assert (length g' = length g) as L by (unfold g'; now rewrite !upd_len).
  assert (forall j n', nth_error g' j = Some n' -> exists n, nth_error g j = Some n /\ f_children n' = f_children n /\ f_parent n' = f_parent n /\
            ((j = i /\ n' = with_data (to_call name) x) \/ (j = c /\ n' = with_data (with_kind K_CallArg) cn) \/ (j <> i /\ j <> c /\ n' = n))) as CASES.
  { intros j n' J. destruct (Nat.eq_dec j i) as [JI|A1]; [subst j; exists x; rewrite N1 in J; injection J as <-; auto 10|].
    destruct (Nat.eq_dec j c) as [JC|A2]; [subst j; exists cn; rewrite N2 in J; injection J as <-; auto 10|].
    rewrite N3 in J by auto. exists n'. auto 10. }
  assert (forall j n, nth_error g j = Some n -> exists n', nth_error g' j = Some n' /\ f_children n' = f_children n /\ f_parent n' = f_parent n) as BACK.
  { intros j n J. destruct (nth_ex g' j) as [n' N']; [rewrite L; eapply nth_lt; eauto|]. destruct (CASES _ _ N') as (n0 & X & Y & Z & _).
    rewrite J in X. injection X as <-. eauto. }
  set (h := fun (j : nat) (t : ntree) => if j =? c then as_argument t else t).
  assert (forall j t, means g j t -> means g' (sub i i j) (h j t)) as MEAN.
  { apply means_step.
    - intros j n J N ts _ G. assert (~ In c (f_children n)) as NCn.
      { intros I. destruct (to_child _ T _ _ _ N I) as (cn' & X & Y). congruence. }
      assert (Forall2 (means g') (f_children n) ts) as G'.
      { eapply Forall2_imp; [|exact G]. intros a t A M. unfold h, sub in M. destruct (Nat.eqb_spec a c); [congruence|]. destruct (Nat.eqb_spec a i); subst; auto. }
      unfold h. destruct (Nat.eqb_spec j c) as [-> | NE].
      + rewrite Hc in N. injection N as <-. assert (without_operator (f_data cn) ts = NT (f_data cn) ts) as W.
        { apply plain_self. split; auto. intros _. change (x_kind (f_data cn)) with (f_kind cn). rewrite KE. repeat split; discriminate. }
        rewrite W. unfold as_argument. simpl. rewrite <- plain_self; [|split; [left; exact BE|intros _; repeat split; discriminate]].
        refine (Means g' c _ _ N2 _). auto.
      + apply (Means g' j n). { rewrite N3; auto. } auto.
    - intros n ts N _ G. rewrite E in N. injection N as <-. rewrite C in G. inversion G as [|? t ? ? M G']. inversion G'. subst.
      unfold h, sub in *. rewrite Nat.eqb_refl in M. destruct (Nat.eqb_spec c i); [congruence|]. destruct (Nat.eqb_spec i c); [congruence|].
      assert (without_operator (f_data x) [t] = without_operator (to_call name (f_data x)) [as_argument t]) as ->.
      { unfold without_operator. rewrite B0. change (x_kind (f_data x)) with (f_kind x). rewrite U. simpl. rewrite B0. reflexivity. }
      refine (Means g' i _ _ N1 _). simpl. rewrite C. auto. }
  split; [split|].
  - split; [split| |split].
    + intros j n' a J A. destruct (CASES _ _ J) as (n & X & Y & Z & _). rewrite Y in A. destruct (to_child _ T _ _ _ X A) as (an & P1 & P2).
      destruct (BACK _ _ P1) as (an' & Q1 & Q2 & Q3). exists an'. split; congruence.
    + intros j n' J. destruct (CASES _ _ J) as (n & X & Y & Z & _). rewrite Y. eapply to_nodup; eauto.
    + intros j n' a J A. destruct (CASES _ _ J) as (n & X & Y & Z & _). rewrite Z in A. destruct (to_parent _ T _ _ _ X A) as (an & P1 & P2).
      destruct (BACK _ _ P1) as (an' & Q1 & Q2 & Q3). exists an'. split; congruence.
    + intros j J. rewrite L in J. destruct (F j J) as [t M]. apply MEAN in M. unfold sub in M. destruct (Nat.eqb_spec j i); subst; eauto.
    + intros j n' J. destruct (CASES _ _ J) as (n & X & Y & Z & W). rewrite Y, Z. destruct (ft_ops _ Ft _ _ X) as [P1|P1].
      * left. destruct W as [[-> ->]|[[-> ->]|[_ [_ ->]]]]; simpl; [rewrite E in X|rewrite Hc in X|]; try (injection X as <-); auto.
      * destruct W as [[-> ->]|[[-> ->]|[_ [_ ->]]]]; simpl; [rewrite E in X|rewrite Hc in X|]; try (injection X as <-); auto.
    + intros j n' J A. destruct (CASES _ _ J) as (n & X & Y & Z & W). rewrite Y, Z.
      destruct W as [[-> ->]|[[-> ->]|[_ [_ ->]]]]; [destruct A as [A|A]; discriminate A..|]. eapply ft_add; eauto.
    + intros j n' J A. destruct (CASES _ _ J) as (n & X & Y & Z & W).
      destruct W as [[-> ->]|[[-> ->]|[W1 [W2 ->]]]]; [exfalso; apply A; reflexivity..|].
      destruct (ft_un _ Ft _ _ X A) as [P1 P2]. split; auto. intros a an A1 A2. destruct (CASES _ _ A2) as (an0 & X' & _ & _ & W).
      specialize (P2 _ _ A1 X'). destruct W as [[-> ->]|[[-> ->]|[_ [_ ->]]]]; auto.
      * rewrite E in X'. injection X' as <-. destruct P2 as [P2 _]. rewrite P2 in U. discriminate.
      * destruct (to_child _ T _ _ _ X A1) as (cn' & P3 & P4). congruence.
  - intros r n t N P M. split.
    + assert (r <> c) by congruence. apply MEAN in M. unfold sub, h in M. destruct (Nat.eqb_spec r c); [contradiction|]. destruct (Nat.eqb_spec r i); subst; auto.
    + destruct (BACK _ _ N) as (n' & P1 & P2 & P3). exists n'. split; congruence.
  - lia.
  - intros j n' J. destruct (CASES _ _ J) as (n & X & Y & Z & W). destruct W as [[-> ->]|[[-> ->]|[_ [_ ->]]]]; simpl; eauto.
  - intros j n J N. apply nth_lt in N. lia.
  - intros j n n' J N N'. destruct (CASES _ _ N') as (n0 & X & Y & Z & W). rewrite N in X. injection X as <-. split; [congruence|].
    destruct W as [[-> ->]|[[-> ->]|[_ [_ ->]]]]; [congruence| |auto]. rewrite Hc in N. injection N as <-. auto.
  - intros n N. rewrite N1 in N. injection N as <-. split; auto. split; [left; exact B0|]. intros _. repeat split; discriminate.
Qed.

Lemma rewrite_binop_good : forall g i x l r b, good g -> (forall j n, nth_error g j = Some n -> length (x_binops (f_data n)) <= 1) ->
  nth_error g i = Some x -> f_children x = [l; r] -> x_binops (f_data x) = [b] ->
  exists g', rewrite_binop i (binop_name b) g = NOk g' /\ step i g g' /\
    forall n, nth_error g' i = Some n -> plain (f_data n) (length (f_children n)) /\ f_kind n = K_Call.
Proof.
  intros g i x l r b [T F Ft] O E C B.
  assert (In l (f_children x)) as IL by (rewrite C; now left). assert (In r (f_children x)) as IR by (rewrite C; right; now left).
  destruct (to_child _ T _ _ _ E IL) as (ln & Hl & Pl). destruct (to_child _ T _ _ _ E IR) as (rn & Hr & Pr).
  destruct (F i (nth_lt _ _ _ E)) as [ti Mi]. pose proof (not_own_child _ _ _ _ E Mi) as NI.
  assert (l <> i) as LI by (intros ->; auto). assert (r <> i) as RI by (intros ->; auto).
  assert (l <> r) as LR. { intros ->. pose proof (to_nodup _ T _ _ E) as N. rewrite C in N. inversion_clear N. apply H. now left. }
  pose proof (nth_lt _ _ _ E) as Li. pose proof (nth_lt _ _ _ Hl) as Ll. pose proof (nth_lt _ _ _ Hr) as Lr.
  unfold rewrite_binop. rewrite (at_some _ _ _ E). cbn [nbind]. rewrite C. cbn [at_ nth_error nbind].
  rewrite (at_some _ _ _ Hl). cbn [nbind]. rewrite (at_some _ _ _ Hr). cbn [nbind].
  eexists. split; [reflexivity|].
  set (d' := with_binops [] (to_call (binop_name b) (f_data x))).
  set (argn := fun c => FNode (blank K_CallArg None) (Some i) [c] None []).
  set (g' := upd (upd (upd (upd g i (with_data (fun d => with_binops [] (to_call (binop_name b) d))) ++ [argn l; argn r]) l (with_parent (Some (length g))))
                     r (with_parent (Some (S (length g))))) i (with_children (fun cs => length g :: S (length g) :: skipn 2 cs))).
  assert (length g' = length g + 2) as L by (unfold g'; rewrite !upd_len, app_length, upd_len; reflexivity).
  assert (nth_error g' i = Some (FNode d' (f_parent x) [length g; S (length g)] (f_decl x) (f_lts x))) as N1.
  { unfold g'. rewrite upd_nth, Nat.eqb_refl, !upd_other by auto. rewrite nth_error_app1 by (rewrite upd_len; auto).
    rewrite (upd_same _ _ _ _ E). clear - C. destruct x; simpl in C; subst; reflexivity. }
  assert (nth_error g' l = Some (with_parent (Some (length g)) ln)) as N2.
  { unfold g'. rewrite !(upd_other _ _ _ l) by auto. apply upd_same. rewrite nth_error_app1 by (rewrite upd_len; auto). rewrite upd_other; auto. }
  assert (nth_error g' r = Some (with_parent (Some (S (length g))) rn)) as N3.
  { unfold g'. rewrite upd_other by auto. apply upd_same. rewrite upd_other by auto. rewrite nth_error_app1 by (rewrite upd_len; auto). rewrite upd_other; auto. }
  assert (nth_error g' (length g) = Some (argn l)) as N4.
  { unfold g'. rewrite !upd_other by lia. rewrite nth_error_app2 by (rewrite upd_len; lia). rewrite upd_len, Nat.sub_diag. reflexivity. }
  assert (nth_error g' (S (length g)) = Some (argn r)) as N5.
  { unfold g'. rewrite !upd_other by lia. rewrite nth_error_app2 by (rewrite upd_len; lia). rewrite upd_len.
    replace (S (length g) - length g) with 1 by lia. reflexivity. }
  assert (forall j, j < length g -> j <> i -> j <> l -> j <> r -> nth_error g' j = nth_error g j) as N6.
  { intros j J A1 A2 A3. unfold g'. rewrite !upd_other by auto. rewrite nth_error_app1 by (rewrite upd_len; auto). rewrite upd_other; auto. }
  change (step i g g' /\ forall n, nth_error g' i = Some n -> plain (f_data n) (length (f_children n)) /\ f_kind n = K_Call).
  clearbody g'.
  assert (forall j n', nth_error g' j = Some n' -> 
     (j = i /\ n' = FNode d' (f_parent x) [length g; S (length g)] (f_decl x) (f_lts x)) \/
     (j = length g /\ n' = argn l) \/ (j = S (length g) /\ n' = argn r) \/
     (j < length g /\ j <> i /\ exists n q, nth_error g j = Some n /\ n' = with_parent q n /\
        ((j = l /\ q = Some (length g)) \/ (j = r /\ q = Some (S (length g))) \/ (j <> l /\ j <> r /\ q = f_parent n)))) as CASES.
  { intros j n' J. destruct (Nat.eq_dec j i) as [A1|A1]; [subst j; rewrite N1 in J; injection J as <-; auto|].
    destruct (Nat.eq_dec j (length g)) as [A2|A2]; [subst j; rewrite N4 in J; injection J as <-; auto|].
    destruct (Nat.eq_dec j (S (length g))) as [A3|A3]; [subst j; rewrite N5 in J; injection J as <-; auto|].
    pose proof (nth_lt _ _ _ J). right; right; right. split; [lia|split; auto].
    destruct (Nat.eq_dec j l) as [A4|A4]; [subst j; rewrite N2 in J; injection J as <-; eauto 8|].
    destruct (Nat.eq_dec j r) as [A5|A5]; [subst j; rewrite N3 in J; injection J as <-; eauto 9|].
    rewrite N6 in J by (auto; lia). exists n', (f_parent n'). destruct n'; auto 9. }
  assert (forall j n, j <> i -> nth_error g j = Some n -> exists q, nth_error g' j = Some (with_parent q n) /\
      ((j = l /\ q = Some (length g)) \/ (j = r /\ q = Some (S (length g))) \/ (j <> l /\ j <> r /\ q = f_parent n))) as BACK.
  { intros j n J N. destruct (nth_ex g' j) as [n' N']; [apply nth_lt in N; lia|].
    destruct (CASES _ _ N') as [[A _]|[[A _]|[[A _]|(_ & _ & n0 & q & A1 & A2 & A3)]]]; [contradiction|apply nth_lt in N; lia..|].
    rewrite N in A1. injection A1 as <-. subst n'. eauto. }
  assert (forall j t, means g j t -> means g' (sub i i j) t) as MEAN.
  { apply (means_step g g' i i (fun _ t => t)).
    - intros j n J N ts _ G. destruct (BACK _ _ J N) as (q & Q & _). refine (Means g' j _ _ Q _). simpl.
      eapply Forall2_imp; [|exact G]. intros a t _ M. unfold sub in M. destruct (Nat.eqb_spec a i); subst; auto.
    - intros n ts N _ G. rewrite E in N. injection N as <-. rewrite C in G. inversion G as [|? tl ? ? ML G']. subst. inversion G' as [|? tr ? ? MR G'']. subst. inversion G''. subst.
      unfold sub in ML, MR. destruct (Nat.eqb_spec l i); [contradiction|]. destruct (Nat.eqb_spec r i); [contradiction|].
      assert (without_operator (f_data x) [tl; tr] = without_operator d' [argument tl; argument tr]) as ->.
      { unfold without_operator. rewrite B. reflexivity. }
      refine (Means g' i _ _ N1 _). simpl. constructor; [|constructor; [|constructor]].
      + exact (Means g' _ _ [tl] N4 (Forall2_cons _ _ ML (Forall2_nil _))).
      + exact (Means g' _ _ [tr] N5 (Forall2_cons _ _ MR (Forall2_nil _))). }
  assert (plain d' 2) as PL by (split; [left; reflexivity|discriminate]).
  split; [split|].
  - split; [split| |split].
    + intros j n' a J A. destruct (CASES _ _ J) as [[-> ->]|[[-> ->]|[[-> ->]|(_ & JI & n & q & A1 & -> & A3)]]]; simpl in A.
      * destruct A as [<-|[<-|[]]]; eauto.
      * destruct A as [<-|[]]; eauto.
      * destruct A as [<-|[]]; eauto.
      * destruct (to_child _ T _ _ _ A1 A) as (an & P1 & P2). destruct (Nat.eq_dec a i) as [-> | AI].
        { eexists. split; [exact N1|]. simpl. congruence. }
        destruct (BACK _ _ AI P1) as (q' & Q1 & Q2). eexists. split; [exact Q1|]. simpl.
        destruct Q2 as [[-> _]|[[-> _]|[_ [_ ->]]]]; auto; congruence.
    + intros j n' J. destruct (CASES _ _ J) as [[-> ->]|[[-> ->]|[[-> ->]|(_ & JI & n & q & A1 & -> & A3)]]]; simpl.
      * repeat constructor; simpl; intuition lia.
      * repeat constructor; simpl; intuition.
      * repeat constructor; simpl; intuition.
      * eapply to_nodup; eauto.
    + intros j n' a J A. destruct (CASES _ _ J) as [[-> ->]|[[-> ->]|[[-> ->]|(_ & JI & n & q & A1 & -> & A3)]]]; simpl in A.
      * destruct (to_parent _ T _ _ _ E A) as (an & P1 & P2). assert (a <> i). { intros ->. rewrite E in P1. injection P1 as <-. auto. }
        destruct (BACK _ _ H P1) as (q' & Q1 & _). eexists. split; [exact Q1|]. auto.
      * injection A as <-. eexists. split; [exact N1|]. now left.
      * injection A as <-. eexists. split; [exact N1|]. right; now left.
      * subst q. destruct A3 as [[-> Q]|[[-> Q]|[JL [JR Q]]]].
        -- injection Q as ->. eexists. split; [exact N4|]. now left.
        -- injection Q as ->. eexists. split; [exact N5|]. now left.
        -- destruct (to_parent _ T _ _ _ A1 (eq_sym Q)) as (an & P1 & P2). destruct (Nat.eq_dec a i) as [-> | AI].
           ++ rewrite E in P1. injection P1 as <-. rewrite C in P2. destruct P2 as [P2|[P2|[]]]; congruence.
           ++ destruct (BACK _ _ AI P1) as (q' & Q1 & _). eexists. split; [exact Q1|]. auto.
    + intros j J. destruct (le_lt_dec (length g) j) as [GE|LT].
      * inversion Mi as [? n ts E' FT]. rewrite E in E'. injection E' as <-. rewrite C in FT. inversion FT as [|? tl ? ? ML G']. subst. inversion G' as [|? tr ? ? MR G'']. subst.
        apply MEAN in ML, MR. unfold sub in ML, MR. destruct (Nat.eqb_spec l i); [contradiction|]. destruct (Nat.eqb_spec r i); [contradiction|].
        assert (j = length g \/ j = S (length g)) as [-> | ->] by lia; eexists.
        -- exact (Means g' _ _ [tl] N4 (Forall2_cons _ _ ML (Forall2_nil _))).
        -- exact (Means g' _ _ [tr] N5 (Forall2_cons _ _ MR (Forall2_nil _))).
      * destruct (F j LT) as [t M]. apply MEAN in M. unfold sub in M. destruct (Nat.eqb_spec j i); subst; eauto.
    + intros j n' J. destruct (CASES _ _ J) as [[-> ->]|[[-> ->]|[[-> ->]|(_ & JI & n & q & A1 & -> & A3)]]]; simpl; auto.
      destruct (ft_ops _ Ft _ _ A1) as [P|[P1 P2]]; auto. right. split; auto. destruct A3 as [[_ ->]|[[_ ->]|[_ [_ ->]]]]; auto; discriminate.
    + intros j n' J. destruct (CASES _ _ J) as [[-> ->]|[[-> ->]|[[-> ->]|(_ & JI & n & q & A1 & -> & A3)]]]; intros A A0; try (destruct A as [A|A]; discriminate A).
      simpl in *. destruct A3 as [[_ ->]|[[_ ->]|[_ [_ ->]]]]; try discriminate. eapply ft_add; eauto.
    + intros j n' J A. destruct (CASES _ _ J) as [[-> ->]|[[-> ->]|[[-> ->]|(_ & JI & n & q & A1 & -> & A3)]]]; [exfalso; apply A; reflexivity..|].
      destruct (ft_un _ Ft _ _ A1 A) as [P1 P2]. split; auto. intros a an X1 X2. simpl in X1.
      destruct (to_child _ T _ _ _ A1 X1) as (an0 & Y1 & Y2). specialize (P2 _ _ X1 Y1).
      destruct (Nat.eq_dec a i) as [-> | AI]; [rewrite E in Y1; injection Y1 as <-; rewrite B in P2; destruct P2; discriminate|].
      destruct (BACK _ _ AI Y1) as (q' & Q1 & _). rewrite Q1 in X2. injection X2 as <-. auto.
  - intros z n t N P M. split.
    + apply MEAN in M. unfold sub in M. destruct (Nat.eqb_spec z i); subst; auto.
    + destruct (Nat.eq_dec z i) as [-> | ZI].
      * rewrite E in N. injection N as <-. eexists. split; [exact N1|]. auto.
      * destruct (BACK _ _ ZI N) as (q & Q1 & Q2). eexists. split; [exact Q1|]. simpl. destruct Q2 as [[-> _]|[[-> _]|[_ [_ ->]]]]; congruence.
  - lia.
  - intros j n' J. destruct (CASES _ _ J) as [[-> ->]|[[-> ->]|[[-> ->]|(_ & JI & n & q & A1 & -> & A3)]]]; simpl; auto. eauto.
  - intros j n' J N. destruct (CASES _ _ N) as [[-> ->]|[[-> ->]|[[-> ->]|(LT & _)]]]; try lia; (split; [left; reflexivity|intros _; repeat split; discriminate]).
  - intros j n n' J N N'. destruct (BACK _ _ J N) as (q & Q1 & _). rewrite Q1 in N'. injection N' as <-. auto.
  - intros n N. rewrite N1 in N. injection N as <-. auto.
Qed.

Lemma not_grandchild : forall g i n t, nth_error g i = Some n -> means g i t -> forall c cn, In c (f_children n) -> nth_error g c = Some cn -> ~ In i (f_children cn).
Proof.
  intros g i n t E M c cn I1 I2 I3.
  refine (means_ind' g (fun j _ => j = i \/ j = c -> False) _ i t M (or_introl eq_refl)).
  intros j m ts F _ G J. assert (In i (f_children m) \/ In c (f_children m)) as K.
  { destruct J as [-> | ->]; [rewrite E in F|rewrite I2 in F]; injection F as <-; auto. }
  clear - G K. induction G as [|a b l l' Ha]; [destruct K; contradiction|]. destruct K as [[-> | K]|[-> | K]]; auto.
Qed.

Lemma simplify_good : forall g i x c, good g -> (forall j n, nth_error g j = Some n -> length (x_binops (f_data n)) <= 1) ->
  nth_error g i = Some x -> f_children x = [c] -> f_kind x = K_Add \/ f_kind x = K_Mul ->
  exists g', simplify i g = NOk g' /\ step i g g' /\ forall n, nth_error g' i = Some n -> plain (f_data n) (length (f_children n)).
Proof.
  intros g i x c [T F Ft] O E C A.
  assert (In c (f_children x)) as IC by (rewrite C; now left). destruct (to_child _ T _ _ _ E IC) as (cn & Hc & Pc).
  assert (x_binops (f_data x) = []) as B0.
  { destruct (ft_ops _ Ft _ _ E) as [[Z|[Z _]]|[Z _]]; [auto|congruence|]. rewrite C in Z. simpl in Z. destruct (x_binops (f_data x)); [auto|simpl in Z; lia]. }
  destruct (f_parent x) as [p|] eqn:P; [|exfalso; apply (ft_add _ Ft _ _ E A); [rewrite C; discriminate|auto]].
  destruct (F i (nth_lt _ _ _ E)) as [ti Mi]. pose proof (not_own_child _ _ _ _ E Mi) as NI.
  assert (c <> i) as CI by (intros ->; auto).
  destruct (to_parent _ T _ _ _ E P) as (pn & Hp & Ip).
  assert (p <> i) as PI. { intros ->. rewrite E in Hp. injection Hp as <-. auto. }
  assert (c <> p) as CP. { intros ->. rewrite Hc in Hp. injection Hp as ->. exact (not_grandchild _ _ _ _ E Mi _ _ IC Hc Ip). }
  unfold simplify. rewrite (at_some _ _ _ E). cbn [nbind]. rewrite P, C. cbn [at_ nth_error nbind].
  rewrite (at_some _ _ _ Hc). cbn [nbind]. rewrite (at_some _ _ _ Hp). cbn [nbind].
  eexists. split; [reflexivity|].
  set (g' := upd (upd (upd g c (with_parent (Some p))) p (with_children (map (fun y => if y =? i then c else y)))) i
                 (fun n => with_parent None (with_children (fun _ => []) n))).
  assert (length g' = length g) as L by (unfold g'; now rewrite !upd_len).
  assert (nth_error g' i = Some (FNode (f_data x) None [] (f_decl x) (f_lts x))) as N1.
  { unfold g'. rewrite upd_nth, Nat.eqb_refl, !upd_other, E by auto. reflexivity. }
  assert (forall j n, j <> i -> nth_error g j = Some n -> nth_error g' j = Some (FNode (f_data n) (if j =? c then Some p else f_parent n)
            (map (sub i c) (f_children n)) (f_decl n) (f_lts n))) as BACK.
  { intros j n J N. unfold g'. rewrite upd_other by auto. rewrite !upd_nth, N. destruct (Nat.eqb_spec j p) as [-> | NP].
    - destruct (Nat.eqb_spec p c); [congruence|]. reflexivity.
    - rewrite (sub_same i c (f_children n)). { destruct (Nat.eqb_spec j c); destruct n; reflexivity. }
      intros I. destruct (to_child _ T _ _ _ N I) as (xn & X & Y). congruence. }
  clearbody g'.
  assert (forall j n', nth_error g' j = Some n' -> (j = i /\ n' = FNode (f_data x) None [] (f_decl x) (f_lts x)) \/
     (j <> i /\ exists n, nth_error g j = Some n /\ n' = FNode (f_data n) (if j =? c then Some p else f_parent n)
            (map (sub i c) (f_children n)) (f_decl n) (f_lts n))) as CASES.
  { intros j n' J. destruct (Nat.eq_dec j i) as [A1|A1]; [subst j; rewrite N1 in J; injection J as <-; auto|]. right. split; auto.
    destruct (nth_ex g j) as [n N]; [apply nth_lt in J; lia|]. exists n. split; auto. rewrite (BACK _ _ A1 N) in J. congruence. }
  assert (forall j t, means g j t -> means g' (sub i c j) t) as MEAN.
  { apply (means_step g g' i c (fun _ t => t)).
    - intros j n J N ts _ G. refine (Means g' j _ _ (BACK _ _ J N) _). simpl. apply Forall2_map_l. auto.
    - intros n ts N _ G. rewrite E in N. injection N as <-. rewrite C in G. inversion G as [|? t ? ? M G']. inversion G'. subst.
      unfold sub in M. destruct (Nat.eqb_spec c i); [contradiction|].
      assert (without_operator (f_data x) [t] = t) as ->; auto. unfold without_operator. rewrite B0. change (x_kind (f_data x)) with (f_kind x).
      destruct A as [-> | ->]; reflexivity. }
  split; [split|].
  - split; [split| |split].
    + intros j n' a J X. destruct (CASES _ _ J) as [[-> ->]|(JI & n & N & ->)]; simpl in X; [contradiction|].
      apply in_sub in X as [[X1 X2]|[-> X2]].
      * destruct (to_child _ T _ _ _ N X2) as (an & P1 & P2). eexists. split; [exact (BACK _ _ X1 P1)|]. simpl. destruct (Nat.eqb_spec a c); congruence.
      * destruct (to_child _ T _ _ _ N X2) as (an & P1 & P2). eexists. split; [exact (BACK _ _ CI Hc)|]. simpl. rewrite Nat.eqb_refl. congruence.
    + intros j n' J. destruct (CASES _ _ J) as [[-> ->]|(JI & n & N & ->)]; simpl; [constructor|]. 
      apply nodup_sub; [eapply to_nodup; eauto|]. intros I. destruct (to_child _ T _ _ _ N I) as (an & P1 & P2). congruence.
    + intros j n' a J X. destruct (CASES _ _ J) as [[-> ->]|(JI & n & N & ->)]; simpl in X; [discriminate|].
      destruct (Nat.eqb_spec j c) as [-> | JC].
      * injection X as <-. eexists. split; [exact (BACK _ _ PI Hp)|]. simpl. apply in_sub. right; auto.
      * destruct (to_parent _ T _ _ _ N X) as (an & P1 & P2). assert (a <> i). { intros ->. rewrite E in P1. injection P1 as <-. rewrite C in P2. destruct P2 as [P2|[]]; congruence. }
        eexists. split; [exact (BACK _ _ H P1)|]. simpl. apply in_sub. left; auto.
    + intros j J. rewrite L in J. destruct (Nat.eq_dec j i) as [-> | JI]; [eexists; exact (Means g' i _ [] N1 (Forall2_nil _))|].
      destruct (F j J) as [t M]. apply MEAN in M. unfold sub in M. destruct (Nat.eqb_spec j i); [contradiction|]. eauto.
    + intros j n' J. destruct (CASES _ _ J) as [[-> ->]|(JI & n & N & ->)]; simpl; auto. rewrite map_length.
      destruct (ft_ops _ Ft _ _ N) as [[Z|[Z Z']]|[Z1 Z2]]; [auto|rewrite Z; auto|]. right. split; auto. destruct (j =? c); [discriminate|auto].
    + intros j n' J K D. destruct (CASES _ _ J) as [[-> ->]|(JI & n & N & ->)]; simpl in *; [congruence|].
      destruct (j =? c); [discriminate|]. apply (ft_add _ Ft _ _ N); auto. intros Z. rewrite Z in D. auto.
    + intros j n' J U. destruct (CASES _ _ J) as [[-> ->]|(JI & n & N & ->)].
      * exfalso. change (unop_name (f_kind x) <> None) in U. destruct A as [A|A]; rewrite A in U; apply U; reflexivity.
      * destruct (ft_un _ Ft _ _ N U) as [P1 P2]. split; auto. intros a an X1 X2. simpl in X1. apply in_sub in X1 as [[X1 X3]|[-> X3]].
        -- destruct (to_child _ T _ _ _ N X3) as (an0 & Y1 & Y2). rewrite (BACK _ _ X1 Y1) in X2. injection X2 as <-. exact (P2 _ _ X3 Y1).
        -- destruct (P2 _ _ X3 E) as [P3 _]. destruct A; congruence.
  - intros z n t N Z M. assert (z <> i) as ZI by congruence. assert (z <> c) as ZC by congruence. split.
    + apply MEAN in M. unfold sub in M. destruct (Nat.eqb_spec z i); [contradiction|auto].
    + eexists. split; [exact (BACK _ _ ZI N)|]. simpl. destruct (Nat.eqb_spec z c); [contradiction|auto].
  - lia.
  - intros j n' J. destruct (CASES _ _ J) as [[-> ->]|(JI & n & N & ->)]; simpl; eauto.
  - intros j n J N. apply nth_lt in N. lia.
  - intros j n n' J N N'. rewrite (BACK _ _ J N) in N'. injection N' as <-. simpl. rewrite map_length. auto.
  - intros n N. rewrite N1 in N. injection N as <-. split; auto. discriminate.
Qed.

Definition plain_node (n : fnode) : Prop := plain (f_data n) (length (f_children n)).
Lemma plain_kept : forall n n', plain_node n -> length (f_children n') = length (f_children n) ->
  f_data n' = f_data n \/ f_data n' = with_kind K_CallArg (f_data n) -> plain_node n'.
Proof.
  unfold plain_node. intros n n' [A B] -> [-> | ->]; split; auto. intros _. simpl. repeat split; discriminate.
Qed.

Lemma sugar_at_good : forall g i, good g -> (forall j n, nth_error g j = Some n -> length (x_binops (f_data n)) <= 1) -> i < length g ->
  exists g', sugar_at i g = NOk g' /\ good g' /\ roots_kept g g' /\ length g <= length g' /\
    (forall j n, nth_error g' j = Some n -> length (x_binops (f_data n)) <= 1) /\
    (forall n, nth_error g' i = Some n -> plain_node n) /\
    (forall j n, length g <= j -> nth_error g' j = Some n -> plain_node n) /\
    (forall j n n', j <> i -> nth_error g j = Some n -> plain_node n -> nth_error g' j = Some n' -> plain_node n').
Proof.
  intros g i G O L. destruct (nth_ex _ _ L) as [x E].
  assert (forall g', sugar_at i g = NOk g' -> step i g g' -> (forall n, nth_error g' i = Some n -> plain_node n) ->
    exists g', sugar_at i g = NOk g' /\ good g' /\ roots_kept g g' /\ length g <= length g' /\
    (forall j n, nth_error g' j = Some n -> length (x_binops (f_data n)) <= 1) /\
    (forall n, nth_error g' i = Some n -> plain_node n) /\
    (forall j n, length g <= j -> nth_error g' j = Some n -> plain_node n) /\
    (forall j n n', j <> i -> nth_error g j = Some n -> plain_node n -> nth_error g' j = Some n' -> plain_node n')) as FIN.
  { intros g' R [S1 S2 S3 S4 S5 S6] Q. exists g'. do 7 (split; auto). intros j n n' J N P N'. destruct (S6 _ _ _ J N N'). eapply plain_kept; eauto. }
  assert (sugar_at i g = NOk g -> plain_node x -> exists g', sugar_at i g = NOk g' /\ good g' /\ roots_kept g g' /\ length g <= length g' /\
    (forall j n, nth_error g' j = Some n -> length (x_binops (f_data n)) <= 1) /\
    (forall n, nth_error g' i = Some n -> plain_node n) /\
    (forall j n, length g <= j -> nth_error g' j = Some n -> plain_node n) /\
    (forall j n n', j <> i -> nth_error g j = Some n -> plain_node n -> nth_error g' j = Some n' -> plain_node n')) as SAME.
  { intros R P. exists g. do 2 (split; auto). split; [apply roots_refl|]. split; auto. split; auto. split; [congruence|].
    split; [intros j n J N; apply nth_lt in N; lia|congruence]. }
  pose proof (ft_ops _ (gd_fit _ G) _ _ E) as OPS. pose proof (O _ _ E) as O1.
  unfold sugar_at in *. rewrite (at_some _ _ _ E) in *. cbn [nbind] in *.
  destruct (f_children x) as [|c [|d l]] eqn:C.
  - cbn [nbind] in *. rewrite (at_some _ _ _ E) in *. cbn [nbind] in *. rewrite C in *. apply SAME; auto. split; [|rewrite C; discriminate].
    rewrite C. auto.
  - assert (x_binops (f_data x) = []) as B0. { destruct OPS as [[OPS|[OPS _]]|[OPS _]]; [auto|discriminate|]. destruct (x_binops (f_data x)); [auto|discriminate OPS]. }
    rewrite B0 in *. destruct (unop_name (f_kind x)) as [name|] eqn:U.
    + destruct (rewrite_unop_good g i x c name G O E C U) as (g1 & R1 & S1 & P1). rewrite R1 in *. cbn [nbind] in *.
      destruct (nth_ex g1 i) as [n1 N1]; [pose proof (sp_len _ _ _ S1); lia|]. destruct (P1 _ N1) as [P2 P3].
      apply (FIN g1); auto; [|intros n N; now apply P1]. rewrite (at_some _ _ _ N1). cbn [nbind]. rewrite P3. cbn. destruct (f_children n1) as [|? [|? ?]]; auto.
    + cbn [nbind] in *. rewrite (at_some _ _ _ E) in *. cbn [nbind] in *. rewrite C in *.
      destruct (is_kind (f_kind x) K_Add || is_kind (f_kind x) K_Mul) eqn:K.
      * apply orb_prop in K. rewrite !is_kind_true in K. destruct (simplify_good g i x c G O E C K) as (g1 & R1 & S1 & P1). apply (FIN g1); auto.
      * apply SAME; auto. apply orb_false_elim in K. rewrite !is_kind_false in K. split; auto.
  - assert ((x_binops (f_data x) = [] \/ exists b, x_binops (f_data x) = [b] /\ l = [])) as [B0|(b & B0 & ->)].
    { destruct OPS as [[OPS|[OPS _]]|[OPS _]]; [auto|discriminate|]. right. destruct (x_binops (f_data x)) as [|b [|? ?]]; simpl in OPS, O1; try lia. exists b. destruct l; [auto|discriminate OPS]. }
    + rewrite B0 in *. assert (match l with [] => NOk g | _ => NOk g end = NOk g) as X by (destruct l; auto). rewrite X in *. cbn [nbind] in *.
      rewrite (at_some _ _ _ E) in *. cbn [nbind] in *. rewrite C in *. apply SAME; auto. split; auto. rewrite C. discriminate.
    + rewrite B0 in *. destruct (rewrite_binop_good g i x c d b G O E C B0) as (g1 & R1 & S1 & P1). rewrite R1 in *. cbn [nbind] in *.
      destruct (nth_ex g1 i) as [n1 N1]; [pose proof (sp_len _ _ _ S1); lia|]. destruct (P1 _ N1) as [P2 P3].
      apply (FIN g1); auto; [|intros n N; now apply P1]. rewrite (at_some _ _ _ N1). cbn [nbind]. rewrite P3. cbn. destruct (f_children n1) as [|? [|? ?]]; auto.
Qed.

Lemma sugar_good : forall g, good g -> (forall j n, nth_error g j = Some n -> length (x_binops (f_data n)) <= 1) ->
  exists g', sugar g = NOk g' /\ good g' /\ roots_kept g g' /\ length g <= length g' /\ forall j n, nth_error g' j = Some n -> plain_node n.
Proof.
  intros g0 G0 O0. unfold sugar.
  assert (forall m k g, good g -> (forall j n, nth_error g j = Some n -> length (x_binops (f_data n)) <= 1) -> k + m = length g0 -> length g0 <= length g ->
    (forall j n, j < k \/ length g0 <= j -> nth_error g j = Some n -> plain_node n) ->
    exists g', each sugar_at (seq k m) g = NOk g' /\ good g' /\ roots_kept g g' /\ length g <= length g' /\ forall j n, nth_error g' j = Some n -> plain_node n) as H.
  { induction m as [|m IH]; intros k g G O L L0 D.
    - exists g. simpl. split; auto. split; auto. split; [apply roots_refl|]. split; auto. intros j n N. apply (D j n); auto. lia.
    - destruct (sugar_at_good g k G O) as (g1 & R & G1 & K1 & L1 & O1 & A & B & C); [lia|]. simpl. rewrite R. cbn [nbind].
      destruct (IH (S k) g1) as (g2 & R2 & G2 & K2 & L2 & D2); auto; try lia.
      + intros j n J N. destruct (Nat.eq_dec j k) as [-> | NE]; auto. destruct (le_lt_dec (length g) j) as [X|X]; [eauto|].
        destruct (nth_ex _ _ X) as [n0 N0]. apply (C j n0 n); auto. apply (D j n0); auto. lia.
      + exists g2. split; auto. split; auto. split; [eapply roots_trans; eauto|]. split; [lia|auto]. }
  apply (H (length g0) 0 g0); auto. intros j n [J|J] N; [lia|]. apply nth_lt in N. lia.
Qed.

(** The two passes: every tree of the graph becomes the tree without operators. *)
Lemma operators_good : forall g, good g -> exists g1 g2, nest g = NOk g1 /\ sugar g1 = NOk g2 /\ tree_ok g2 /\ length g <= length g2 /\
  (forall i n, nth_error g2 i = Some n -> exists t, reads g2 i t) /\
  (forall j n, nth_error g2 j = Some n -> plain_node n) /\
  forall r n t, nth_error g r = Some n -> f_parent n = None -> reads g r t ->
    reads g2 r (without_operators t) /\ exists n', nth_error g2 r = Some n' /\ f_parent n' = None.
Proof.
  intros g G. destruct (nest_good g G) as (g1 & R1 & G1 & K1 & L1 & O1). destruct (sugar_good g1 G1 O1) as (g2 & R2 & G2 & K2 & L2 & P2).
  exists g1, g2. split; auto. split; auto. split; [apply gd_tree; auto|]. split; [lia|]. split; [|split; auto].
  - intros i n N. destruct (gd_fin _ G2 i (nth_lt _ _ _ N)) as [t M]. exists t. eapply means_reads; eauto.
  - intros r n t N P R. apply reads_means in R. destruct (roots_trans _ _ _ K1 K2 r n _ N P R) as (A & n' & B & D). split; eauto.
    eapply means_reads; eauto.
Qed.
