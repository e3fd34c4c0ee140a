(** * Lemmas: the graph of a file that the grammar allows meets the conditions of the passes that link it. *)
From Coq Require Import String List Bool Arith ZArith Lia Sorting.Sorted.
From Verif Require Import Syntax Float64 TypeModel LifetimeModel PrintModel NodesModel NodesSpec NodesProofs NodesLayout NodesClean.
Import ListNotations.
Local Open Scope string_scope.
Local Open Scope nat_scope.
Local Open Scope list_scope.

Lemma F2_split : forall {A B} (R : A -> B -> Prop) l1 l2 ts, Forall2 R (l1 ++ l2) ts -> exists t1 t2, ts = t1 ++ t2 /\ Forall2 R l1 t1 /\ Forall2 R l2 t2.
Proof. intros. apply Forall2_app_inv_l in H as (a & b & C & D & E). eauto. Qed.
Lemma F2_in : forall {A B} (R : A -> B -> Prop) l ts a, Forall2 R l ts -> In a l -> exists t, In t ts /\ R a t.
Proof. intros A B R l ts a F. induction F; intros []; subst; [exists y; simpl; auto|]. destruct (IHF H0) as (t & X & Y). exists t. simpl. auto. Qed.
Lemma F2_in_r : forall {A B} (R : A -> B -> Prop) l ts t, Forall2 R l ts -> In t ts -> exists a, In a l /\ R a t.
Proof. intros A B R l ts a F. induction F; intros []; subst; [exists x; simpl; auto|]. destruct (IHF H0) as (t & X & Y). exists t. simpl. auto. Qed.

Lemma every_here : forall Q t, every Q t = true -> Q t = true.
Proof. intros Q [d ts] H. simpl in H. now apply andb_prop in H as [H _]. Qed.
Lemma every_part : forall Q d ts t, every Q (NT d ts) = true -> In t ts -> every Q t = true.
Proof. intros Q d ts t H I. simpl in H. apply andb_prop in H as [_ H]. rewrite forallb_forall in H. auto. Qed.

(** the tree at a node *)
Definition tree_at (g : fgraph) (n : fnode) (t : ntree) : Prop := t_data t = f_data n /\ Forall2 (reads g) (f_children n) (t_children t).
Lemma reads_at : forall g i n t, nth_error g i = Some n -> reads g i t -> tree_at g n t.
Proof. intros g i n t N R. inversion R. subst. rewrite N in H. injection H as ->. split; auto. Qed.
Lemma at_kind : forall g n t k, tree_at g n t -> of_ k t = is_kind (f_kind n) k.
Proof. intros g n t k [H _]. unfold of_, t_kind. rewrite H. reflexivity. Qed.

Section Fits.
  Variables (g : fgraph) (rs : list nat) (T : list ntree).
  Hypothesis Ht : tree_ok g.
  Hypothesis Ho : in_order g.
  Hypothesis Hr : Forall2 (reads g) rs T.
  Hypothesis Hp : forall i n, nth_error g i = Some n -> f_parent n = None -> In i rs \/ (taken_out n /\ x_op (f_data n) = None).
  Hypothesis Hg : forall i n, nth_error g i = Some n -> (0 <= x_grab (f_data n))%Z.
  Hypothesis Hf : forall t, In t T -> top_level t = true.

  Lemma root_of : forall i n, nth_error g i = Some n -> exists r rn, (r = i \/ above g i r) /\ nth_error g r = Some rn /\ f_parent rn = None.
  Proof.
    induction i as [i IH] using lt_wf_ind. intros n N. destruct (f_parent n) as [p|] eqn:P; [|eauto 10].
    destruct (to_parent _ Ht _ _ _ N P) as (pn & Pn & _). destruct (IH p (io_parent _ Ho _ _ _ N P) pn Pn) as (r & rn & [-> |A] & B & C).
    - exists p, rn. split; auto. right. econstructor; eauto.
    - exists r, rn. split; auto. right. clear - A N P. induction A.
      + eapply Ab_step; eauto. econstructor; eauto.
      + eapply Ab_step; eauto.
  Qed.
  Lemma above_every : forall i a, above g i a -> forall Q t, reads g a t -> every Q t = true -> exists t', reads g i t' /\ every Q t' = true.
  Proof.
    intros i a A. induction A as [n p N P|a n p A IH N P]; intros Q t R E.
    - destruct (to_parent _ Ht _ _ _ N P) as (pn & Pn & I). destruct (reads_at _ _ _ _ Pn R) as [D F]. destruct (F2_in _ _ _ _ F I) as (t' & X & Y).
      exists t'. split; auto. destruct t. eapply every_part; eauto.
    - destruct (to_parent _ Ht _ _ _ N P) as (pn & Pn & I). destruct (reads_at _ _ _ _ Pn R) as [D F]. destruct (F2_in _ _ _ _ F I) as (t' & X & Y).
      apply (IH Q t'); auto. destruct t. eapply every_part; eauto.
  Qed.
  Lemma above_parts : forall i a, above g i a -> exists n, nth_error g a = Some n /\ f_children n <> [].
  Proof.
    intros i a [n p N P|b n p _ N P]; destruct (to_parent _ Ht _ _ _ N P) as (pn & Pn & I); exists pn; split; auto; intros C; rewrite C in I; destruct I.
  Qed.
  Lemma node_written : forall i n, nth_error g i = Some n -> (taken_out n /\ x_op (f_data n) = None) \/ exists t, tree_at g n t /\ reads g i t /\ written t = true.
  Proof.
    intros i n N. destruct (root_of i n N) as (r & rn & A & B & C). destruct (Hp _ _ B C) as [I|[O O']].
    - right. destruct (F2_in _ _ _ _ Hr I) as (t & X & Y). pose proof (Hf _ X) as W. apply andb_prop in W as [W _].
      destruct A as [-> |A].
      + exists t. rewrite N in B. injection B as <-. split; [eapply reads_at; eauto|]. split; auto. now apply every_here.
      + destruct (above_every _ _ A _ _ Y W) as (t' & X' & Y'). exists t'. split; [eapply reads_at; eauto|]. split; auto. now apply every_here.
    - destruct A as [-> |A]; [left; rewrite N in B; injection B as <-; auto|].
      destruct (above_parts _ _ A) as (an & An & X). rewrite B in An. injection An as <-. destruct O as (_ & O & _). contradiction.
  Qed.
  Lemma out_kind : forall n k, taken_out n -> f_kind n = k -> k <> K_Add -> k <> K_Mul -> False.
  Proof. intros n k (_ & _ & [A|A]) <- B C; auto. Qed.
  Lemma node_tree : forall i n, nth_error g i = Some n -> f_kind n <> K_Add -> f_kind n <> K_Mul -> exists t, tree_at g n t /\ reads g i t /\ written t = true.
  Proof. intros i n N A B. destruct (node_written i n N) as [[O _]|H]; auto. destruct (out_kind n _ O eq_refl); auto. Qed.
  Lemma child_tree : forall i n t c cn, nth_error g i = Some n -> tree_at g n t -> In c (f_children n) -> nth_error g c = Some cn ->
    exists t', In t' (t_children t) /\ tree_at g cn t'.
  Proof. intros i n t c cn N [D F] I C. destruct (F2_in _ _ _ _ F I) as (t' & X & Y). exists t'. split; auto. eapply reads_at; eauto. Qed.
  Lemma hd_F2 : forall cs ts c, Forall2 (reads g) cs ts -> hd_error cs = Some c -> exists t ts', ts = t :: ts' /\ reads g c t.
  Proof. intros cs ts c [|? ? ? ? A B] H; [discriminate|]. injection H as ->. eauto. Qed.

  Lemma written_names : forall n t, tree_at g n t -> written t = true -> In (f_kind n) [K_Item; K_Fn; K_Arg; K_Call; K_In] -> f_name n <> None.
  Proof.
    intros n t [D F] W I. unfold written in W. repeat rewrite andb_true_iff in W. destruct W as [[[W _] _] _]. unfold t_kind in W. rewrite D in W.
    change (x_kind (f_data n)) with (f_kind n) in W.
    assert (has_names (f_data n) = true) as X. { destruct I as [I|[I|[I|[I|[I|[]]]]]]; rewrite <- I in W; exact W. }
    unfold has_names in X. unfold f_name. destruct (x_names (f_data n)); discriminate.
  Qed.
  Lemma written_op : forall n t, tree_at g n t -> written t = true -> x_op (f_data n) <> None ->
    exists l ln, hd_error (f_children n) = Some l /\ nth_error g l = Some ln /\ f_children ln <> [].
  Proof.
    intros n t [D F] W O. unfold written in W. repeat rewrite andb_true_iff in W. destruct W as [_ W]. rewrite D in W.
    destruct (x_op (f_data n)); [|contradiction]. inversion F as [E1 E2|c t' cs ts R F' E1 E2]. { rewrite <- E2 in W. discriminate. }
    rewrite <- E2 in W. exists c. inversion R as [i n' ts' N F2]; subst. exists n'. split; auto. split; auto. destruct ts'; [discriminate|].
    inversion F2. discriminate.
  Qed.
  Lemma written_fn : forall n t c cn, tree_at g n t -> written t = true -> In c (f_children n) -> nth_error g c = Some cn -> f_kind cn <> K_Fn.
  Proof.
    intros n t c cn [D F] W I C K. unfold written in W. repeat rewrite andb_true_iff in W. destruct W as [[_ W] _].
    destruct (F2_in _ _ _ _ F I) as (t' & X & Y). rewrite forallb_forall in W. specialize (W _ X).
    rewrite (at_kind g cn t' K_Fn) in W; [|eapply reads_at; eauto]. apply is_kind_true in K. rewrite K in W. discriminate.
  Qed.
  Lemma no_items : forall ts cs c cn, forallb (fun t => negb (of_ K_Item t)) ts = true -> Forall2 (reads g) cs ts -> In c cs -> nth_error g c = Some cn -> f_kind cn <> K_Item.
  Proof.
    intros ts cs c cn W F I C K. destruct (F2_in _ _ _ _ F I) as (t' & X & Y). rewrite forallb_forall in W. specialize (W _ X).
    rewrite (at_kind g cn t' K_Item) in W; [|eapply reads_at; eauto]. apply is_kind_true in K. rewrite K in W. discriminate.
  Qed.
  Lemma removelast_in : forall {A} (l : list A) c r x, In x l -> In x (removelast (l ++ c :: r)).
  Proof.
    intros A l c r x I. rewrite removelast_app by discriminate. apply in_or_app. auto.
  Qed.

  Lemma fits_scopes : scopes_fit g.
  Proof.
    split; auto.
    - intros i n N K. destruct (f_parent n) as [p|] eqn:P; auto. destruct (to_parent _ Ht _ _ _ N P) as (pn & Pn & I).
      destruct (node_written p pn Pn) as [[(_ & C & _) _]|(t & A & B & W)]; [rewrite C in I; destruct I|].
      destruct (written_fn _ _ _ _ A W I N K).
    - intros i n r m N K A M P. destruct (Hp _ _ M P) as [I|[(_ & C & _) _]].
      + destruct (F2_in _ _ _ _ Hr I) as (t & X & Y). pose proof (Hf _ X) as W. apply andb_prop in W as [_ W]. apply orb_prop in W as [W|W].
        * rewrite (at_kind g m) in W; [|eapply reads_at; eauto]. now apply is_kind_true.
        * destruct (above_every _ _ A _ _ Y W) as (t' & X' & Y'). apply every_here in Y'. rewrite (at_kind g n) in Y'; [|eapply reads_at; eauto].
          apply is_kind_true in K. rewrite K in Y'. discriminate.
      + destruct (above_parts _ _ A) as (an & An & Z). rewrite M in An. injection An as <-. contradiction.
    - intros i n l c r j it N K C J (jn & a & an & _ & _ & _ & Hj & Ha & An & O & _).
      destruct (node_tree i n N) as (t & [D F] & B & W); [rewrite K; discriminate..|].
      unfold written in W. repeat rewrite andb_true_iff in W. destruct W as [[[_ W] _] _]. unfold t_kind in W. rewrite D in W.
      change (x_kind (f_data n)) with (f_kind n) in W. rewrite K in W. apply andb_prop in W as [_ W]. rewrite C in F.
      destruct (F2_split _ _ _ _ F) as (t1 & t2 & E & F1 & F2). inversion F2 as [|? tc ? tr]. subst t2. rewrite E in W.
      destruct (F2_in _ _ _ _ F1 J) as (tj & X & Y). rewrite forallb_forall in W. specialize (W tj (removelast_in _ _ _ _ X)).
      destruct (reads_at _ _ _ _ Hj Y) as [D' F']. destruct (hd_F2 _ _ _ F' Ha) as (ta & ts' & E' & Y'). destruct (reads_at _ _ _ _ An Y') as [D'' _].
      unfold starts_local in W. rewrite E', D'', O in W. discriminate.
    - intros i n N K. destruct (node_tree i n N) as (t & A & B & W); [rewrite K; discriminate..|]. split.
      + apply (written_names n t); auto. rewrite K. simpl. auto.
      + destruct (f_parent n) as [p|] eqn:P.
        * destruct (to_parent _ Ht _ _ _ N P) as (pn & Pn & I). exists p, pn. split; auto. split; auto.
          destruct (node_written p pn Pn) as [[(_ & C & _) _]|(tp & [D F] & Bp & Wp)]; [rewrite C in I; destruct I|].
          unfold written in Wp. repeat rewrite andb_true_iff in Wp. destruct Wp as [[[_ Wp] _] _]. unfold t_kind in Wp. rewrite D in Wp.
          change (x_kind (f_data pn)) with (f_kind pn) in Wp.
          split; intros X; rewrite X in Wp; [|apply andb_prop in Wp as [Wp _]]; exact (no_items _ _ _ _ Wp F I N K).
        * exfalso. destruct (Hp _ _ N P) as [I|[O _]]; [|eapply out_kind; eauto; discriminate].
          destruct (F2_in _ _ _ _ Hr I) as (tr & X & Y). pose proof (Hf _ X) as Wr. apply andb_prop in Wr as [_ Wr]. 
          pose proof (reads_at _ _ _ _ N Y) as TA. apply orb_prop in Wr as [Wr|Wr].
          -- rewrite (at_kind g n) in Wr; auto. rewrite K in Wr. discriminate.
          -- apply every_here in Wr. rewrite (at_kind g n) in Wr; auto. rewrite K in Wr. discriminate.
    - intros i n N O. destruct (node_written i n N) as [[_ O']|(t & A & B & W)]; [congruence|]. eapply written_op; eauto. congruence.
  Qed.

  Lemma fits_names : names_fit g.
  Proof.
    split.
    - intros i n N K M. destruct (node_tree i n N) as (t & A & B & W); [intros X; rewrite X in K; simpl in K; intuition discriminate..|].
      destruct K as [K|[K|[K|[]]]]; try (apply (written_names n t); auto; rewrite <- K; simpl; auto; fail).
      destruct A as [D F]. unfold written in W. repeat rewrite andb_true_iff in W. destruct W as [[[_ W] _] _]. unfold t_kind in W. rewrite D in W.
      change (x_kind (f_data n)) with (f_kind n) in W. rewrite <- K in W. apply andb_prop in W as [_ W]. apply orb_prop in W as [W|W].
      + unfold has_names in W. unfold f_name. destruct (x_names (f_data n)); discriminate.
      + exfalso. apply negb_true_iff in W. apply not_true_iff_false in W. apply W. apply existsb_exists. unfold marks in M. apply in_flat_map in M as (c & I & M).
        destruct (nth_error g c) as [cn|] eqn:C; [|destruct M]. destruct (F2_in _ _ _ _ F I) as (t' & X & Y). exists t'. split; auto.
        pose proof (reads_at _ _ _ _ C Y) as TA. rewrite !(at_kind g cn t') by auto. destruct TA as [-> _].
        destruct (f_kind cn); try (destruct M as [M|[]]); try contradiction; rewrite M; reflexivity.
    - intros i n w N K E. destruct (node_tree i n N) as (t & A & B & W); [rewrite K; discriminate..|].
      destruct A as [D F]. unfold written in W. repeat rewrite andb_true_iff in W. destruct W as [[[_ W] _] _]. unfold t_kind in W. rewrite D in W.
      change (x_kind (f_data n)) with (f_kind n) in W. rewrite K in W. apply andb_prop in W as [W _]. apply orb_prop in W as [W|W].
      { unfold has_names in W. unfold f_name in E. destruct (x_names (f_data n)); discriminate. }
      apply existsb_exists in W as (ti & X & Y). destruct (F2_in_r _ _ _ _ F X) as (c & I & R).
      assert (exists cn, nth_error g c = Some cn) as [cn C]. { inversion R; eauto. }
      rewrite (at_kind g cn) in Y; [|eapply reads_at; eauto].
      unfold first_item. destruct (find _ (f_children n)) as [it|] eqn:FI.
      + apply find_some in FI as [I' K']. destruct (nth_error g it) as [m|] eqn:Hm; [|discriminate]. exists it, m. split; auto. split; auto. intros _.
        apply is_kind_true in K'. destruct (node_tree it m Hm) as (tm & A & _ & Wm); [rewrite K'; discriminate..|]. apply (written_names m tm); auto. rewrite K'. simpl. auto.
      + exfalso. apply (find_none _ _ FI c) in I. rewrite C in I. congruence.
  Qed.

  Lemma first_parts : forall k ts cs, first_of k ts = true -> Forall2 (reads g) cs ts -> exists r, cs = filter (kind_at g k) cs ++ r.
  Proof.
    intros k ts. induction ts as [|t ts IH]; intros cs W F; inversion F as [|c ? cs' ? R F']; subst; [exists []; reflexivity|].
    assert (kind_at g k c = of_ k t) as E. { unfold kind_at. inversion R; subst. rewrite H. reflexivity. }
    simpl in *. rewrite E. destruct (of_ k t) eqn:O.
    - destruct (IH cs' W F') as [r X]. exists r. simpl. f_equal. exact X.
    - exists (c :: cs'). assert (filter (kind_at g k) cs' = []) as ->; auto. clear - W F'. revert W. induction F' as [|c t cs ts R F IH]; intros W; auto.
      simpl in *. apply andb_prop in W as [W1 W2]. assert (kind_at g k c = of_ k t) as ->. { unfold kind_at. inversion R; subst. rewrite H. reflexivity. }
      destruct (of_ k t); [discriminate|auto].
  Qed.
  Lemma fits_calls : calls_fit g.
  Proof.
    split.
    - intros i n N O. destruct (node_written i n N) as [[_ O']|(t & A & B & W)]; [congruence|]. eapply written_op; eauto.
    - intros i n N K. destruct (node_tree i n N) as (t & A & B & W); [intros X; rewrite X in K; simpl in K; intuition discriminate..|].
      apply (written_names n t); auto. simpl in *. tauto.
    - intros i n N K. destruct (node_tree i n N) as (t & [D F] & B & W); [rewrite K; discriminate..|].
      unfold written in W. repeat rewrite andb_true_iff in W. destruct W as [[[_ W] _] _]. unfold t_kind in W. rewrite D in W.
      change (x_kind (f_data n)) with (f_kind n) in W. rewrite K in W. eapply first_parts; eauto.
  Qed.
End Fits.

Lemma layout_rooted : forall ts j n, nth_error (lays 0 None ts) j = Some n -> f_parent n = None -> In j (places 0 ts).
Proof.
  intros ts j n E P. pose proof (lays_laids ts 0 None [] [] eq_refl) as L. simpl in L. rewrite app_nil_r in L. set (g := lays 0 None ts) in *.
  pose proof (nth_lt _ _ _ E) as Lj. unfold g in Lj. rewrite lays_length in Lj.
  destruct (proj2 (laid_spots g) 0 None ts L j) as [I|(c & t & I1 & I2 & q & t' & x & S1 & S2 & S3 & S4 & S5)]; [lia|auto|].
  destruct (laid_here _ _ _ _ S1) as (d & l & _ & X & _). rewrite E in X. injection X as ->. discriminate.
Qed.
Lemma layout_data : forall ts j n, nth_error (lays 0 None ts) j = Some n -> f_decl n = None /\ f_lts n = [] /\
  forall Q, (forall t, In t ts -> every Q t = true) -> exists l, Q (NT (f_data n) l) = true.
Proof.
  intros ts j n E. destruct (layout_node ts j n E) as (q & t' & L & H). destruct (laid_here _ _ _ _ L) as (d & l & -> & X & _).
  rewrite E in X. injection X as ->. simpl. split; auto. split; auto. intros Q HQ. exists l.
  destruct H as [[_ I]|(t & p & x & I & Pt & _)]; [exact (every_here _ _ (HQ _ I))|].
  assert (forall t t', part t t' -> every Q t = true -> every Q t' = true) as PART.
  { intros a b Pab. induction Pab; intros W; auto; eauto using every_part. }
  exact (every_here _ _ (PART _ _ Pt (HQ _ I))).
Qed.

Lemma graph_roots : forall ts g1 g2 p g, (forall t, In t ts -> operators_fit true t) -> file_fits ts ->
  nest (lays 0 None ts) = NOk g1 -> sugar g1 = NOk g2 -> tree_ok g2 -> sorted_by p g2 g ->
  Forall2 (reads g2) (places 0 ts) (map without_operators ts) ->
  Forall2 (reads g) (map p (places 0 ts)) (map without_operators ts) /\
  (forall i n, nth_error g i = Some n -> f_parent n = None -> In i (map p (places 0 ts)) \/ (taken_out n /\ x_op (f_data n) = None)) /\
  (forall i n, nth_error g i = Some n -> (0 <= x_grab (f_data n))%Z).
Proof.
  intros ts g1 g2 p g H1 H2 R1 R2 T2 S F2. pose proof (operators_clean _ _ _ (layout_good ts H1) R1 R2) as [C1 C2 C3].
  assert (forall j n, nth_error g2 j = Some n -> (0 <= x_grab (f_data n))%Z /\ (f_kind n = K_Add \/ f_kind n = K_Mul -> x_op (f_data n) = None)) as DATA.
  { intros j n N. destruct (C3 _ _ N) as [(n0 & N0 & A & B & D)|[A B]]; [|split; [lia|auto]].
    destruct (layout_data ts j n0 N0) as (_ & _ & X). destruct (X _ (fun t I => proj1 (H2 t I))) as [l Y]. apply andb_prop in Y as [Y1 Y2].
    unfold t_kind in Y2. simpl in Y1, Y2. apply Z.leb_le in Y1. split; [lia|]. intros K. rewrite A. change (x_kind (f_data n)) with (f_kind n) in D.
    assert (f_kind n = x_kind (f_data n0)) as E. { destruct D as [D|[D|D]]; auto; destruct K; congruence. }
    destruct K as [K|K]; rewrite K in E; rewrite <- E in Y2; destruct (x_op (f_data n0)); auto; discriminate. }
  split; [clear - F2 S; induction F2; simpl; constructor; auto; eapply sorted_reads; eauto|]. split.
  - intros j n' N P. destruct (sorted_node _ _ _ S _ _ N) as (i & n & <- & Ni & ->). simpl in P.
    destruct (f_parent n) eqn:Q; [discriminate|]. destruct (C1 _ _ Ni Q) as [(n0 & N0 & P0 & _)|(O1 & O2 & O3)].
    * left. apply in_map. eapply layout_rooted; eauto.
    * right. split; [split; [auto|split; [simpl; rewrite O2; auto|exact O3]]|]. simpl. apply (DATA _ _ Ni). auto.
  - intros j n' N. destruct (sorted_node _ _ _ S _ _ N) as (i & n & <- & Ni & ->). simpl. apply (DATA _ _ Ni).
Qed.
Lemma graph_fits : forall ts g1 g2 p g, (forall t, In t ts -> operators_fit true t) -> file_fits ts ->
  nest (lays 0 None ts) = NOk g1 -> sugar g1 = NOk g2 -> tree_ok g2 -> sorted_by p g2 g ->
  Forall2 (reads g2) (places 0 ts) (map without_operators ts) ->
  scopes_fit g /\ names_fit g /\ calls_fit g /\ unlinked g.
Proof.
  intros ts g1 g2 p g H1 H2 R1 R2 T2 S F2. pose proof (operators_clean _ _ _ (layout_good ts H1) R1 R2) as [C1 C2 C3].
  destruct (graph_roots ts g1 g2 p g H1 H2 R1 R2 T2 S F2) as (Fg & Hp & Hg).
  assert (tree_ok g) as T by (eapply sorted_tree; eauto).
  assert (forall t, In t (map without_operators ts) -> top_level t = true) as Hf.
  { intros t I. apply in_map_iff in I as (t0 & <- & I). now apply H2. }
  split; [eapply fits_scopes; eauto; apply (sb_order _ _ _ S)|]. split; [eapply fits_names; eauto; apply (sb_order _ _ _ S)|].
  split; [eapply fits_calls; eauto; apply (sb_order _ _ _ S)|].
  intros j n' N. destruct (sorted_node _ _ _ S _ _ N) as (i & n & <- & Ni & ->). simpl. refine (C2 _ i n Ni).
  intros k m M. destruct (layout_data ts k m M) as (A & B & _). auto.
Qed.
