(** * Lemmas: the linked graph of a file that the grammar allows meets the conditions of the lifetime checks. *)
From Coq Require Import String List Bool Arith ZArith Lia Sorting.Sorted.
From Verif Require Import Syntax Float64 TypeModel LifetimeModel LifetimeSpec PrintModel NodesModel NodesSpec NodesProofs NodesLayout NodesScope NodesCalls NodesClean NodesFits
  P_Nodes P_Scope LivesModel LivesSpec.
Import ListNotations.
Local Open Scope string_scope.
Local Open Scope nat_scope.
Local Open Scope list_scope.

Section Linked.
Variables (K : outside) (g0 g g' : fgraph) (rs : list nat) (T : list ntree).
Hypothesis T0 : tree_ok g0.
Hypothesis O0 : in_order g0.
Hypothesis Hr : Forall2 (reads g0) rs T.
Hypothesis Hp : forall i n, nth_error g0 i = Some n -> f_parent n = None -> In i rs \/ (taken_out n /\ x_op (f_data n) = None).
Hypothesis Hf : forall t, In t T -> every lively t = true /\ of_ K_Arg t = false.
Hypothesis LG : length g = length g0.
Hypothesis HG : forall i n, nth_error g0 i = Some n -> nth_error g i = Some (rename (new_names g0 i n) n).
Hypothesis U : unlinked g0.
Hypothesis FS : scopes_fit g0.
Hypothesis FC : calls_fit g0.
Hypothesis FN : names_fit g0.
Hypothesis GO : good_outside K.
Hypothesis RF : right_file K g g'.
Lemma node_lively : forall i n, nth_error g0 i = Some n -> (taken_out n /\ x_op (f_data n) = None) \/ exists t, tree_at g0 n t /\ lively t = true.
Proof.
  intros i n N. destruct (root_of g0 T0 O0 i n N) as (r & rn & A & B & C). destruct (Hp _ _ B C) as [I|[O O']].
  - right. destruct (F2_in _ _ _ _ Hr I) as (t & X & Y). destruct (Hf _ X) as [W _]. destruct A as [-> |A].
    + exists t. rewrite N in B. injection B as <-. split; [eapply reads_at; eauto|]. now apply every_here.
    + destruct (above_every g0 T0 _ _ A _ _ Y W) as (t' & X' & Y'). exists t'. split; [eapply reads_at; eauto|]. now apply every_here.
  - destruct A as [-> |A]; [left; rewrite N in B; injection B as <-; auto|].
    destruct (above_parts g0 T0 _ _ A) as (an & An & X). rewrite B in An. injection An as <-. destruct O as (_ & O & _). contradiction.
Qed.
Lemma taken_kind : forall n, taken_out n -> f_kind n = K_Add \/ f_kind n = K_Mul.
Proof. intros n (_ & _ & X). exact X. Qed.
Lemma taken_children : forall n, taken_out n -> f_children n = [].
Proof. intros n (_ & X & _). exact X. Qed.
(** the same node before and after *)
Definition twin (n0 n : fnode) : Prop := f_kind n = f_kind n0 /\ f_children n = f_children n0 /\ f_parent n = f_parent n0 /\ x_op (f_data n) = x_op (f_data n0) /\
  x_lifetime (f_data n) = x_lifetime (f_data n0) /\ x_alias (f_data n) = x_alias (f_data n0) /\ x_mut (f_data n) = x_mut (f_data n0) /\ x_ty (f_data n) = x_ty (f_data n0).
Lemma before_ : forall i n, nth_error g i = Some n -> exists n0, nth_error g0 i = Some n0 /\ n = rename (new_names g0 i n0) n0 /\ twin n0 n.
Proof.
  intros i n E. destruct (nth_error g0 i) as [n0|] eqn:E0.
  - pose proof (HG _ _ E0) as X. rewrite E in X. injection X as ->. exists n0. split; auto. split; auto. unfold twin, rename. destruct n0 as [[] ? ? ? ?]. cbn. auto 10.
  - apply nth_error_None in E0. assert (i < length g) by (apply nth_error_Some; congruence). lia.
Qed.
Lemma before : forall i n', nth_error g' i = Some n' -> exists n0 n, nth_error g0 i = Some n0 /\ nth_error g i = Some n /\ strip n = strip n' /\ f_data n' = f_data n /\ twin n0 n'.
Proof.
  intros i n' E. pose proof (ri_bare _ _ _ RF) as B. destruct (bare_data g' g i n' B E) as (n & En & S). destruct (before_ i n En) as (n0 & E0 & _ & TW). exists n0, n. do 2 (split; auto). split; auto.
  destruct (strip_fields _ _ S) as (A1 & A2 & A3 & A4 & A5). split; [congruence|]. unfold twin in *. rewrite <- A1, <- A3, <- A4, <- A5. exact TW.
Qed.
Lemma TG' : tree_ok g'.
Proof. apply (bare_tree g g'); [symmetry; exact (ri_bare _ _ _ RF)|]. eapply rename_tree; eauto. Qed.
Lemma node' : forall i n', nth_error g' i = Some n' -> f_kind n' <> K_Add -> f_kind n' <> K_Mul -> exists n0 t, nth_error g0 i = Some n0 /\ twin n0 n' /\ tree_at g0 n0 t /\ lively t = true.
Proof.
  intros i n' E A B. destruct (before i n' E) as (n0 & n & E0 & _ & _ & _ & TW). destruct (node_lively i n0 E0) as [[O _]|(t & X & Y)]; [|exists n0, t; auto].
  destruct TW as (TK & _). destruct (taken_kind _ O); congruence.
Qed.
Lemma child' : forall n0 t n' c cn', tree_at g0 n0 t -> twin n0 n' -> In c (f_children n') -> nth_error g' c = Some cn' ->
  exists cn0 t', In t' (t_children t) /\ tree_at g0 cn0 t' /\ nth_error g0 c = Some cn0 /\ twin cn0 cn' /\ t_kind t' = f_kind cn'.
Proof.
  intros n0 t n' c cn' [D F] TW I EC. destruct TW as (_ & TC & _). rewrite TC in I. destruct (F2_in _ _ _ _ F I) as (t' & X & Y). destruct (before c cn' EC) as (cn0 & cn & E0 & _ & _ & _ & TW).
  pose proof (reads_at _ _ _ _ E0 Y) as TA. exists cn0, t'. do 3 (split; auto). split; auto. destruct TA as [TD _]. unfold t_kind. rewrite TD. destruct TW as (TK & _). rewrite TK. reflexivity.
Qed.
Lemma in_child : forall i n' c, nth_error g' i = Some n' -> In c (f_children n') -> exists cn', nth_error g' c = Some cn' /\ f_parent cn' = Some i.
Proof. intros. eapply (to_child _ TG'); eauto. Qed.
Lemma parts_in : forall k n' c, In c (parts g' k n') -> In c (f_children n') /\ exists cn', nth_error g' c = Some cn' /\ f_kind cn' = k.
Proof.
  intros k n' c I. apply filter_In in I. destruct I as [I X]. split; auto. unfold kind_at in X. destruct (nth_error g' c) as [cn|]; [|discriminate]. exists cn. split; auto. now apply is_kind_true.
Qed.
Lemma lively_cases : forall t, lively t = true ->
  (of_ K_Fn t = true \/ forall c, In c (t_children t) -> of_ K_Arg c = true -> x_lifetime (t_data c) = None) /\
  (x_op (t_data t) <> None -> of_ K_Assign t = true /\ exists d l0 l r cs, t_children t = NT d (l0 :: l) :: r :: cs) /\
  (t_kind t = K_Assign -> forall l ls, t_children t = l :: ls -> of_ K_Left l = true) /\
  (t_kind t = K_Return -> t_children t <> []) /\
  (t_kind t = K_Call -> x_alias (t_data t) = None /\ forall c, In c (t_children t) -> of_ K_CallArg c = true /\ forall s, In s (t_children c) -> of_ K_Swizzle s = false) /\
  (t_kind t = K_Call \/ t_kind t = K_CallClosure \/ forall c, In c (t_children t) -> of_ K_CallArg c = false) /\
  (one_of [K_Fn; K_Item; K_Ty; K_Ns; K_Uses; K_Use; K_For; K_Vec4; K_Mat4; K_Swizzle; K_ItemExtra] t = true \/ forall c, In c (t_children t) -> one_of odd_kinds c = false).
Proof.
  intros t W. unfold lively in W. cbv zeta in W. repeat rewrite andb_true_iff in W. destruct W as [[[[W1 W2] W3] W4] W5]. split; [|split; [|split; [|split; [|split; [|split]]]]].
  - apply orb_prop in W1 as [W1|W1]; auto. right. intros c I O. rewrite forallb_forall in W1. specialize (W1 c I). rewrite O in W1. cbn in W1. destruct (x_lifetime (t_data c)); [discriminate|auto].
  - intros X. destruct (x_op (t_data t)); [|contradiction]. apply andb_prop in W2 as [A B]. split; auto. destruct (t_children t) as [|[d [|l0 l]] [|r cs]]; try discriminate. exists d, l0, l, r, cs. reflexivity.
  - intros X l ls E. rewrite X, E in W3. exact W3.
  - intros X E. rewrite X, E in W3. discriminate.
  - intros X. rewrite X in W3. apply andb_prop in W3 as [A B]. split; [destruct (x_alias (t_data t)); [discriminate|auto]|]. intros c I. rewrite forallb_forall in B. specialize (B c I). apply andb_prop in B as [B1 B2]. split; auto.
    intros s J. rewrite forallb_forall in B2. specialize (B2 s J). now apply negb_true_iff in B2.
  - apply orb_prop in W4 as [W4|W4]; [apply orb_prop in W4 as [W4|W4]; apply is_kind_true in W4; auto|]. right. right. intros c I. rewrite forallb_forall in W4. now apply negb_true_iff, W4.
  - apply orb_prop in W5 as [W5|W5]; auto. right. intros c I. rewrite forallb_forall in W5. now apply negb_true_iff, W5.
Qed.
Lemma at_t_kind : forall n0 t n', tree_at g0 n0 t -> twin n0 n' -> t_kind t = f_kind n'.
Proof. intros n0 t n' [D _] (TK & _). unfold t_kind. rewrite D, TK. reflexivity. Qed.
Lemma named_target : forall i x d, refers g i x d -> exists dn, nth_error g d = Some dn /\ f_name dn <> None.
Proof.
  intros i x d (p & l & w & (k & c & _ & B & _) & _). inversion B as [L E1|it N (n & ls & j & m & r & _ & _ & _ & (dn & ED & ND) & _) E1|a N N' (n & ls & r & _ & _ & _ & ((dn & ED & ND) & _) & _) E1]; subst.
  - destruct L as (n & E & _ & I). exists n. split; auto. unfold f_name. destruct (x_names (f_data n)); [destruct I|discriminate].
  - exists dn. split; auto. congruence.
  - exists dn. split; auto. congruence.
Qed.
Lemma strip_name : forall n n', strip n = strip n' -> f_name n = f_name n'.
Proof. intros n n' S. apply strip_fields in S. tauto. Qed.
Lemma unlinked_g : unlinked g.
Proof. intros i n E. destruct (before_ i n E) as (n0 & E0 & -> & _). destruct (U _ _ E0) as [A B]. destruct n0. cbn in *. auto. Qed.
Lemma named0 : forall i n0, nth_error g0 i = Some n0 -> In (f_kind n0) [K_Fn; K_Arg; K_Item] -> f_name n0 <> None.
Proof.
  intros i n0 E I. destruct I as [I|[I|[I|[]]]].
  - apply (cf_named _ FC i n0 E). rewrite <- I. simpl. auto.
  - apply (cf_named _ FC i n0 E). rewrite <- I. simpl. auto.
  - apply (proj1 (sf_within _ FS i n0 E (eq_sym I))).
Qed.
Lemma still_named : forall i n0, f_name n0 <> None -> f_name (rename (new_names g0 i n0) n0) <> None.
Proof.
  intros i n0 N. assert (f_name (rename (new_names g0 i n0) n0) = hd_error (new_names g0 i n0)) as -> by (destruct n0 as [[] ? ? ? ?]; unfold f_name; cbn; destruct (new_names _ _ _); reflexivity).
  unfold f_name in N. unfold new_names. destruct (x_names (f_data n0)) as [|y ys] eqn:Q; [contradiction|].
  destruct (f_kind n0); try discriminate; try (destruct (existsb id _); discriminate). destruct (word_of g0 i n0); discriminate.
Qed.
Lemma linked_fits : lives_fit g'.
Proof.
  pose proof TG' as T'. pose proof (ri_bare _ _ _ RF) as B.
  assert (in_order g) as OG.
  { split.
    - intros i n p E P. destruct (before_ i n E) as (n0 & E0 & _ & TW). destruct TW as (_ & _ & TP & _). apply (io_parent _ O0 i n0); congruence.
    - intros i n E. destruct (before_ i n E) as (n0 & E0 & _ & TW). destruct TW as (_ & TC & _). rewrite TC. eapply (io_sorted _ O0); eauto. }
  assert (forall i n', nth_error g' i = Some n' -> In (f_kind n') [K_Fn; K_Arg; K_Item] -> f_name n' <> None) as NAMED.
  { intros i n' E I. destruct (before i n' E) as (n0 & n & E0 & EN & S & D & TW). rewrite <- (strip_name _ _ S). destruct (before_ i n EN) as (n0' & E0' & -> & _). assert (n0' = n0) as -> by congruence.
    apply still_named. apply (named0 i n0 E0). destruct TW as (<- & _). exact I. }
  split.
  - exact T'.
  - exact (bare_order _ _ (eq_sym B) OG).
  - (* items *)
    intros i n' E KI. destruct (before i n' E) as (n0 & n & E0 & EN & S & D & TW). destruct (strip_fields _ _ S) as (SK & SN & SC & SP & SD).
    assert (f_kind n = K_Item) as KN by congruence. assert (f_name n <> None) as NN by (rewrite SN; apply (NAMED i n' E); rewrite KI; simpl; auto).
    destruct (f_name n) as [x|] eqn:NX; [|contradiction]. destruct (f_decl n') as [d|] eqn:DN.
    + assert ((exists dn, nth_error g' d = Some dn /\ f_name dn <> None) \/ ~ (exists dn, nth_error g' d = Some dn /\ f_name dn <> None)) as [Y|Y]; auto.
      { destruct (nth_error g' d) as [dn|] eqn:ED; [destruct (f_name dn) eqn:ND|].
        - left. exists dn. split; auto. congruence.
        - right. intros (dn' & Q & R). injection Q as <-. contradiction.
        - right. intros (dn' & Q & _). discriminate. }
      exfalso. assert (nth_error g' i = Some n) as X.
      { apply (ri_others _ _ _ RF i n EN); try congruence. intros y V. destruct (ri_variables _ _ _ RF i y V) as (n1 & d1 & E1 & D1 & R). assert (d1 = d) as -> by congruence.
        destruct (named_target _ _ _ R) as (dn & ED & ND). apply Y. destruct (bare_data g g' d dn (eq_sym B) ED) as (dn' & ED' & SD'). exists dn'. split; auto. rewrite (strip_name _ _ SD'). auto. }
      assert (n' = n) as -> by congruence. destruct (unlinked_g _ _ EN). congruence.
    + destruct (f_children n') as [|c cs] eqn:CN; auto. right. destruct (string_dec x "return") as [-> |NR]; [congruence|]. exfalso.
      assert (variable g i x) as V.
      { split; [exists n; auto|]. split; auto. split; [|exists n; auto]. intros (a & an & l & ln & m & _ & _ & _ & _ & _ & Em & NI). apply NI. assert (m = n) as -> by congruence. split; auto. congruence. }
      destruct (ri_variables _ _ _ RF i x V) as (n1 & d1 & E1 & D1 & _). congruence.
  - (* links *)
    intros i n' d E DN. destruct (before i n' E) as (n0 & n & E0 & EN & S & D & TW). destruct (strip_fields _ _ S) as (SK & SN & SC & SP & SD).
    destruct (kind_eq_dec (f_kind n) K_Item) as [KI|KI]; [left; congruence|]. destruct (kind_eq_dec (f_kind n) K_Call) as [KC|KC]; [right; congruence|]. exfalso.
    destruct (kind_eq_dec (f_kind n) K_In) as [KN|KN].
    + destruct (ri_ins _ _ _ RF i n EN KN) as (n1 & E1 & D1 & _). congruence.
    + assert (nth_error g' i = Some n) as X. { apply (ri_others _ _ _ RF i n EN KC KN). intros x (_ & _ & _ & m & Em & KM). congruence. }
      destruct (unlinked_g _ _ EN). congruence.
  - exact NAMED.
  - intros i n' E KF. destruct (before i n' E) as (n0 & n & E0 & EN & S & D & TW). destruct (cf_first _ FC i n0 E0) as [r R]; [destruct TW; congruence|]. exists r. destruct TW as (_ & TC & _). rewrite TC, R at 1. f_equal.
    unfold parts. rewrite TC. apply filter_ext_in. intros c I. unfold kind_at. destruct (nth_error g' c) as [cn|] eqn:EC.
    + destruct (before c cn EC) as (cn0 & cn1 & EC0 & _ & _ & _ & TC0). rewrite EC0. destruct TC0 as (-> & _). reflexivity.
    + exfalso. destruct (to_child _ T0 _ _ _ E0 I) as (cn & EC0 & _). destruct (bare_data g g' c _ (eq_sym B) (HG _ _ EC0)) as (x & X & _). congruence.
  - exact (bare_arguments _ _ (eq_sym B) (ri_arguments _ _ _ RF)).
  - intros a n' p pn' E L P EP KA. destruct (in_dec Nat.eq_dec a (f_children pn')) as [I|NI]; [|destruct NI; destruct (to_parent _ T' _ _ _ E P) as (pn2 & EP2 & I); congruence].
    destruct (kind_eq_dec (f_kind pn') K_Fn) as [|NF]; auto. exfalso. destruct (before p pn' EP) as (p0 & p1 & E0 & EP1 & S & D & TW). destruct (node_lively p p0 E0) as [[O _]|(t & TA & W)].
    + destruct TW as (_ & TC & _). rewrite TC, (taken_children _ O) in I. destruct I.
    + destruct (lively_cases t W) as ([X|X] & _).
      * apply is_kind_true in X. change (t_kind t = K_Fn) in X. rewrite (at_t_kind _ _ _ TA TW) in X. contradiction.
      * destruct (child' _ _ _ _ _ TA TW I E) as (cn0 & t' & I' & TA' & _ & TW' & TK). apply L. destruct TW' as (_ & _ & _ & _ & -> & _). destruct TA' as [<- _]. apply X; auto. apply is_kind_true. change (t_kind t' = K_Arg). congruence.
  - intros a n' E KA P. destruct (before a n' E) as (n0 & n & E0 & EN & S & D & TW). assert (f_parent n0 = None) as P0 by (destruct TW as (_ & _ & TP & _); congruence). assert (f_kind n0 = K_Arg) as K0 by (destruct TW; congruence).
    destruct (Hp _ _ E0 P0) as [I|[O _]].
    + destruct (F2_in _ _ _ _ Hr I) as (t & X & Y). destruct (Hf _ X) as [_ Z]. rewrite (at_kind g0 n0 t) in Z by (eapply reads_at; eauto). apply is_kind_true in K0. congruence.
    + destruct (taken_kind _ O); congruence.
  - intros i n' o E OP. destruct (before i n' E) as (n0 & n & E0 & EN & S & D & TW). destruct (node_lively i n0 E0) as [[_ O]|(t & TA & W)].
    + destruct TW as (_ & _ & _ & TO & _). congruence.
    + destruct (lively_cases t W) as (_ & X & _). destruct X as (A & d & l0 & l & r & cs & C).
      { destruct TA as [-> _]. destruct TW as (_ & _ & _ & <- & _). congruence. }
      split; [apply is_kind_true in A; change (t_kind t = K_Assign) in A; rewrite (at_t_kind _ _ _ TA TW) in A; exact A|].
      destruct TA as [TD TF]. rewrite C in TF. destruct TW as (TK & TC & _). rewrite <- TC in TF. inversion TF as [|cl tl cls tls RL FL EQ1 EQ2]. subst. inversion FL as [|cr tr crs trs RR FR EQ3 EQ4]. subst.
      inversion RL as [x ln0 ts' NL FL']. subst. inversion FL' as [|ci ti cis tis RI FI EQ5 EQ6]. subst. exists ci, cr. split; auto.
      destruct (bare_data g g' cl _ (eq_sym B) (HG _ _ NL)) as (ln' & EL & SL). exists cl, ln'. rewrite <- EQ1. split; [reflexivity|]. split; auto. split; [|reflexivity].
      destruct (strip_fields _ _ SL) as (_ & _ & -> & _). destruct ln0. cbn in EQ5 |- *. rewrite <- EQ5. reflexivity.
  - intros i n' l ln' E KA L EL. destruct (node' i n' E) as (n0 & t & E0 & TW & TA & W); try (rewrite KA; discriminate). destruct (lively_cases t W) as (_ & _ & X & _).
    pose proof (at_t_kind _ _ _ TA TW) as TK. destruct TA as [TD TF]. destruct TW as (_ & TC & _). rewrite <- TC in TF. destruct (f_children n') as [|l1 cs]; [discriminate|]. injection L as ->.
    inversion TF as [|? tl ? ? RL _ EQ1 EQ2]. subst. symmetry in EQ2. specialize (X ltac:(congruence) _ _ EQ2). destruct (before l ln' EL) as (ln0 & ln1 & E1 & _ & _ & _ & TW'). apply is_kind_true in X. change (t_kind tl = K_Left) in X.
    rewrite (at_t_kind ln0 tl ln') in X; auto. eapply reads_at; eauto.
  - intros i n' E KR C. destruct (node' i n' E) as (n0 & t & E0 & TW & TA & W); try (rewrite KR; discriminate). destruct (lively_cases t W) as (_ & _ & _ & X & _). apply X; [rewrite (at_t_kind _ _ _ TA TW); auto|].
    destruct TA as [TD TF]. destruct TW as (_ & TC & _). rewrite <- TC, C in TF. inversion TF. reflexivity.
  - intros i n' E KC. destruct (node' i n' E) as (n0 & t & E0 & TW & TA & W); try (rewrite KC; discriminate). destruct (lively_cases t W) as (_ & _ & _ & _ & X & _). destruct X as [_ X]; [rewrite (at_t_kind _ _ _ TA TW); auto|].
    unfold parts. rewrite <- (filter_ext_in (fun _ => true)); [induction (f_children n'); cbn; congruence|]. intros c I. symmetry. destruct (in_child _ _ _ E I) as (cn' & EC & _). unfold kind_at. rewrite EC.
    destruct (child' _ _ _ _ _ TA TW I EC) as (cn0 & t' & I' & _ & _ & _ & TK). destruct (X t' I') as [Y _]. apply is_kind_true. apply is_kind_true in Y. change (t_kind t' = K_CallArg) in Y. congruence.
  - intros i n' c E I. apply parts_in in I. destruct I as (I & cn' & EC & KC). destruct (before i n' E) as (n0 & n & E0 & EN & S & D & TW). destruct (node_lively i n0 E0) as [[O _]|(t & TA & W)].
    + destruct TW as (_ & TC & _). rewrite TC, (taken_children _ O) in I. destruct I.
    + destruct (lively_cases t W) as (_ & _ & _ & _ & _ & [X|[X|X]] & _); try (rewrite (at_t_kind _ _ _ TA TW) in X; auto). exfalso. destruct (child' _ _ _ _ _ TA TW I EC) as (cn0 & t' & I' & _ & _ & _ & TK).
      specialize (X t' I'). assert (t_kind t' = K_CallArg) as Y by congruence. apply is_kind_true in Y. unfold of_ in X. congruence.
  - intros i n' c cn' E I EC OD. destruct (before i n' E) as (n0 & n & E0 & EN & S & D & TW). destruct (node_lively i n0 E0) as [[O _]|(t & TA & W)].
    + destruct TW as (_ & TC & _). rewrite TC, (taken_children _ O) in I. destruct I.
    + destruct (lively_cases t W) as (_ & _ & _ & _ & _ & _ & [X|X]).
      * rewrite <- (at_t_kind _ _ _ TA TW). unfold one_of in X. apply existsb_exists in X. destruct X as (k & IK & KK). apply is_kind_true in KK. rewrite KK. exact IK.
      * exfalso. destruct (child' _ _ _ _ _ TA TW I EC) as (cn0 & t' & I' & _ & _ & _ & TK). specialize (X t' I'). apply not_true_iff_false in X. apply X. unfold one_of. apply existsb_exists. exists (f_kind cn'). split; [exact OD|]. rewrite TK. now apply is_kind_true.
  - intros c n' f E KC DF. destruct (before c n' E) as (n0 & n & E0 & EN & S & D & TW). destruct (strip_fields _ _ S) as (SK & SN & SC & SP & SD). destruct (ri_calls _ _ _ RF c n EN) as (n1 & E1 & CA); [congruence|]. assert (n1 = n') as -> by congruence.
    rewrite DF in CA. inversion CA as [|x f' fn NX AL FU EF LE|]; subst. destruct (bare_data g g' f fn (eq_sym B) EF) as (fn' & EF' & SF). exists fn'. split; auto. destruct (strip_fields _ _ SF) as (FK & _). split.
    + destruct FU as (fn2 & EF2 & KF & _). congruence.
    + rewrite (bare_parts g' g K_Arg fn' fn B SF), (bare_values g' g n' n B (eq_sym S)). exact LE.
  - intros c n' E KC DF. destruct (before c n' E) as (n0 & n & E0 & EN & S & D & TW). destruct (strip_fields _ _ S) as (SK & SN & SC & SP & SD). destruct (ri_calls _ _ _ RF c n EN) as (n1 & E1 & CA); [congruence|]. assert (n1 = n') as -> by congruence.
    rewrite DF in CA. inversion CA as [a x l NX AL OA|x f' fn NX AL FU EF LE|x l NX AL NF OF LE]; subst.
    + exfalso. destruct (node' c n' E) as (n0' & t & E0' & TW' & TA & W); try (rewrite KC; discriminate). destruct (lively_cases t W) as (_ & _ & _ & _ & X & _). destruct X as [X _]; [rewrite (at_t_kind _ _ _ TA TW'); auto|].
      destruct TA as [TD _]. rewrite TD in X. destruct TW' as (_ & _ & _ & _ & _ & TA' & _). rewrite <- TA', D in X. congruence.
    + rewrite (bare_values g' g n' n B (eq_sym S)). split; [exact LE|]. intros k k' Q. eapply GO; eauto.
  - intros c n' k E KC _ a IA. destruct (node' c n' E) as (n0 & t & E0 & TW & TA & W); try (rewrite KC; discriminate). destruct (lively_cases t W) as (_ & _ & _ & _ & X & _). destruct X as [_ X]; [rewrite (at_t_kind _ _ _ TA TW); auto|].
    destruct (in_child _ _ _ E IA) as (an' & EA & _). destruct (child' _ _ _ _ _ TA TW IA EA) as (an0 & t' & I' & TA' & _ & TW' & _). destruct (X t' I') as [_ Y].
    unfold width. rewrite EA. destruct (parts g' K_Swizzle an') as [|s ss] eqn:PS; auto. exfalso. assert (In s (parts g' K_Swizzle an')) as IS by (rewrite PS; now left). apply parts_in in IS. destruct IS as (IS & sn & ES & KS).
    destruct (child' _ _ _ _ _ TA' TW' IS ES) as (sn0 & t2 & I2 & _ & _ & _ & TK2). specialize (Y t2 I2). assert (t_kind t2 = K_Swizzle) as Z by congruence. apply is_kind_true in Z. unfold of_ in Y. congruence.
Qed.
End Linked.
