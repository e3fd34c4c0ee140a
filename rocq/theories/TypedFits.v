(** * Lemmas: the linked graph of a file that can be typed is well formed for the type checker. *)
From Coq Require Import String List Bool Arith ZArith Lia Sorting.Sorted.
From Verif Require Import Syntax Float64 TypeModel LifetimeModel LifetimeSpec TypecheckModel TypecheckSpec PrintModel NodesModel NodesSpec NodesProofs NodesLayout NodesScope NodesCalls NodesClean NodesFits
  P_Nodes P_Scope LivesModel LivesSpec LivesFits TypedSpec.
Import ListNotations.
Local Open Scope string_scope.
Local Open Scope nat_scope.
Local Open Scope list_scope.

Section Typed.
Variables (K : known) (O : outside) (g0 g g' : fgraph) (rs : list nat) (T : list ntree).
Hypothesis T0 : tree_ok g0.
Hypothesis O0 : in_order g0.
Hypothesis Hr : Forall2 (reads g0) rs T.
Hypothesis Hp : forall i n, nth_error g0 i = Some n -> f_parent n = None -> In i rs \/ (taken_out n /\ x_op (f_data n) = None).
Hypothesis Hf : forall t, In t T -> every lively t = true /\ of_ K_Arg t = false.
Hypothesis Ht : forall t, In t T -> every typable t = true.
Hypothesis LG : length g = length g0.
Hypothesis HG : forall i n, nth_error g0 i = Some n -> nth_error g i = Some (rename (new_names g0 i n) n).
Hypothesis U : unlinked g0.
Hypothesis RF : right_file O g g'.
Hypothesis LF : lives_fit g'.
Hypothesis DB : declared_before g'.
Hypothesis KF : known_fit K O.
Hypothesis OF : own_fit (checked g').

Lemma node_typable : forall i n, nth_error g0 i = Some n -> (taken_out n /\ x_op (f_data n) = None) \/ exists t, tree_at g0 n t /\ typable t = true.
Proof.
  intros i n N. destruct (root_of g0 T0 O0 i n N) as (r & rn & A & B & C). destruct (Hp _ _ B C) as [I|[Q Q']].
  - right. destruct (F2_in _ _ _ _ Hr I) as (t & X & Y). pose proof (Ht _ X) as W. destruct A as [-> |A].
    + exists t. rewrite N in B. injection B as <-. split; [eapply reads_at; eauto|]. now apply every_here.
    + destruct (above_every g0 T0 _ _ A _ _ Y W) as (t' & X' & Y'). exists t'. split; [eapply reads_at; eauto|]. now apply every_here.
  - destruct A as [-> |A]; [left; rewrite N in B; injection B as <-; auto|].
    destruct (above_parts g0 T0 _ _ A) as (an & An & X). rewrite B in An. injection An as <-. destruct Q as (_ & Q & _). contradiction.
Qed.
Lemma prior : forall i n', nth_error g' i = Some n' -> exists n0 n, nth_error g0 i = Some n0 /\ nth_error g i = Some n /\ strip n = strip n' /\ f_data n' = f_data n /\ twin n0 n' /\ x_try (f_data n') = x_try (f_data n0).
Proof.
  intros i n' E. destruct (before O g0 g g' LG HG RF i n' E) as (n0 & n & E0 & E1 & S & D & TW). exists n0, n. do 5 (split; auto).
  rewrite D. rewrite (HG _ _ E0) in E1. injection E1 as <-. destruct n0 as [[] ? ? ? ?]. reflexivity.
Qed.
Lemma later : forall i n, nth_error g i = Some n -> exists n', nth_error g' i = Some n' /\ strip n = strip n' /\ f_data n' = f_data n.
Proof.
  intros i n E. destruct (bare_data g g' i n (eq_sym (ri_bare _ _ _ RF)) E) as (n' & E' & S). exists n'. split; auto. destruct (strip_fields _ _ S) as (A & _). destruct (prior i n' E') as (n0 & n1 & _ & E1 & S1 & D & _).
  assert (n1 = n) as -> by congruence. auto.
Qed.
(** the tree of a node that is a part of the file *)
Lemma typed_node : forall i n', nth_error g' i = Some n' -> (f_kind n' <> K_Add /\ f_kind n' <> K_Mul) \/ f_children n' <> [] \/ x_op (f_data n') <> None ->
  exists n0 t, nth_error g0 i = Some n0 /\ twin n0 n' /\ x_try (f_data n') = x_try (f_data n0) /\ tree_at g0 n0 t /\ typable t = true.
Proof.
  intros i n' E H. destruct (prior i n' E) as (n0 & n & E0 & _ & _ & _ & TW & TR). destruct (node_typable i n0 E0) as [[X Y]|(t & X & Y)]; [exfalso|exists n0, t; auto].
  destruct TW as (TK & TC & _ & TO & _). destruct H as [[H1 H2]|[H|H]].
  - destruct (taken_kind _ X); congruence.
  - apply H. rewrite TC. now apply taken_children.
  - congruence.
Qed.
Lemma tree_try : forall n0 t n', tree_at g0 n0 t -> x_try (f_data n') = x_try (f_data n0) -> x_try (t_data t) = x_try (f_data n').
Proof. intros n0 t n' [D _] X. now rewrite D. Qed.
Lemma tree_len : forall n0 t n', tree_at g0 n0 t -> twin n0 n' -> length (t_children t) = length (f_children n').
Proof. intros n0 t n' [_ F] (_ & TC & _). rewrite TC. symmetry. clear TC. induction F; cbn; congruence. Qed.
Lemma sub_ : forall n0 t n' c cn', tree_at g0 n0 t -> twin n0 n' -> In c (f_children n') -> nth_error g' c = Some cn' ->
  exists cn0 t', In t' (t_children t) /\ tree_at g0 cn0 t' /\ nth_error g0 c = Some cn0 /\ twin cn0 cn' /\ t_kind t' = f_kind cn' /\ x_try (t_data t') = x_try (f_data cn').
Proof.
  intros n0 t n' c cn' TA TW I EC. destruct (child' O g0 g g' LG HG RF _ _ _ _ _ TA TW I EC) as (cn0 & t' & A & B & C & D & E). exists cn0, t'. do 5 (split; auto).
  destruct (prior c cn' EC) as (m0 & _ & M0 & _ & _ & _ & _ & TR). assert (m0 = cn0) as -> by congruence. destruct B as [B _]. now rewrite B.
Qed.
Lemma head_ : forall n0 t n' c cs cn', tree_at g0 n0 t -> twin n0 n' -> f_children n' = c :: cs -> nth_error g' c = Some cn' ->
  exists cn0 t' ts, t_children t = t' :: ts /\ tree_at g0 cn0 t' /\ nth_error g0 c = Some cn0 /\ twin cn0 cn' /\ t_kind t' = f_kind cn' /\ x_try (t_data t') = x_try (f_data cn').
Proof.
  intros n0 t n' c cs cn' [TD TF] TW C EC. assert (f_children n0 = c :: cs) as C0 by (destruct TW as (_ & TC & _); congruence). rewrite C0 in TF. inversion TF as [|? t' ? ts R F Q1 Q2]. subst.
  destruct (prior c cn' EC) as (cn0 & _ & E0 & _ & _ & _ & TW' & TR). pose proof (reads_at _ _ _ _ E0 R) as TA. exists cn0, t', ts. do 4 (split; auto). split; [eapply at_t_kind; eauto|]. destruct TA as [B _]. now rewrite B.
Qed.
Lemma is_of : forall k t, of_ k t = true <-> t_kind t = k.
Proof. intros. unfold of_. apply is_kind_true. Qed.
Lemma not_of : forall k t, of_ k t = false <-> t_kind t <> k.
Proof. intros. rewrite <- is_of. now rewrite <- not_true_iff_false. Qed.

Lemma g_node : forall i n, is_node (checked g') i n <-> exists n', nth_error g' i = Some n' /\ n = checked_node n'.
Proof.
  intros i n. unfold is_node, checked. rewrite nth_error_map. destruct (nth_error g' i) as [n'|]; cbn; split.
  - intros X. injection X as <-. eauto.
  - intros (m & X & ->). injection X as <-. reflexivity.
  - discriminate.
  - intros (m & X & _). discriminate.
Qed.
Lemma g_kind_at : forall i k, TypecheckSpec.kind_at (checked g') i k <-> exists n', nth_error g' i = Some n' /\ f_kind n' = k.
Proof.
  intros i k. unfold TypecheckSpec.kind_at. split.
  - intros (n & X & Y). apply g_node in X. destruct X as (n' & A & ->). exists n'. split; auto.
  - intros (n' & A & B). exists (checked_node n'). split; [apply g_node; eauto|exact B].
Qed.
Lemma g_filter : forall k n, filter (fun c => match nth_error (checked g') c with Some m => is_kind (g_kind m) k | None => false end) (f_children n) = parts g' k n.
Proof.
  intros k n. unfold parts. apply filter_ext. intros c. unfold kind_at, checked. rewrite nth_error_map. destruct (nth_error g' c); reflexivity.
Qed.

(** calls of functions have as many arguments as the function *)
Lemma call_args : forall i n', nth_error g' i = Some n' -> f_kind n' = K_Call -> x_alias (f_data n') = None /\
  forall c, In c (f_children n') -> exists cn x xn, nth_error g' c = Some cn /\ f_kind cn = K_CallArg /\ x_try (f_data cn) = false /\ f_children cn = [x] /\
    nth_error g' x = Some xn /\ f_kind xn <> K_Swizzle.
Proof.
  intros i n' E KC. destruct (node' O g0 g g' rs T T0 O0 Hr Hp Hf LG HG RF i n' E) as (n0 & t & E0 & TW & TA & W); try (rewrite KC; discriminate).
  destruct (typed_node i n' E) as (n1 & t1 & E1 & TW1 & _ & TA1 & W1); [left; rewrite KC; split; discriminate|]. assert (n1 = n0) as -> by congruence.
  destruct (lively_cases t W) as (_ & _ & _ & _ & X & _). destruct X as [X1 X2]; [rewrite (at_t_kind _ _ _ _ TA TW); auto|]. split.
  - destruct TA as [TD _]. rewrite TD in X1. destruct TW as (_ & _ & _ & _ & _ & TL & _). congruence.
  - intros c I. destruct (in_child O g0 g g' T0 LG HG RF _ _ _ E I) as (cn & EC & _). destruct (sub_ _ _ _ _ _ TA TW I EC) as (cn0 & t' & A1 & A2 & A3 & A4 & A5 & A6). destruct (X2 _ A1) as [X3 X4]. apply is_of in X3.
    destruct (sub_ _ _ _ _ _ TA1 TW1 I EC) as (cn1 & t2 & B1 & B2 & B3 & B4 & B5 & B6). assert (cn1 = cn0) as -> by congruence.
    unfold typable in W1. cbv zeta in W1. rewrite (at_t_kind _ _ _ _ TA1 TW1), KC in W1. rewrite !andb_true_iff in W1. destruct W1 as [[[_ W1] _] _]. rewrite forallb_forall in W1. specialize (W1 _ B1).
    apply andb_prop in W1 as [W1 W2]. apply Nat.eqb_eq in W2. rewrite (tree_len _ _ _ B2 B4) in W2. destruct (f_children cn) as [|x [|y ys]] eqn:CC; try discriminate.
    destruct (in_child O g0 g g' T0 LG HG RF c cn x EC) as (xn & EX & _); [rewrite CC; now left|]. exists cn, x, xn. do 2 (split; [congruence|]). split; [rewrite <- B6; now apply negb_true_iff|]. do 2 (split; auto).
    destruct (sub_ _ _ _ x xn A2 A4) as (xn0 & t3 & C1 & _ & _ & _ & C5 & _); [rewrite CC; now left|exact EX|]. specialize (X4 _ C1). apply not_of in X4. congruence.
Qed.
Lemma call_width : forall i n', nth_error g' i = Some n' -> f_kind n' = K_Call -> values g' n' = length (f_children n').
Proof.
  intros i n' E KC. destruct (call_args i n' E KC) as [_ H]. unfold values. rewrite (lf_call _ LF _ _ E KC). induction (f_children n') as [|c l IH]; [reflexivity|]. cbn. rewrite IH by (intros d J; apply H; now right).
  destruct (H c) as (cn & x & xn & EC & _ & _ & CC & EX & NS); [now left|]. enough (width g' c = 1) as -> by reflexivity. unfold width, parts. rewrite EC, CC. cbn. unfold kind_at. rewrite EX.
  destruct (is_kind (f_kind xn) K_Swizzle) eqn:Q; [apply is_kind_true in Q; contradiction|reflexivity].
Qed.
Lemma supplied : forall i n' c j, nth_error g' i = Some n' -> f_kind n' = K_Call -> supplies (checked g') (checked_node n') c j -> j < length (f_children n').
Proof.
  intros i n' c j E KC (pre & post & ws & w & CH & F & S & L). cbn in CH. destruct (call_args i n' E KC) as [_ H].
  assert (forall d v, In d (f_children n') -> spread (checked g') d v -> v = 1) as ONE.
  { intros d v I (cn & x & N & C & D). destruct (H d I) as (cn' & x' & xn & EC & _ & _ & CC & EX & NS). apply g_node in N. destruct N as (m & M & ->). assert (m = cn') as -> by congruence. cbn in C. assert (x' = x) as -> by congruence.
    destruct D as [(yn & Y & KY & _)|[_ D]]; auto. apply g_node in Y. destruct Y as (ym & Y & ->). assert (ym = xn) as -> by congruence. contradiction. }
  assert (list_sum ws = length pre) as LS.
  { assert (forall d, In d pre -> In d (f_children n')) as SUB by (intros d I; rewrite CH; apply in_or_app; auto). clear CH L. induction F as [|d v pre ws P F IH]; [reflexivity|]. cbn.
    rewrite (ONE d v (SUB d (or_introl eq_refl)) P). rewrite <- IH; [reflexivity|]. intros e I. apply SUB. now right. }
  assert (w = 1) as -> by (eapply ONE; eauto; rewrite CH; apply in_or_app; right; now left). rewrite CH, app_length. cbn. lia.
Qed.
Lemma target_args : forall i n' d, nth_error g' i = Some n' -> f_kind n' = K_Call -> f_decl n' = Some d ->
  exists fn, nth_error g' d = Some fn /\ f_kind fn = K_Fn /\ length (parts g' K_Arg fn) = length (f_children n').
Proof. intros i n' d E KC D. destruct (lf_target _ LF i n' d E KC D) as (fn & EF & KF' & LE). exists fn. rewrite LE. split; auto. split; auto. eapply call_width; eauto. Qed.
Lemma outside_args : forall i n' f, nth_error g' i = Some n' -> f_kind n' = K_Call -> target K (checked_node n') f -> length (f_children n') = length (d_tys f) /\ exists x, k_fun K x = Some f.
Proof.
  intros i n' f E KC (D & x & NX & TG). cbn in D. destruct (call_args i n' E KC) as [AL _]. cbn in TG. rewrite AL in TG. split; [|eauto].
  destruct (prior i n' E) as (n0 & n & E0 & EN & S & DT & TW & _). destruct (strip_fields _ _ S) as (SK & SN & _). destruct (ri_calls _ _ _ RF i n EN) as (n1 & E1 & CA); [congruence|]. assert (n1 = n') as -> by congruence.
  rewrite D in CA. inversion CA as [a y l NY AY OA| |y l NY AY NF OY LE]; subst; [congruence|]. rewrite <- (call_width i n' E KC), (bare_values g' g n' n (ri_bare _ _ _ RF) (eq_sym S)), <- LE.
  eapply (kf_count _ _ KF); eauto. assert (y = x) as -> by (unfold g_name in NX; cbn in NX; unfold f_name in NY; congruence). exact OY.
Qed.
Lemma args_first : forall f fn, nth_error g' f = Some fn -> f_kind fn = K_Fn -> exists r, f_children fn = parts g' K_Arg fn ++ r /\ forall c, In c r -> ~ exists cn, nth_error g' c = Some cn /\ f_kind cn = K_Arg.
Proof.
  intros f fn E KF'. destruct (lf_fn _ LF f fn E KF') as [r R]. exists r. split; auto. intros c I (cn & EC & KC).
  assert (NoDup (f_children fn)) as ND by (eapply (to_nodup _ (TG' O g0 g g' T0 LG HG RF)); eauto). rewrite R in ND.
  assert (In c (parts g' K_Arg fn)) as J. { unfold parts. apply filter_In. split; [rewrite R; apply in_or_app; auto|]. unfold kind_at. rewrite EC. now apply is_kind_true. }
  apply in_split in J. destruct J as (l1 & l2 & J). rewrite J, <- app_assoc in ND. cbn in ND. apply NoDup_remove_2 in ND. apply ND. apply in_or_app. right. apply in_or_app. auto.
Qed.

(** what a variable is linked to *)
Lemma item_link : forall i n' d, nth_error g' i = Some n' -> f_kind n' = K_Item -> f_decl n' = Some d -> exists x, refers g i x d.
Proof.
  intros i n' d E KI D. destruct (prior i n' E) as (n0 & n & E0 & EN & S & DT & TW & _). destruct (strip_fields _ _ S) as (SK & SN & _).
  assert (~ (forall x, ~ variable g i x)) as NV.
  { intros NV. assert (nth_error g' i = Some n) as X by (apply (ri_others _ _ _ RF i n EN); congruence || auto). assert (n' = n) as -> by congruence. destruct (unlinked_g g0 g LG HG U _ _ EN). congruence. }
  assert (exists x, f_name n' = Some x) as [x NX]. { destruct (f_name n') as [x|] eqn:Q; eauto. exfalso. apply (lf_named _ LF i n' E); auto. rewrite KI. simpl. auto. }
  exists x. destruct (ri_variables _ _ _ RF i x) as (n1 & d1 & E1 & D1 & R); [|congruence].
  assert ((exists a, NodesSpec.declares g a i) -> False) as ND by (intros DC; apply NV; intros y (_ & _ & N & _); contradiction).
  split; [exists n; split; congruence|]. split; [|split; [exact ND|exists n; split; congruence]].
  intros ->. apply NV. intros y ((m & M & MY) & NR & _). assert (m = n) as -> by congruence. congruence.
Qed.
Lemma declared_var : forall j it, introduces g j it -> exists a l, TypecheckSpec.declares (checked g') a l it.
Proof.
  intros j it (n & a & an & l & ln & m & EJ & HA & EA & OP & HL & EL & HI & EI & NI).
  destruct (later _ _ EA) as (an' & EA' & SA & DA). destruct (later _ _ EL) as (ln' & EL' & SL & DL). destruct (later _ _ EI) as (m' & EI' & SI & DI).
  destruct (strip_fields _ _ SA) as (KA & _ & CA & _). destruct (strip_fields _ _ SL) as (KL & _ & CL & PL & _). destruct (strip_fields _ _ SI) as (KI & _ & CI & PI & _).
  assert (x_op (f_data an') = Some OpAssign) as OP' by congruence. destruct (lf_assign _ LF a an' OpAssign EA' OP') as [KAS _].
  assert (nth_error (f_children an') 0 = Some l) as H0 by (rewrite <- CA; destruct (f_children an); cbn in *; congruence).
  pose proof (lf_left _ LF a an' l ln' EA' KAS H0 EL') as KLE. destruct (f_children an') as [|l' cs] eqn:CAN; [discriminate|]. injection H0 as ->.
  destruct (f_children ln') as [|it' cs'] eqn:CLN; [rewrite CL in HI; discriminate|]. assert (it' = it) as -> by (rewrite CL in HI; cbn in HI; congruence).
  pose proof (TG' O g0 g g' T0 LG HG RF) as T'.
  (* the left side *)
  destruct (typed_node l ln' EL') as (l0 & tl & E0 & TWL & TRL & TAL & WL); [left; rewrite KLE; split; discriminate|]. unfold typable in WL. cbv zeta in WL. rewrite (at_t_kind _ _ _ _ TAL TWL), KLE in WL.
  rewrite !andb_true_iff in WL. destruct WL as [[[WL1 WL2] _] _]. apply Nat.leb_le in WL1. rewrite (tree_len _ _ _ TAL TWL), CLN in WL1. destruct cs' as [|? ?]; [|cbn in WL1; lia]. clear WL1. apply negb_true_iff in WL2. rewrite (tree_try _ _ _ TAL TRL) in WL2.
  (* the assignment *)
  destruct (typed_node a an' EA') as (a0 & ta & E0a & TWA & TRA & TAA & WA); [right; right; congruence|]. unfold typable in WA. cbv zeta in WA. rewrite !andb_true_iff in WA. destruct WA as [_ WA].
  assert (x_op (t_data ta) = Some OpAssign) as OT. { destruct TAA as [-> _]. destruct TWA as (_ & _ & _ & <- & _). exact OP'. }
  rewrite OT in WA. destruct (head_ _ _ _ _ _ _ TAA TWA CAN EL') as (l1 & tl1 & ts1 & -> & TA1 & E1 & TW1 & _ & _) in WA. destruct (head_ _ _ _ _ _ _ TA1 TW1 CLN EI') as (m1 & tm & ts2 & -> & TA2 & E2 & TW2 & K2 & TR2) in WA.
  apply andb_prop in WA as [WA1 WA2]. apply is_of in WA1. rewrite K2 in WA1. rewrite (tree_len _ _ _ TA2 TW2) in WA2. assert (f_children m' = []) as CM. { destruct (f_children m') eqn:Q; auto. exfalso. apply NI. split; congruence. }
  rewrite CM in WA2. cbn in WA2. rewrite orb_false_r in WA2. apply negb_true_iff in WA2. rewrite TR2 in WA2.
  destruct (to_child _ T' a an' l EA') as (x & Q & PLA); [rewrite CAN; now left|]. assert (x = ln') as -> by congruence. clear Q.
  destruct (to_child _ T' l ln' it EL') as (x & Q & PIA); [rewrite CLN; now left|]. assert (x = m') as -> by congruence. clear Q.
  assert (f_decl m' = None) as DN.
  { assert (nth_error g' it = Some m) as X.
    { apply (ri_others _ _ _ RF it m EI); try congruence. intros y (_ & _ & ND & _). apply ND. exists a. exists an, l, ln, m. do 6 (split; auto). }
    assert (m' = m) as -> by congruence. apply (unlinked_g g0 g LG HG U _ _ EI). }
  exists a, l, (checked_node an'), (checked_node ln'), (checked_node m'). split; [apply g_node; eauto|]. split; [exact KAS|]. split.
  { exists [], cs. split; [exact CAN|]. split; [apply g_kind_at; eauto|]. intros d []. }
  split; [apply g_node; eauto|]. split; [exact KLE|]. split; [exact CLN|]. split; [exact WL2|]. split; [exact PLA|]. split; [apply g_node; eauto|]. split; [exact WA1|]. split; [exact CM|]. split; [exact DN|]. split; [exact WA2|exact PIA].
Qed.

Lemma checked_wf : well_formed K (checked g').
Proof.
  pose proof (TG' O g0 g g' T0 LG HG RF) as T'. split.
  - intros i n N. apply g_node in N. destruct N as (n' & E & ->). split; [exact (to_nodup _ T' i n' E)|]. intros c I. destruct (to_child _ T' i n' c E I) as (cn & EC & P). exists (checked_node cn). split; [apply g_node; eauto|exact P].
  - intros i n p N P. apply g_node in N. destruct N as (n' & E & ->). destruct (to_parent _ T' i n' p E P) as (pn & EP & I). split; [exact (io_parent _ (lf_order _ LF) i n' p E P)|]. exists (checked_node pn). split; [apply g_node; eauto|exact I].
  - intros i n N KL. apply g_node in N. destruct N as (n' & E & ->). split.
    + intros p P. destruct (to_parent _ T' i n' p E P) as (pn & EP & I). apply g_kind_at. exists pn. split; auto.
      destruct (typed_node p pn EP) as (p0 & t & E0 & TW & _ & TA & W); [right; left; intros Q; rewrite Q in I; destruct I|]. unfold typable in W. cbv zeta in W. rewrite !andb_true_iff in W. destruct W as [[_ W] _].
      apply orb_prop in W as [W|W]; [apply is_of in W; rewrite (at_t_kind _ _ _ _ TA TW) in W; exact W|]. exfalso. rewrite forallb_forall in W. destruct (sub_ _ _ _ _ _ TA TW I E) as (c0 & t' & A1 & _ & _ & _ & A5 & _).
      specialize (W _ A1). apply negb_true_iff, not_of in W. apply W. rewrite A5. exact KL.
    + destruct (typed_node i n' E) as (p0 & t & E0 & TW & TR & TA & W); [left; split; intros Q; cbn in KL; unfold f_kind in Q; congruence|]. unfold typable in W. cbv zeta in W. rewrite (at_t_kind _ _ _ _ TA TW) in W.
      change (f_kind n' = K_Left) in KL. rewrite KL in W. rewrite !andb_true_iff in W. destruct W as [[[W1 W2] _] _]. apply Nat.leb_le in W1. rewrite (tree_len _ _ _ TA TW) in W1. split; [exact W1|]. apply negb_true_iff in W2. rewrite (tree_try _ _ _ TA TR) in W2. exact W2.
  - intros i n N KI. apply g_node in N. destruct N as (n' & E & ->). change (f_kind n' = K_Item) in KI. split.
    + destruct (typed_node i n' E) as (p0 & t & E0 & TW & TR & TA & W); [left; rewrite KI; split; discriminate|]. unfold typable in W. cbv zeta in W. rewrite (at_t_kind _ _ _ _ TA TW), KI in W. rewrite !andb_true_iff in W. destruct W as [[W1 _] _].
      destruct TA as [TD _]. rewrite TD in W1. destruct TW as (_ & _ & _ & _ & _ & _ & _ & TT). cbn. rewrite TT. destruct (x_ty (f_data p0)); [discriminate|reflexivity].
    + intros d D. cbn in D. destruct (item_link i n' d E KI D) as [x (p & l & w & (k & c & _ & B & _) & _)]. inversion B as [L E1|it NL LB E1|a NL NB PA E1]; subst.
      * left. destruct L as (n & EN & LO & _). destruct (later _ _ EN) as (n1 & E1 & S & _). destruct (strip_fields _ _ S) as (SK & _). exists (f_kind n1). split; [apply g_kind_at; eauto|]. rewrite <- SK. clear -LO. unfold looping in LO. unfold binder, counting. simpl in *. intuition.
      * right. destruct LB as (n & ls & j & m & r & _ & _ & IN & _). destruct (declared_var _ _ IN) as (a & l' & DC). split; [|eauto]. destruct DC as (an & ln & dn & _ & _ & _ & _ & _ & _ & _ & _ & DN & KD & _).
        apply g_node in DN. destruct DN as (dn' & ED & ->). exact (DB i n' d dn' E KI D ED KD).
      * left. destruct PA as (n & ls & r & _ & _ & _ & (_ & m & EM & KM) & _). destruct (later _ _ EM) as (m1 & E1 & S & _). destruct (strip_fields _ _ S) as (SK & _). exists (f_kind m1). split; [apply g_kind_at; eauto|]. rewrite <- SK. destruct KM as [-> | ->]; right; simpl; auto.
  - intros i n N KF'. apply g_node in N. destruct N as (n' & E & ->). destruct (args_first i n' E KF') as (r & R & NR). exists (parts g' K_Arg n'), r. split; [exact R|]. split.
    + intros c I. apply parts_in in I. destruct I as (_ & cn & EC & KC). apply g_kind_at. eauto.
    + intros c I Q. apply g_kind_at in Q. exact (NR c I Q).
  - intros i n N KC. apply g_node in N. destruct N as (n' & E & ->). change (f_kind n' = K_Call) in KC. split; [|split].
    + destruct (typed_node i n' E) as (p0 & t & E0 & TW & TR & TA & W); [left; rewrite KC; split; discriminate|]. unfold typable in W. cbv zeta in W. rewrite (at_t_kind _ _ _ _ TA TW), KC in W. rewrite !andb_true_iff in W. destruct W as [[[W1 _] _] _].
      destruct TA as [TD _]. rewrite TD in W1. destruct TW as (_ & _ & _ & _ & _ & _ & _ & TT). cbn. rewrite TT. destruct (x_ty (f_data p0)); [discriminate|reflexivity].
    + intros d D. destruct (target_args i n' d E KC D) as (fn & EF & KF' & LE). exists (checked_node fn). split; [apply g_node; eauto|]. split; [exact KF'|]. intros c j S. apply (supplied i n' c j E KC) in S.
      destruct (args_first d fn EF KF') as (r & R & _). destruct (nth_error (parts g' K_Arg fn) j) as [a|] eqn:Q.
      * exists a. split; [cbn; rewrite R, nth_error_app1; auto; apply nth_error_Some; congruence|]. apply nth_error_In, parts_in in Q. destruct Q as (_ & an & EA & KA). apply g_kind_at. eauto.
      * apply nth_error_None in Q. lia.
    + intros c I. destruct (call_args i n' E KC) as [_ H]. destruct (H c I) as (cn & x & xn & EC & KCA & TR & CC & _). exists (checked_node cn), x. split; [apply g_node; eauto|]. auto.
  - intros i n sigs ps N KC CH NE PA. apply g_node in N. destruct N as (n' & E & ->). change (f_kind n' = K_Call) in KC. split; [|split].
    + destruct CH as [(d & f & D & NF & SI)|(f & TG & ->)].
      * cbn in D. destruct PA as [(d2 & f2 & D2 & NF2 & F2)|(f2 & (TD & _) & _)]; [|cbn in TD; congruence]. cbn in D2. assert (d2 = d) as -> by congruence. unfold is_node in NF, NF2. assert (f2 = f) as -> by congruence.
        destruct (target_args i n' d E KC D) as (fn & EF & KF' & _). apply (OF d f sigs ps); auto. change (is_node (checked g') d f) in NF. apply g_node in NF. destruct NF as (fn2 & EF2 & ->). assert (fn2 = fn) as -> by congruence. exact KF'.
      * destruct PA as [(d2 & f2 & D2 & _)|(f2 & TG2 & ->)]; [destruct TG as (TD & _); cbn in *; congruence|]. destruct TG as (TD & x & NX & TG), TG2 as (_ & x2 & NX2 & TG2). assert (x2 = x) as -> by congruence. assert (f2 = f) as -> by (destruct (g_alias (checked_node n')); congruence).
        destruct (call_args i n' E KC) as [AL _]. cbn in TG. rewrite AL in TG. eapply (kf_sigs _ _ KF); eauto.
    + cbn. destruct PA as [(d & f & D & NF & F)|(f & TG & ->)].
      * cbn in D. destruct (target_args i n' d E KC D) as (fn & EF & KF' & LE). apply g_node in NF. destruct NF as (fn2 & EF2 & ->). assert (fn2 = fn) as -> by congruence. rewrite <- LE. cbn in F. rewrite g_filter in F. clear -F. induction F; cbn; lia.
      * destruct (outside_args i n' f E KC TG) as [-> _]. auto.
    + intros c cn x I NC IX Q. destruct (call_args i n' E KC) as [_ H]. destruct (H c I) as (cn' & x' & xn & EC & _ & _ & CC & EX & NS). apply g_node in NC. destruct NC as (m & M & ->). assert (m = cn') as -> by congruence. cbn in IX. rewrite CC in IX. destruct IX as [<-|[]].
      apply g_kind_at in Q. destruct Q as (y & Y & KY). congruence.
Qed.
(** no call has a swizzle as an argument *)
Lemma checked_plain : forall i n' c cn x xn, nth_error g' i = Some n' -> f_kind n' = K_Call -> In c (f_children n') -> nth_error g' c = Some cn -> In x (f_children cn) ->
  nth_error g' x = Some xn -> f_kind xn <> K_Swizzle.
Proof.
  intros i n' c cn x xn E KC I EC IX EX. destruct (call_args i n' E KC) as [_ H]. destruct (H c I) as (cn' & x' & xn' & EC' & _ & _ & CC & EX' & NS). assert (cn' = cn) as -> by congruence. rewrite CC in IX. destruct IX as [<-|[]]. congruence.
Qed.
End Typed.
