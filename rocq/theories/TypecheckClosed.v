(** * The result of type propagation is closed under the rules. *)
From Coq Require Import String List Bool Arith Lia Sorted.
From Verif Require Import Syntax TypeModel LifetimeModel TypecheckModel TypecheckSpec TypeProofs TypecheckProofs TypecheckShape TypecheckInv TypecheckVisit.
Import ListNotations.
Local Open Scope string_scope.
Local Open Scope nat_scope.
Local Open Scope list_scope.

Lemma sorted_insert_in : forall i l x, In x (sorted_insert i l) <-> x = i \/ In x l.
Proof.
  induction l as [|j l IH]; intros x; simpl; [intuition|]. destruct (i <? j) eqn:A; simpl; [intuition|].
  destruct (i =? j) eqn:B; simpl; [apply Nat.eqb_eq in B; subst; intuition|]. rewrite IH. intuition.
Qed.
Lemma sorted_insert_sorted : forall i l, StronglySorted Peano.lt l -> StronglySorted Peano.lt (sorted_insert i l).
Proof.
  induction l as [|j l IH]; intros S; simpl; [repeat constructor|]. inversion S as [|? ? S1 S2]; subst.
  destruct (i <? j) eqn:A; [|destruct (i =? j) eqn:B; auto].
  - apply Nat.ltb_lt in A. constructor; auto. constructor; auto. eapply Forall_impl; [|exact S2]. simpl. lia.
  - apply Nat.ltb_ge in A. apply Nat.eqb_neq in B. constructor; [auto|]. apply Forall_forall. intros x X. apply sorted_insert_in in X.
    rewrite Forall_forall in S2. destruct X as [-> |X]; [lia|auto].
Qed.
Lemma sort_dedup_spec : forall l, StronglySorted Peano.lt (sort_dedup l) /\ forall x, In x (sort_dedup l) <-> In x l.
Proof.
  induction l as [|i l (A & B)]; simpl; [split; [constructor|tauto]|]. split; [now apply sorted_insert_sorted|].
  intros x. rewrite sorted_insert_in, B. intuition.
Qed.
Lemma seq_sorted : forall n a, StronglySorted Peano.lt (seq a n).
Proof.
  induction n as [|n IH]; intros a; simpl; constructor; auto. apply Forall_forall. intros x X. apply in_seq in X. lia.
Qed.

Section Wf.
Variables (K : known) (g0 : graph).
Hypothesis WF : well_formed K g0.

(** ** Rounds *)
Lemma visit_inv : forall i cur s s', StronglySorted Peano.lt (i :: cur) -> Inv K g0 None (i :: cur) (s_new s) (s_g s) -> visit K i s = TOk s' ->
  Inv K g0 None cur (s_new s') (s_g s').
Proof.
  intros i cur s s' S H V. pose proof (inv_begin _ _ WF _ _ _ _ S H) as I.
  assert (forall x, In x cur -> i < x) as LT by (intros; eapply sorted_lt; eauto).
  unfold visit in V. tinv V. apply get_ok in E. rename x into n. destruct (g_kind n) eqn:KK.
  all: try (eapply (closure_inv K g0 WF i cur LT s s' n); eauto; fail); try (eapply (call_closure_inv K g0 WF i cur LT s s' n); eauto; fail).
  all: try (eapply (go_inv K g0 WF i cur LT s s' n); eauto; fail); try (eapply (fn_inv K g0 WF i cur LT s s' n); eauto; fail).
  all: try (eapply (call_arg_inv K g0 WF i cur LT s s' n); eauto; fail); try (eapply (call_inv K g0 WF i cur LT s s' n); eauto; fail).
  all: try (eapply (assign_inv K g0 WF i cur LT s s' n); eauto; fail); try (eapply (item_inv K g0 WF i cur LT s s' n); eauto; fail).
  all: try (eapply (compare_inv K g0 WF i cur LT s s' n); eauto; fail); try (eapply (sift_inv K g0 WF i cur LT s s' n); eauto; fail).
  all: try (eapply (if_inv K g0 WF i cur LT s s' n); eauto; fail); try (eapply (arg_inv K g0 WF i cur LT s s' n); eauto; fail).
  all: try (eapply (pass_up_inv K g0 WF i cur LT s s' n); eauto; rewrite KK; unfold passing; simpl; tauto).
  all: try (eapply (block_inv K g0 WF i cur LT s s' n); eauto; rewrite KK; unfold blocky; simpl; tauto).
  all: try (eapply (component_inv K g0 WF i cur LT s s' n); eauto; rewrite KK; unfold number_place; simpl; tauto).
  all: try (apply finish_none in V; subst; eapply (push_other K g0 WF i cur LT s n); eauto; rewrite KK; discriminate).
  all: injection V as <-; apply (quiet_other K g0 i cur s n); auto; try (rewrite KK; discriminate).
  all: unfold ruled, passing, blocky, number_place; rewrite KK; simpl; intuition discriminate.
Qed.
Lemma round_inv : forall todo s s', StronglySorted Peano.lt todo -> Inv K g0 None todo (s_new s) (s_g s) -> round K todo s = TOk s' ->
  Inv K g0 None [] (s_new s') (s_g s').
Proof.
  induction todo as [|i todo IH]; intros s s' S H R; simpl in R; [injection R as <-; auto|]. tinv R.
  eapply IH; [|eapply visit_inv; eauto|eauto]. now inversion S.
Qed.
Lemma inv_next : forall new g, Inv K g0 None [] new g -> Inv K g0 None (sort_dedup new) [] g.
Proof.
  intros new g I. destruct (sort_dedup_spec new) as (_ & IN).
  assert (forall x, pend None [] new x <-> pend None (sort_dedup new) [] x) as P.
  { intros x. unfold pend. rewrite IN. simpl. tauto. }
  split; try apply I.
  - intros i n A B C. rewrite <- P. eapply V_settled; eauto.
  - intros y n sigs A B C D. rewrite <- P. destruct (V_choose _ _ _ _ _ _ I y n sigs A B C D) as [H|(t & u & E & F & G & H)]; auto.
    right. exists t, u. repeat split; auto. intros j c x uj X Y. rewrite <- P. eauto.
  - intros y sigs j c x A. destruct (V_carg _ _ _ _ _ _ I y sigs j c x A) as [H|[H|[H|[H1 H2]]]]; auto; try contradiction.
    right; left. now apply IN.
  - intros a l d j A. destruct (V_user _ _ _ _ _ _ I a l d j A) as [H|[H|[[H1 H2]|[H1 _]]]]; auto; try contradiction.
    right; right; right. rewrite !IN. auto.
  - intros a l d r A. rewrite <- P. eapply V_assign; eauto.
  - intros c cn p pn j A B C D E. rewrite <- P. eapply V_takes; eauto.
Qed.
Lemma inv_start : Inv K g0 None (seq 0 (length g0)) [] g0.
Proof.
  assert (forall i n, is_node g0 i n -> pend None (seq 0 (length g0)) [] i) as P.
  { intros i n N. right; left. apply in_seq. unfold is_node in N. assert (nth_error g0 i <> None) as X by congruence. apply nth_error_Some in X. lia. }
  assert (forall i n, is_node g0 i n -> In i (seq 0 (length g0))) as Q.
  { intros i n N. destruct (P i n N) as [X|[X|X]]; [discriminate|auto|contradiction]. }
  assert (forall a l d, declares g0 a l d -> ty_at g0 d = None) as DN.
  { intros a l d D. destruct (declares_tree _ _ WF _ _ _ D) as (_ & _ & _ & _ & (dn & Y1 & Y2 & _)). rewrite (node_ty _ _ _ Y1).
    apply (wf_item _ _ WF _ _ Y1 Y2). }
  split; eauto using shape_refl.
  - intros y sigs j c x A. destruct (argument_tree _ _ WF _ _ _ _ _ A) as (_ & _ & _ & (cn & C1 & _) & _). eauto.
  - intros y n d t A B C D E. rewrite (node_ty _ _ _ A), (proj1 (wf_call _ _ WF _ _ A B)) in E. discriminate.
  - intros a l d j [A _]. eauto.
  - intros a l d r A. destruct (sides_tree _ _ WF _ _ _ _ A) as (A0 & _). destruct (declares_tree _ _ WF _ _ _ A0) as (_ & _ & (an & An & _) & _). eauto.
Qed.
Lemma round_changed : forall K todo s s', round K todo s = TOk s' -> s_changed s' = false ->
  forall i pre post, todo = pre ++ i :: post -> exists s1 s2, round K pre s = TOk s1 /\ visit K i s1 = TOk s2 /\ round K post s2 = TOk s'.
Proof.
  intros K' todo s s' R C i pre. revert todo s R. induction pre as [|a pre IH]; intros todo s R post E; subst; simpl in R.
  - tinv R. exists s, x. auto.
  - tinv R. destruct (IH _ _ R post eq_refl) as (s1 & s2 & A & B & D). exists s1, s2. simpl. rewrite E. auto.
Qed.
Lemma propagate_inv : forall n todo errs g r, StronglySorted Peano.lt todo -> Inv K g0 None todo [] g -> propagate K n todo errs g = TOk r ->
  exists todo' errs' g' s', StronglySorted Peano.lt todo' /\ Inv K g0 None todo' [] g' /\ round K todo' (St g' [] errs' false) = TOk s' /\
    s_changed s' = false /\ r = (s_g s', s_errs s').
Proof.
  induction n as [|n IH]; intros todo errs g r S H P; simpl in P; [discriminate|]. tinv P. destruct (s_changed x) eqn:C.
  - eapply IH; [|apply inv_next|exact P]; [apply sort_dedup_spec|]. eapply (round_inv todo (St g [] errs false)); eauto.
  - injection P as <-. exists todo, errs, g, x. auto.
Qed.

(** ** The last round *)
Lemma fin_last : forall i o s s', finish i o s = TOk s' -> s_changed s' = false -> o = None /\ s' = push i s.
Proof.
  intros i [t|] s s' F C; [|split; auto; now apply finish_none]. destruct (finish_some _ _ _ _ F) as (n & _ & _ & X & _). congruence.
Qed.
Definition still (i : nat) (s s' : st) : Prop :=
  s_g s' = s_g s /\ s_changed s = false /\ forall j, j <> i -> In j (s_errs s) -> In j (s_errs s').
Lemma still_push : forall i s, s_changed s = false -> still i s (push i s). Proof. intros. repeat split; auto. Qed.
Lemma still_refl : forall i s, s_changed s = false -> still i s s. Proof. intros. repeat split; auto. Qed.
Lemma fin_still : forall i o s s', finish i o s = TOk s' -> s_changed s' = false -> still i s s'.
Proof. intros i o s s' F C. destruct (fin_last _ _ _ _ F C) as [_ ->]. now apply still_push. Qed.
Ltac stil H C := first [ discriminate H | injection H as <-; first [now apply still_refl|now apply still_push]
  | eapply fin_still; [exact H|exact C] | exfalso; destruct (fin_last _ _ _ _ H C) as [? _]; discriminate ].
Lemma visit_still : forall i s s', visit K i s = TOk s' -> s_changed s' = false -> still i s s'.
Proof.
  intros i s s' V C. unfold visit in V. tinv V. destruct (g_kind x) eqn:KK; try stil V C.
  all: try (unfold closure_, go_, fn_, arg_, compare, call_closure, sift, if_, component, block in V; repeat (first [stil V C|tinv V]); fail).
  all: try (unfold pass_up in V; repeat (first [stil V C|tinv V]); fail).
  - unfold call, refine_call in V. repeat (first [stil V C|tinv V]).
    all: destruct (fin_last _ _ _ _ V C) as [_ ->]; repeat split; auto.
  - unfold call_arg in V. tinv V. destruct (g_children x0); [stil V C|]. tinv V. destruct (g_parent x0); [|stil V C]. cbv zeta in V. do 3 tinv V. destruct x4.
    + destruct (fin_last _ _ _ _ V C) as [_ ->]. repeat split; auto. simpl. intros j A B. now apply in_in_remove.
    + injection V as <-. repeat split; auto. simpl. intros j A B. right. now apply in_in_remove.
  - unfold item, assign in V. repeat (first [stil V C|tinv V]).
  - unfold item, assign in V. repeat (first [stil V C|tinv V]).
Qed.

Lemma first_find : forall g n k c, (forall d, In d (g_children n) -> exists m, is_node g d m) -> first_of g n k c -> find_child g n k = TOk (Some c).
Proof.
  intros g n k c W (pre & post & A & (m & M & B) & C). unfold find_child. rewrite A in *. clear A. induction pre as [|d pre IH]; simpl.
  - apply get_ok in M. rewrite M. simpl. rewrite B, is_kind_refl. auto.
  - destruct (W d (or_introl eq_refl)) as (q & Q). pose proof Q as Q'. apply get_ok in Q. rewrite Q. simpl.
    destruct (is_kind (g_kind q) k) eqn:X; [exfalso; apply (C d); [now left|]; apply is_kind_iff in X; exists q; auto|].
    apply IH; intros; [apply W|apply C]; now right.
Qed.
Lemma not_item_ids : forall n, ~ keyed n -> item_ids n = false.
Proof. intros n H. destruct (item_ids n) eqn:E; auto. exfalso. apply H. now apply keyed_iff'. Qed.
Lemma args_are_types : forall g n ts, args_are g n ts -> (forall c cn x, In c (g_children n) -> is_node g c cn -> In x (g_children cn) -> exists m, is_node g x m) ->
  arg_types g (g_children n) = TOk ts.
Proof.
  intros g n ts A. unfold args_are in A. induction A as [|c t l ts (cn & x & B & D & E & F) A IH]; intros W; simpl; auto.
  pose proof B as B'. apply get_ok in B'. rewrite B'. simpl. rewrite D, is_kind_refl, E.
  destruct (W c cn x (or_introl eq_refl) B) as (m & M); [rewrite E; now left|]. rewrite (node_ty _ _ _ M) in F. subst t.
  apply get_ok in M. rewrite M. simpl. rewrite IH; [reflexivity|]. intros c' cn' x' X. apply W. now right.
Qed.
Lemma wf_nodes : forall g i n, shape g0 g -> is_node g i n -> forall d, In d (g_children n) -> exists m, is_node g d m.
Proof. intros g i n S N d D. destruct (wf_child _ _ WF _ _ _ _ S N D) as (_ & m & M & _). eauto. Qed.
Lemma sigs_are_of : forall g i f l, shape g0 g -> is_node g i f -> sigs_are g f l -> forall l', sigs_of g (g_children f) = TOk l' -> l' = l.
Proof.
  intros g i f l S N A l' H. apply sigs_of_are in H. eapply Forall2_det; [|exact H|exact A].
  intros c a b (m & M & X) (m' & M' & X'). rewrite (node_det _ _ _ _ M' M) in X'. eapply sig_node_det; eauto.
Qed.
Ltac nof H C := exfalso; destruct (fin_last _ _ _ _ H C) as [? _]; discriminate.
Lemma visit_done : forall i todo s s' t, Inv K g0 None todo [] (s_g s) -> visit K i s = TOk s' -> s_changed s' = false -> derives K (s_g s) i t ->
  ty_at (s_g s) i = Some t \/ In i (s_errs s').
Proof.
  intros i todo s s' t I V C D. pose proof (V_shape _ _ _ _ _ _ I) as S. unfold visit in V. tinv V. apply get_ok in E. rename x into n.
  inversion D as [i' nn c cn u D1 D2 D3 D4 D5 D6 D7|i' nn c cn u D1 D2 D3 D4 D5 D6|i' nn D1 D2 D3|i' nn l c cn u D1 D2 D3 D4 D5 D6|i' nn c u D1 D2 D3 D4|
      i' nn c cn u D1 D2 D3 D4 D5 D6 D7|i' nn c u D1 D2 D3 D4|i' nn c u D1 D2 D3 D4|i' nn d dn D1 D2 D3 D4 D5 D6 D7|i' nn d dn D1 D2 D3 D4 D5 D6|
      i' nn d dn u D1 D2 D3 D4 D5 D6 D7 D8|i' nn l u D1 D2 D3 D4 D5 D6 D7|i' nn c cn u D1 D2 D3 D4 D5|i' nn u D1 D2 D3 D4|i' nn sigs ts u D1 D2 D3 D4 D5 D6];
      subst; pose proof (node_det _ _ _ _ D1 E); subst nn; pose proof E as E'; apply get_ok in E'.
  - assert (pass_up i s = TOk s') as P by (unfold passing in D2; simpl in D2; decompose [or] D2; try contradiction; match goal with H : _ = g_kind n |- _ => rewrite <- H in V; exact V end).
    unfold pass_up in P. rewrite E' in P. cbn [tbind rev app option_map] in P. destruct (g_children n) as [|c' l]; [discriminate|]. injection D3 as ->.
    apply get_ok in D4. rewrite D4 in P. cbn [tbind rev app option_map] in P. rewrite (not_item_ids _ D5), D6 in P. destruct (_ && _); [discriminate|].
    destruct (is_kind (g_kind cn) K_Return) eqn:R; [apply is_kind_iff in R; contradiction|]. nof P C.
  - assert (pass_up i s = TOk s') as P by (unfold passing in D2; simpl in D2; decompose [or] D2; try contradiction; match goal with H : _ = g_kind n |- _ => rewrite <- H in V; exact V end).
    unfold pass_up in P. rewrite E' in P. cbn [tbind rev app option_map] in P. destruct (g_children n) as [|c' l]; [discriminate|]. injection D3 as ->.
    apply get_ok in D4. rewrite D4 in P. cbn [tbind rev app option_map] in P. rewrite D5 in P. assert (item_ids cn = false) as X by (unfold item_ids; now rewrite D6). rewrite X in P.
    destruct (_ && _); [discriminate|]. rewrite D6, is_kind_refl in P. tinv P. tinv P. nof P C.
  - assert (block i s = TOk s') as P by (unfold blocky in D2; simpl in D2; decompose [or] D2; try contradiction; match goal with H : _ = g_kind n |- _ => rewrite <- H in V; exact V end).
    unfold block in P. rewrite E' in P. cbn [tbind rev app option_map] in P. rewrite D3 in P. nof P C.
  - assert (block i s = TOk s') as P by (unfold blocky in D2; simpl in D2; decompose [or] D2; try contradiction; match goal with H : _ = g_kind n |- _ => rewrite <- H in V; exact V end).
    unfold block in P. rewrite E' in P. cbn [tbind rev app option_map] in P. rewrite D3, rev_app_distr in P. cbn [tbind rev app option_map] in P. apply get_ok in D4. rewrite D4 in P. cbn [tbind rev app option_map] in P.
    rewrite (not_item_ids _ D5), D6 in P. nof P C.
  - rewrite D2 in V. unfold sift in V. rewrite E' in V. cbn [tbind rev app option_map] in V. rewrite (first_find _ _ _ _ (wf_nodes _ _ _ S E) D3) in V. cbn [tbind rev app option_map] in V.
    unfold ty_at in D4. unfold get in V. destruct (nth_error (s_g s) c); [|discriminate]. cbn [tbind rev app option_map] in V. rewrite D4 in V. nof V C.
  - assert (component i s = TOk s') as P by (unfold number_place in D2; simpl in D2; decompose [or] D2; try contradiction; match goal with H : _ = g_kind n |- _ => rewrite <- H in V; exact V end).
    unfold component in P. rewrite E' in P. cbn [tbind rev app option_map] in P. destruct (g_children n) as [|c' l]; [discriminate|]. injection D3 as ->.
    apply get_ok in D4. rewrite D4 in P. cbn [tbind rev app option_map] in P. rewrite (not_item_ids _ D5), D6 in P. cbn [option_map] in P. destruct (goes_with _ _); [|discriminate]. nof P C.
  - rewrite D2 in V. unfold if_ in V. rewrite E' in V. cbn [tbind rev app option_map] in V. rewrite (first_find _ _ _ _ (wf_nodes _ _ _ S E) D3) in V. cbn [tbind rev app option_map] in V.
    unfold ty_at in D4. unfold get in V. destruct (nth_error (s_g s) c); [|discriminate]. cbn [tbind rev app option_map] in V. rewrite D4 in V. nof V C.
  - rewrite D2 in V. unfold go_ in V. rewrite E' in V. cbn [tbind rev app option_map] in V. destruct (g_children n) as [|c' l]; [discriminate|]. injection D3 as ->.
    unfold ty_at in D4. unfold get in V. destruct (nth_error (s_g s) c); [|discriminate]. cbn [tbind rev app option_map] in V. rewrite D4 in V. nof V C.
  - rewrite D2 in V. unfold item in V. rewrite E' in V. cbn [tbind rev app option_map] in V. assert (item_ids n = false) as X by (apply not_item_ids; intros [_ Y]; contradiction).
    rewrite X, D4 in V. apply get_ok in D5. rewrite D5 in V. cbn [tbind rev app option_map] in V. apply index_counting in D6. rewrite D6, D7 in V. nof V C.
  - rewrite D2 in V. unfold item in V. rewrite E' in V. cbn [tbind rev app option_map] in V. assert (item_ids n = false) as X by (apply not_item_ids; intros [_ Y]; contradiction).
    rewrite X, D4 in V. apply get_ok in D5. rewrite D5 in V. cbn [tbind rev app option_map] in V. rewrite D6 in V. cbn [tbind rev app option_map] in V. nof V C.
  - rewrite D2 in V. unfold item in V. rewrite E' in V. cbn [tbind rev app option_map] in V. assert (item_ids n = false) as X by (apply not_item_ids; intros [_ Y]; contradiction).
    rewrite X, D4 in V. apply get_ok in D5. rewrite D5 in V. cbn [tbind rev app option_map] in V.
    destruct (is_index_loop (g_kind dn)) eqn:IL; [apply index_counting in IL; contradiction|].
    destruct (is_kind (g_kind dn) K_Arg) eqn:IA; [apply is_kind_iff in IA; contradiction|]. rewrite D8 in V.
    destruct (g_parent n); [|nof V C]. tinv V. nof V C.
  - rewrite D2 in V. unfold item in V. rewrite E' in V. cbn [tbind rev app option_map] in V. assert (item_ids n = false) as X by (apply not_item_ids; intros [_ Y]; contradiction).
    rewrite X, D4, D5 in V. destruct D6 as (ln & L1 & L2). rewrite (node_ty _ _ _ L1) in D7. apply get_ok in L1. rewrite L1 in V. cbn [tbind rev app option_map] in V.
    rewrite L2, is_kind_refl, D7 in V. nof V C.
  - rewrite D2 in V. unfold call_arg in V. rewrite E' in V. cbn [tbind rev app option_map] in V. destruct (g_children n) as [|c' l]; [discriminate|]. injection D3 as ->.
    apply get_ok in D4. rewrite D4 in V. cbn [tbind] in V. rewrite D5 in V. cbn [option_map] in V. destruct (g_parent n); [|nof V C].
    cbv zeta in V. tinv V. tinv V. tinv V. destruct x1; [nof V C|]. injection V as <-. right. now left.
  - rewrite D2 in V. unfold call in V. rewrite E' in V. cbn [tbind] in V. destruct D3 as [(d & f & A1 & A2 & A3)|(f & A1 & A2)].
    + rewrite A1 in V. pose proof A2 as A2'. apply get_ok in A2'. rewrite A2' in V. cbn [tbind] in V. tinv V.
      rewrite (sigs_are_of _ _ _ _ S A2 A3 _ E0) in V. unfold refine_call in V. tinv V. cbn [tbind rev app option_map] in V.
      destruct D4 as [(d' & B1 & B2)|(f' & (B1 & _) & _)]; [|congruence]. rewrite A1 in B1. injection B1 as <-.
      rewrite (node_ty _ _ _ A2) in B2. rewrite B2 in V. destruct (g_ty n) as [w|] eqn:W; [|nof V C].
      left. rewrite (node_ty _ _ _ E), W. rewrite <- B2, <- (node_ty _ _ _ A2). symmetry.
      destruct (node0 _ _ _ _ S E) as (n0 & N0 & X). rewrite X in D2, A1. simpl in D2, A1.
      eapply (V_plain _ _ _ _ _ _ I i n0 d w); eauto; [|rewrite (node_ty _ _ _ E); auto].
      pose proof (same_choices K _ _ n (ty_at g0 i) [] (same_sigs_sym _ _ (inv_same_sigs _ _ _ _ _ _ I))) as Y. rewrite X in Y.
      rewrite <- (retype_id n0 (ty_at g0 i)) by (now rewrite (node_ty _ _ _ N0)). apply Y. left. exists d, f. auto.
    + rewrite (proj1 A1) in V. tinv V. rewrite (target_callee _ _ _ _ A1 E0) in V. rewrite <- A2 in V. nof V C.
  - rewrite D2 in V. unfold call in V. rewrite E' in V. cbn [tbind] in V.
    assert (arg_types (s_g s) (g_children n) = TOk ts) as AT.
    { apply args_are_types; auto. intros c cn x X Y Z. eapply wf_nodes; eauto. }
    destruct D3 as [(d & f & A1 & A2 & A3)|(f & A1 & A2)].
    + rewrite A1 in V. pose proof A2 as A2'. apply get_ok in A2'. rewrite A2' in V. cbn [tbind] in V. tinv V.
      rewrite (sigs_are_of _ _ _ _ S A2 A3 _ E0) in V. unfold refine_call in V. rewrite AT in V. cbn [tbind] in V. rewrite D6 in V. nof V C.
    + rewrite (proj1 A1) in V. tinv V. rewrite (target_callee _ _ _ _ A1 E0) in V. subst sigs. destruct (d_ext f) eqn:X; [congruence|].
      unfold refine_call in V. rewrite AT in V. cbn [tbind] in V. rewrite D6 in V. nof V C.
Qed.

(** ** The last round *)
Lemma round_still : forall todo s s', round K todo s = TOk s' -> s_changed s' = false ->
  s_g s' = s_g s /\ s_changed s = false /\ forall j, ~ In j todo -> In j (s_errs s) -> In j (s_errs s').
Proof.
  induction todo as [|i todo IH]; intros s s' R C; simpl in R; [injection R as <-; auto|]. tinv R.
  destruct (IH _ _ R C) as (A & B & D). destruct (visit_still _ _ _ E B) as (A' & B' & D'). repeat split; auto; [congruence|].
  intros j J J'. apply D; [intros X; apply J; now right|]. apply D'; auto. intros ->. apply J. now left.
Qed.
Lemma nth_forall2 : forall (A B : Type) (R : A -> B -> Prop) l l', length l = length l' ->
  (forall j a b, nth_error l j = Some a -> nth_error l' j = Some b -> R a b) -> Forall2 R l l'.
Proof.
  induction l as [|a l IH]; intros [|b l'] L H; simpl in L; try discriminate; constructor; [apply (H 0); auto|].
  apply IH; [now injection L|]. intros j x y X Y. apply (H (S j)); auto.
Qed.
Lemma forall2_len : forall (A B : Type) (R : A -> B -> Prop) l l', Forall2 R l l' -> length l = length l'.
Proof. intros A B R l l' F. induction F; simpl; auto. Qed.
Lemma forall2_nth : forall (A B : Type) (R : A -> B -> Prop) l l' j b, Forall2 R l l' -> nth_error l' j = Some b ->
  exists a, nth_error l j = Some a /\ R a b.
Proof.
  intros A B R l l' j b F. revert j. induction F as [|x y l l' X F IH]; intros [|j] H; simpl in *; try discriminate; [injection H as <-; eauto|auto].
Qed.
Lemma match_args_later : forall names ps u ts tv r, Forall2 (fun a b => a = None \/ a = b) u ts -> match_args names u ps tv = r -> r <> AAmb ->
  match_args names ts ps tv = r.
Proof.
  intros names ps. induction ps as [|p ps IH]; intros u ts tv r F H N; destruct F as [|a b u ts [-> | ->] F]; simpl in *; auto.
  - congruence.
  - destruct b as [b|]; auto. destruct (bind_ty_vars p b names tv) as [[p' tv']|]; auto. destruct (goes_with p' b); auto. destruct (ambiguous p' b); auto.
    eapply IH; eauto.
Qed.
Lemma refine_later : forall sigs u ts t, Forall2 (fun a b => a = None \/ a = b) u ts -> refine sigs u = RFound t -> refine sigs ts = RFound t.
Proof.
  intros sigs u ts t F H. assert (refine_loop sigs u = RFound t -> refine_loop sigs ts = RFound t) as X; [|destruct sigs; auto].
  clear H. induction sigs as [|s sigs IH]; simpl; [discriminate|]. intros H.
  destruct (match_args (svars s) u (sargs s) (repeat None (length (svars s)))) eqn:M; try discriminate;
    rewrite (match_args_later _ _ _ _ _ _ F M) by discriminate; auto.
Qed.
Lemma plain_det : forall g n t t', plain_result K g n t -> plain_result K g n t' -> t = t'.
Proof.
  intros g n t t' [(d & A & B)|(f & A & ->)] [(d' & A' & B')|(f' & A' & ->)].
  - congruence.
  - destruct A' as [A' _]. congruence.
  - destruct A as [A _]. congruence.
  - now rewrite (target_det _ _ _ _ A A').
Qed.
Lemma derives_det : forall g i t t', ~ choosing K g i -> derives K g i t -> derives K g i t' -> t = t'.
Proof.
  intros g i t t' NC D E.
  inversion D as [i' nn c cn u D1 D2 D3 D4 D5 D6 D7|i' nn c cn u D1 D2 D3 D4 D5 D6|i' nn D1 D2 D3|i' nn l c cn u D1 D2 D3 D4 D5 D6|i' nn c u D1 D2 D3 D4|
      i' nn c cn u D1 D2 D3 D4 D5 D6 D7|i' nn c u D1 D2 D3 D4|i' nn c u D1 D2 D3 D4|i' nn d dn D1 D2 D3 D4 D5 D6 D7|i' nn d dn D1 D2 D3 D4 D5 D6|
      i' nn d dn u D1 D2 D3 D4 D5 D6 D7 D8|i' nn l u D1 D2 D3 D4 D5 D6 D7|i' nn c cn u D1 D2 D3 D4 D5|i' nn u D1 D2 D3 D4|i' nn sigs ts u D1 D2 D3 D4 D5 D6]; subst;
  inversion E as [i' mm c' cm w E1 E2 E3 E4 E5 E6 E7|i' mm c' cm w E1 E2 E3 E4 E5 E6|i' mm E1 E2 E3|i' mm l' c' cm w E1 E2 E3 E4 E5 E6|i' mm c' w E1 E2 E3 E4|
      i' mm c' cm w E1 E2 E3 E4 E5 E6 E7|i' mm c' w E1 E2 E3 E4|i' mm c' w E1 E2 E3 E4|i' mm d' dm E1 E2 E3 E4 E5 E6 E7|i' mm d' dm E1 E2 E3 E4 E5 E6|
      i' mm d' dm w E1 E2 E3 E4 E5 E6 E7 E8|i' mm l' w E1 E2 E3 E4 E5 E6 E7|i' mm c' cm w E1 E2 E3 E4 E5|i' mm w E1 E2 E3 E4|i' mm sigs' ts' w E1 E2 E3 E4 E5 E6]; subst;
    pose proof (node_det _ _ _ _ E1 D1); subst mm; clear D E.
  all: try (exfalso; apply NC; exists nn; eauto; fail).
  all: try (exfalso; unfold passing, blocky, number_place in *; simpl in *; intuition congruence).
  all: try (rewrite D3 in E3; injection E3 as <-; pose proof (node_det _ _ _ _ E4 D4); subst cm; congruence).
  all: try (rewrite D3 in E3; apply app_inj_tail in E3; destruct E3 as [_ <-]; pose proof (node_det _ _ _ _ E4 D4); subst cm; congruence).
  all: try (rewrite D3 in E3; destruct l; discriminate); try (rewrite E3 in D3; destruct l'; discriminate).
  all: try (pose proof (first_det _ _ _ _ _ E3 D3); subst c'; congruence).
  all: try congruence.
  all: try (rewrite D4 in E4; injection E4 as <-; pose proof (node_det _ _ _ _ E5 D5); subst dm; first [congruence|exfalso; auto; fail|
    exfalso; match goal with H : counting (g_kind _) |- _ => unfold counting in H; simpl in H; intuition congruence end]).
  eapply plain_det; eauto.
Qed.
Lemma derives_ruled : forall g i t, derives K g i t -> exists n, is_node g i n /\ ruled n.
Proof.
  intros g i t D. inversion D; subst; exists n; split; auto; unfold ruled; try (left; split; auto; destruct (g_children n); [discriminate|congruence]); auto;
    right; right; right; match goal with H : g_kind _ = _ |- _ => rewrite H end; simpl; tauto.
Qed.
Lemma choosing_dec : forall g i t, derives K g i t -> choosing K g i \/ ~ choosing K g i.
Proof.
  intros g i t D. destruct (derives_ruled _ _ _ D) as (n & N & _). destruct (is_kind (g_kind n) K_Call) eqn:KK.
  - apply is_kind_iff in KK. inversion D; subst; pose proof (node_det _ _ _ _ H N); subst; try (exfalso; unfold passing, blocky, number_place in *; simpl in *; intuition congruence).
    + right. intros (m & l & A & B & C & E). rewrite (node_det _ _ _ _ A N) in C. apply E. eapply choices_det; eauto.
    + left. exists n, sigs. auto.
  - right. intros (m & l & A & B & C & E). rewrite (node_det _ _ _ _ A N) in B. apply is_kind_iff in B. congruence.
Qed.
Section Last.
Variables (todo errs : list nat) (g : graph) (s' : st).
Hypothesis SO : StronglySorted Peano.lt todo.
Hypothesis IN : Inv K g0 None todo [] g.
Hypothesis RO : round K todo (St g [] errs false) = TOk s'.
Hypothesis CH : s_changed s' = false.
Hypothesis ER : s_errs s' = [].

Lemma last_visit : forall i, In i todo -> exists s1 s2, s_g s1 = g /\ visit K i s1 = TOk s2 /\ s_changed s2 = false /\ ~ In i (s_errs s2).
Proof.
  intros i H. apply in_split in H. destruct H as (pre & post & H). destruct (round_changed _ _ _ _ RO CH _ _ _ H) as (s1 & s2 & A & B & C).
  destruct (round_still _ _ _ C CH) as (D & E & F). destruct (visit_still _ _ _ B E) as (D' & E' & F'). destruct (round_still _ _ _ A E') as (G & _).
  exists s1, s2. repeat split; auto. intros X. apply (F i) in X; [rewrite ER in X; contradiction|].
  rewrite H in SO. clear - SO. induction pre as [|a pre IH]; simpl in SO; inversion SO as [|? ? S1 S2]; subst; auto.
  intros X. rewrite Forall_forall in S2. specialize (S2 _ X). lia.
Qed.
Lemma last_visited : forall i t, In i todo -> derives K g i t -> ty_at g i = Some t.
Proof.
  intros i t H D. destruct (last_visit i H) as (s1 & s2 & A & B & C & E). rewrite <- A in *. 
  destruct (visit_done i todo s1 s2 t IN B C D); auto. contradiction.
Qed.
Lemma last_pend : forall i, pend None todo [] i -> In i todo. Proof. intros i [H|[H|H]]; [discriminate|auto|contradiction]. Qed.
Lemma last_closed : forall i t, derives K g i t -> ty_at g i = Some t.
Proof.
  intros i t D. destruct (in_dec Nat.eq_dec i todo) as [H|H]; [now apply last_visited|].
  pose proof (V_shape _ _ _ _ _ _ IN) as S. pose proof (inv_same_sigs _ _ _ _ _ _ IN) as SS.
  destruct (choosing_dec _ _ _ D) as [C|C].
  - pose proof (proj1 (choosing_shape K g0 g i SS) C) as C0.
    destruct C0 as (n0 & sigs & N0 & K0 & CC & NE).
    destruct (V_choose _ _ _ _ _ _ IN _ _ _ N0 K0 CC NE) as [P|(t' & u & T & R & L & J)]; [apply last_pend in P; contradiction|].
    rewrite T. f_equal. destruct C as (n & sigs' & N & KK & CC' & NE').
    assert (sigs' = sigs) as ->.
    { eapply choices_det; [exact CC'|]. destruct (node0 _ _ _ _ S N) as (n1 & N1 & X). rewrite (node_det _ _ _ _ N1 N0) in X. rewrite X.
      eapply same_choices; eauto. }
    inversion D; subst; pose proof (node_det _ _ _ _ H0 N); subst; try (exfalso; unfold passing, blocky, number_place in *; simpl in *; intuition congruence).
    + exfalso. apply NE'. exact (choices_det _ _ _ _ _ CC' H2).
    + rewrite (choices_det _ _ _ _ _ H2 CC') in *.
      enough (refine sigs ts = RFound t') by congruence. eapply refine_later; [|exact R].
      destruct (node0 _ _ _ _ S N) as (n1 & N1 & X). rewrite (node_det _ _ _ _ N1 N0) in X.
      assert (g_children n = g_children n0) as GC by (now rewrite X). unfold args_are in H4. rewrite GC in H4.
      assert (forall j c x uj, argument K g0 i sigs j c x -> nth_error u j = Some uj -> uj = None \/ uj = ty_at g x) as Z.
      { intros j c x uj A B. destruct (J _ _ _ _ A B) as [Y|[Y|(Y1 & Y2 & Y3)]]; auto. right. rewrite Y2.
        destruct (ty_at g x) as [w|] eqn:W; [|congruence]. destruct A as (q & cn & Q1 & Q2 & Q3 & Q4 & Q5 & Q6 & Q7 & Q8 & Q9).
        destruct (shape_node _ _ _ _ S Q6) as (cu & M). unfold ty_at in W. destruct (nth_error g x) as [xn|] eqn:XN; [|discriminate].
        apply last_visited; [now apply last_pend|]. replace w with (behind (retype cn cu) w) by (unfold behind; simpl; now rewrite Q8).
        eapply (D_arg K g c (retype cn cu) x xn); eauto; simpl; rewrite Q9; auto. }
      assert (forall j c x, nth_error (g_children n0) j = Some c -> (exists cn, is_node g c cn /\ g_kind cn = K_CallArg /\ g_children cn = [x]) -> argument K g0 i sigs j c x) as AR.
      { intros j c x A (cn & B1 & B2 & B3). destruct (node0 _ _ _ _ S B1) as (c0 & C0 & Y). rewrite Y in B2, B3. simpl in B2, B3.
        destruct (proj2 (proj2 (wf_call _ _ WF _ _ N0 K0)) c (nth_error_In _ _ A)) as (c1 & x1 & P1 & P2 & P3 & P4).
        rewrite (node_det _ _ _ _ P1 C0) in P3. exists n0, c0. repeat split; auto. }
      apply nth_forall2; [rewrite L; eapply forall2_len; eauto|]. intros j a b A B.
      destruct (forall2_nth _ _ _ _ _ _ _ H4 B) as (c & C1 & (cn & x & C2 & C3 & C4 & ->)). apply (Z j c x); auto. apply AR; eauto.
  - destruct (derives_ruled _ _ _ D) as (n & N & RU). destruct (node0 _ _ _ _ S N) as (n0 & N0 & X).
    assert (ruled n0) as RU0 by (rewrite X in RU; exact RU).
    assert (~ choosing K g0 i) as C0 by (intros Y; apply C; now apply (choosing_shape K g0 g i SS)).
    destruct (V_settled _ _ _ _ _ _ IN _ _ N0 RU0 C0) as [P|(t' & T & D')]; [apply last_pend in P; contradiction|].
    rewrite T. f_equal. exact (derives_det g i t' t C D' D).
Qed.

Lemma last_sides : forall a l d r t, sides g0 a l d r -> ty_at g r = Some t ->
  exists u, ty_at g l = Some u /\ (u = t \/ goes_with t u = false).
Proof.
  intros a l d r t SD T. pose proof (V_shape _ _ _ _ _ _ IN) as S.
  destruct (V_assign _ _ _ _ _ _ IN _ _ _ _ SD) as [P|(_ & _ & X)]; [|exists t; rewrite X; auto].
  apply last_pend in P. destruct (last_visit a P) as (s1 & s2 & A & B & C & _). subst g.
  destruct SD as [(an & ln & dn & A1 & A2 & A3 & A4 & A5 & _) (an' & B1 & B2)]. rewrite (node_det _ _ _ _ B1 A1) in B2. clear B1 an'.
  assert (kind_at g0 r K_Right) as (rn & R1 & R2) by (destruct B2 as (? & ? & _ & Y & _); exact Y).
  destruct (shape_node _ _ _ _ S A1) as (au & N). destruct (shape_node _ _ _ _ S A4) as (lu & L). destruct (shape_node _ _ _ _ S R1) as (ru & R).
  unfold visit in B. pose proof N as N'. apply get_ok in N'. rewrite N' in B. cbn [tbind retype g_kind] in B. rewrite A2 in B.
  unfold assign in B. rewrite N' in B. cbn [tbind] in B.
  assert (forall k c, first_of g0 an k c -> find_child (s_g s1) (retype an au) k = TOk (Some c)) as FF.
  { intros k c F. apply first_find; [eapply wf_nodes; eauto|]. eapply shape_first; [exact S| |exact F]. reflexivity. }
  rewrite (FF _ _ A3), (FF _ _ B2) in B. cbn [tbind] in B. pose proof L as L'. pose proof R as R'. apply get_ok in L', R'. rewrite L', R' in B. cbn [tbind] in B.
  assert (item_ids (retype rn ru) = false) as X by (unfold item_ids; simpl; now rewrite R2). rewrite X in B.
  rewrite (node_ty _ _ _ R) in T. rewrite (node_ty _ _ _ L). rewrite T in B. destruct (g_ty (retype ln lu)) as [u|].
  - exists u. split; auto. destruct (goes_with t u) eqn:G; auto. cbv zeta in B. nof B C.
  - nof B C.
Qed.
Lemma last_takes : forall p pn c cn j x t, is_node g0 p pn -> g_kind pn = K_Call -> is_node g0 c cn -> In c (g_children pn) ->
  g_children cn = [x] -> supplies g0 pn c j -> ty_at g x = Some t -> ty_at g c = Some t /\ takes K g0 g p j t.
Proof.
  intros p pn c cn j x t P KP CN IC CX SU T. pose proof (V_shape _ _ _ _ _ _ IN) as S.
  destruct (proj2 (proj2 (wf_call _ _ WF _ _ P KP)) c IC) as (c1 & x1 & C1 & C2 & C3 & _). rewrite (node_det _ _ _ _ C1 CN) in *. clear C1 c1 x1.
  destruct (proj2 (wf_tree _ _ WF _ _ P) c IC) as (c1 & C1 & C4). rewrite (node_det _ _ _ _ C1 CN) in *. clear C1 c1.
  assert (ty_at g c = Some t) as TC.
  { destruct (shape_node _ _ _ _ S CN) as (cu & M). unfold ty_at in T. destruct (nth_error g x) as [xn|] eqn:XN; [|discriminate].
    apply last_closed. replace t with (behind (retype cn cu) t) by (unfold behind; simpl; now rewrite C3).
    eapply (D_arg K g c (retype cn cu) x xn); eauto; simpl; rewrite CX; auto. }
  split; auto. destruct (V_takes _ _ _ _ _ _ IN c cn p pn j CN C2 C4 P SU) as [H|(t' & A & B)]; [|rewrite TC in A; injection A as <-; exact B].
  apply last_pend in H. destruct (last_visit c H) as (s1 & s2 & A & B & C & E). exfalso. subst g.
  destruct (shape_node _ _ _ _ S CN) as (cu & M). pose proof M as M'. apply get_ok in M'. unfold visit in B. rewrite M' in B. cbn [tbind retype g_kind] in B. rewrite C2 in B.
  unfold call_arg in B. rewrite M' in B. cbn [tbind retype g_children g_parent] in B. rewrite CX, C4 in B. tinv B. apply get_ok in E0. rewrite (node_ty _ _ _ E0) in T. rewrite T in B.
  cbn [option_map] in B. cbv zeta in B. tinv B. tinv B. tinv B. destruct x3; [nof B C|]. injection B as <-. apply E. now left.
Qed.
End Last.
End Wf.
