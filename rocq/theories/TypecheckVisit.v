(** * Every visit of the type checker keeps the invariant. *)
From Coq Require Import String List Bool Arith Lia Sorted.
From Verif Require Import Syntax TypeModel LifetimeModel TypecheckModel TypecheckSpec TypeProofs TypecheckProofs TypecheckShape TypecheckInv.
Import ListNotations.
Local Open Scope string_scope.
Local Open Scope nat_scope.
Local Open Scope list_scope.

Lemma finish_none : forall i s s', finish i None s = TOk s' -> s' = push i s.
Proof. intros i s s' H. simpl in H. now injection H as <-. Qed.
Lemma finish_some : forall i t s s', finish i (Some t) s = TOk s' -> exists n, is_node (s_g s) i n /\
  s_g s' = put (s_g s) i (Some t) /\ s_changed s' = true /\ s_errs s' = s_errs s /\ (forall x, In x (s_new s) -> In x (s_new s')) /\
  (forall old p, g_ty n = Some old -> old <> t -> g_parent n = Some p -> ty_at (s_g s) p <> None -> In p (s_new s')).
Proof.
  intros i t s s' H. unfold finish in H. tinv H. apply get_ok in E. exists x. split; auto. tinv H. injection H as <-.
  destruct (g_ty x) as [old|] eqn:O; [|tinv E0; repeat split; auto; discriminate].
  destruct (g_parent x) as [p|] eqn:P; [|tinv E0; repeat split; auto; discriminate].
  destruct (ty_eqb old t) eqn:Q.
  - tinv E0. apply ty_eqb_iff in Q. subst. repeat split; auto. congruence.
  - tinv E0. apply get_ok in E1. tinv E0. repeat split; try (destruct (g_ty x1); reflexivity).
    + destruct (g_ty x1); simpl; auto.
    + intros old' p' A B C D. injection A as <-. injection C as <-. rewrite (node_ty _ _ _ E1) in D. destruct (g_ty x1); [now left|congruence].
Qed.


(** ** Signatures *)
Lemma ty_args_are : forall g l r, ty_args g l = TOk r ->
  Forall2 (fun c t => kind_at g c K_TyArg /\ ty_at g c = Some t)
    (filter (fun c => match nth_error g c with Some m => is_kind (g_kind m) K_TyArg | None => false end) l) r.
Proof.
  induction l as [|c l IH]; intros r H; simpl in H; [injection H as <-; constructor|]. tinv H. apply get_ok in E. simpl.
  unfold is_node in E. rewrite E. destruct (is_kind (g_kind x) K_TyArg) eqn:F.
  - destruct (g_ty x) eqn:T; [|discriminate]. tinv H. tinv H. constructor; auto. apply is_kind_iff in F.
    split; [exists x; auto|]. unfold ty_at. now rewrite E.
  - auto.
Qed.
Lemma sig_of_node : forall g n s, sig_of g n = TOk s -> sig_node g n s.
Proof.
  intros g n s H. unfold sig_of in H. tinv H. tinv H. destruct x0 as [r|]; [|discriminate]. tinv H.
  destruct (g_ty x0) eqn:T; [|discriminate]. injection H as <-. apply get_ok in E1. apply (Sig_node g n x r t).
  - now apply ty_args_are.
  - now apply find_child_first.
  - now rewrite (node_ty _ _ _ E1).
Qed.
Lemma sigs_of_are : forall g n l, sigs_of g (g_children n) = TOk l -> sigs_are g n l.
Proof.
  intros g n. unfold sigs_are. induction (g_children n) as [|c r IH]; intros l H; simpl in H; [injection H as <-; constructor|].
  tinv H. apply get_ok in E. simpl. unfold is_node in E. rewrite E. destruct (is_kind (g_kind x) K_Ty) eqn:F; auto.
  tinv H. tinv H. tinv H. constructor; auto. exists x. split; auto. now apply sig_of_node.
Qed.
Lemma Forall2_det : forall A B (P : A -> B -> Prop) l x y, (forall a b c, P a b -> P a c -> b = c) -> Forall2 P l x -> Forall2 P l y -> x = y.
Proof.
  intros A B P l x y D H. revert y. induction H; intros y' Y; inversion Y; subst; auto. f_equal; eauto.
Qed.
Lemma sig_node_det : forall g n a b, sig_node g n a -> sig_node g n b -> a = b.
Proof.
  intros g n a b A B. inversion A as [x r t A1 A2 A3]. inversion B as [y r' t' B1 B2 B3].
  assert (r = r') by (eapply first_det; eauto). subst r'. rewrite A3 in B3. injection B3 as <-. f_equal.
  eapply Forall2_det; [|exact A1|exact B1]. intros ? ? ? [_ X] [_ Y]. congruence.
Qed.
Lemma target_det : forall K n f f', target K n f -> target K n f' -> f = f'.
Proof. intros K n f f' (_ & x & A & B) (_ & y & C & D). rewrite A in C. injection C as <-. destruct (g_alias n); congruence. Qed.
Lemma choices_det : forall K g n l l', choices K g n l -> choices K g n l' -> l = l'.
Proof.
  intros K g n l l' [(d & f & A & B & C)|(f & A & B)] [(d' & f' & A' & B' & C')|(f' & A' & B')].
  - rewrite A in A'. injection A' as <-. rewrite (node_det _ _ _ _ B' B) in *. eapply Forall2_det; [|exact C|exact C'].
    intros c s s' (m & M & X) (m' & M' & X'). rewrite (node_det _ _ _ _ M' M) in X'. eapply sig_node_det; eauto.
  - destruct A' as (X & _). congruence.
  - destruct A as (X & _). congruence.
  - subst. f_equal. eapply target_det; eauto.
Qed.
Lemma callee_target : forall K n f, g_decl n = None -> callee K n = TOk (Some f) -> target K n f.
Proof.
  intros K n f D H. unfold callee in H. split; auto. destruct (g_name n) as [x|]; [|discriminate]. exists x. split; auto.
  destruct (g_alias n); congruence.
Qed.
Lemma target_callee : forall K n f o, target K n f -> callee K n = TOk o -> o = Some f.
Proof. intros K n f o (_ & x & A & B) H. unfold callee in H. rewrite A in H. injection H as <-. destruct (g_alias n); congruence. Qed.
Lemma refine_nothing : forall sigs ts, refine sigs ts = RNothing -> sigs = [].
Proof.
  intros [|s l] ts H; auto. exfalso. change (refine_loop (s :: l) ts = RNothing) in H. revert H. generalize (s :: l) as q. intros q. induction q as [|a q IH]; simpl; [discriminate|].
  destruct (match_args (svars a) ts (sargs a) (repeat None (length (svars a)))); auto; discriminate.
Qed.


(** ** Positions of arguments *)
Definition sw_at (g : graph) (d : nat) : bool :=
  match nth_error g d with
  | Some m => match g_kind m with K_Sw0 | K_Sw1 | K_Sw2 | K_Sw3 => true | _ => false end
  | None => false
  end.
Lemma count_sw_len : forall g l k, count_sw g l = TOk k -> k = length (filter (sw_at g) l).
Proof.
  induction l as [|c l IH]; intros k H; simpl in H; [injection H as <-; auto|]. tinv H. tinv H. injection H as <-. apply get_ok in E.
  simpl. unfold sw_at at 1. unfold is_node in E. rewrite E. rewrite (IH _ E0). unfold is_sw. destruct (g_kind x); reflexivity.
Qed.
Lemma sw_at_shape : forall g h d, shape g h -> sw_at g d = sw_at h d.
Proof.
  intros g h d S. specialize (S d). unfold sw_at. destruct (nth_error g d) as [m|], (nth_error h d) as [m'|]; try discriminate; auto.
  simpl in S. inversion S. now replace (g_kind m') with (g_kind m).
Qed.
Lemma spread_shape : forall g h c w, shape g h -> spread g c w -> spread h c w.
Proof.
  intros g h c w S (cn & x & A & B & C). destruct (shape_node _ _ _ _ S A) as [t T]. exists (retype cn t), x. split; auto. split; auto.
  destruct C as [(xn & X1 & X2 & X3)|(X1 & X2)].
  - left. destruct (shape_node _ _ _ _ S X1) as [u U]. exists (retype xn u). repeat split; auto. rewrite X3.
    change (length (filter (sw_at g) (g_children xn)) = length (filter (sw_at h) (g_children xn))). f_equal. apply filter_ext_all.
    intros d. now apply sw_at_shape.
  - right. split; auto. intros X. apply X1. eapply shape_kind; [apply shape_sym|]; eauto.
Qed.
Lemma arg_position_sum : forall g i pre post ws k, ~ In i pre -> Forall2 (spread g) pre ws -> arg_position g i (pre ++ i :: post) = TOk k -> k = list_sum ws.
Proof.
  intros g i pre post ws k NI F. revert k. induction F as [|c w pre ws S F IH]; intros k H; simpl in H.
  - rewrite Nat.eqb_refl in H. now injection H as <-.
  - assert (c =? i = false) as X by (apply Nat.eqb_neq; intros ->; apply NI; now left). rewrite X in H.
    tinv H. apply get_ok in E. tinv H. tinv H. tinv H. injection H as <-. simpl. f_equal; [|apply IH; auto; intros Y; apply NI; now right].
    destruct S as (cn & y & A & B & C). pose proof (node_det _ _ _ _ E A); subst x.
    unfold find_child in E0. rewrite B in E0. simpl in E0. tinv E0. apply get_ok in E3. destruct C as [(xn & X1 & X2 & X3)|(X1 & X2)].
    + rewrite (node_det _ _ _ _ E3 X1), X2 in E0. rewrite is_kind_refl in E0. injection E0 as <-. tinv E1. apply get_ok in E0.
      pose proof (node_det _ _ _ _ E0 X1); subst. now apply count_sw_len in E1.
    + destruct (is_kind (g_kind x) K_Swizzle) eqn:Y; [exfalso; apply X1; apply is_kind_iff in Y; exists x; auto|].
      injection E0 as <-. injection E1 as <-. auto.
Qed.
Lemma positions_in : forall g pn i n x cn js j, NoDup (g_children pn) -> is_node g i n -> g_children n = [x] -> is_node g x cn ->
  arg_positions g i pn cn = TOk js -> supplies g pn i j -> In j js.
Proof.
  intros g pn i n x cn js j ND N C X H (pre & post & ws & w & A & B & D & E). unfold arg_positions in H. tinv H. rename E0 into P.
  rewrite A in P, ND. apply NoDup_remove_2 in ND. apply (arg_position_sum _ _ _ _ ws) in P; auto; [|intros Y; apply ND; apply in_or_app; auto].
  subst x0. destruct D as (n' & x' & D1 & D2 & D3). rewrite (node_det _ _ _ _ D1 N), C in D2. injection D2 as <-.
  destruct D3 as [(xn & X1 & X2 & X3)|(X1 & X2)].
  - rewrite (node_det _ _ _ _ X1 X) in *. rewrite X2, is_kind_refl in H. tinv H. tinv H. apply count_sw_len in E0. apply in_seq.
    change (w = length (filter (sw_at g) (g_children cn))) in X3. rewrite <- E0 in X3. lia.
  - destruct (is_kind (g_kind cn) K_Swizzle) eqn:Y; [exfalso; apply X1; apply is_kind_iff in Y; exists cn; auto|].
    injection H as <-. left. lia.
Qed.
Lemma all_fit_true : forall K g pn t js j, all_fit K g pn t js = TOk true -> In j js -> arg_fits K g pn t j = TOk true.
Proof.
  induction js as [|a js IH]; intros j H I; simpl in I; [contradiction|]. simpl in H. tinv H. destruct x; [|discriminate].
  destruct I as [-> |I]; auto.
Qed.
Lemma all_fit_false : forall K g pn t js, all_fit K g pn t js = TOk false -> exists j, In j js /\ arg_fits K g pn t j = TOk false.
Proof.
  induction js as [|a js IH]; intros H; simpl in H; [discriminate|]. tinv H. destruct x.
  - destruct (IH H) as (j & A & B). exists j. split; [now right|auto].
  - exists a. split; [now left|auto].
Qed.
Section Wf.
Variables (K : known) (g0 : graph).
Hypothesis WF : well_formed K g0.

Section Visit.
Variables (i : nat) (cur : list nat).
Hypothesis LT : forall x, In x cur -> i < x.
Local Notation I v s := (Inv K g0 v cur (s_new s) (s_g s)).

Lemma node_g0 : forall s v n, I v s -> is_node (s_g s) i n -> exists n0, is_node g0 i n0 /\ n = retype n0 (ty_at (s_g s) i).
Proof. intros s v n H N. eapply node0; eauto. apply H. Qed.
Lemma not_declared : forall s v n a l, I v s -> is_node (s_g s) i n -> declares g0 a l i ->
  g_kind n = K_Item /\ g_children n = [] /\ g_decl n = None /\ g_parent n = Some l.
Proof.
  intros s v n a l H N D. destruct (node_g0 _ _ _ H N) as (n0 & N0 & ->).
  destruct D as (an & ln & dn & A1 & A2 & A3 & L1 & L2 & L3 & L4 & L5 & D1 & D2 & D3 & D4 & D5 & D6).
  rewrite (node_det _ _ _ _ D1 N0) in *. auto.
Qed.
Lemma not_argument : forall s v n y sigs j x, I v s -> is_node (s_g s) i n -> argument K g0 y sigs j i x ->
  g_kind n = K_CallArg /\ g_try n = false /\ g_children n = [x] /\ g_parent n = Some y.
Proof.
  intros s v n y sigs j x H N A. destruct (node_g0 _ _ _ H N) as (n0 & N0 & ->).
  destruct (argument_tree _ _ WF _ _ _ _ _ A) as (_ & _ & _ & (cn & C1 & C2 & C3) & _).
  destruct A as (m & cn' & A1 & A2 & A3 & A4 & A5 & A6 & A7 & A8 & A9). rewrite (node_det _ _ _ _ A6 N0) in *.
  rewrite (node_det _ _ _ _ C1 N0) in *. auto.
Qed.

(** a node that waits *)
Lemma push_other : forall s n, I (Some i) s -> is_node (s_g s) i n -> g_kind n <> K_Item -> g_kind n <> K_CallArg -> I None (push i s).
Proof.
  intros s n H N A B. simpl. eapply inv_pend; eauto; try (simpl; auto; fail).
  - intros a l D. destruct (not_declared _ _ _ _ _ H N D). congruence.
  - intros y sigs j x D. destruct (not_argument _ _ _ _ _ _ _ H N D). congruence.
Qed.
Lemma quiet_other : forall s n, I (Some i) s -> is_node (s_g s) i n -> ~ ruled n -> g_kind n <> K_Assign -> I None s.
Proof.
  intros s n H N A B. destruct (node_g0 _ _ _ H N) as (n0 & N0 & ->). eapply inv_quiet; eauto.
Qed.
(** a node of a kind without special conditions *)
Lemma fin_other : forall s s' n o, I (Some i) s -> is_node (s_g s) i n -> ~ const_kind (g_kind n) ->
  ~ In (g_kind n) [K_Arg; K_Fn; K_Call; K_Item; K_CallArg; K_Left; K_Assign] ->
  (forall t, o = Some t -> ruled n -> derives K (s_g s) i t) -> finish i o s = TOk s' -> I None s'.
Proof.
  intros s s' n o H N C NK D F. assert (forall k, In k [K_Arg; K_Fn; K_Call; K_Item; K_CallArg; K_Left; K_Assign] -> g_kind n <> k) as NK'.
  { intros k X <-. auto. } clear NK.
  destruct o as [t|].
  - destruct (finish_some _ _ _ _ F) as (m & M & -> & _ & _ & N1 & N2). rewrite (node_det _ _ _ _ M N) in *.
    destruct (node_g0 _ _ _ H N) as (n0 & N0 & E). rewrite E in *. simpl in *.
    eapply inv_upd; eauto; simpl; intros; try (exfalso; eapply NK'; [|eassumption]; simpl; tauto).
    + destruct (declares_tree _ _ WF _ _ _ H0) as (_ & _ & _ & _ & (dn & Y1 & Y2 & _)). rewrite (node_det _ _ _ _ Y1 N0) in *.
      exfalso. apply (NK' K_Item); simpl; tauto.
    + destruct (sides_tree _ _ WF _ _ _ _ H0) as (A0 & _). destruct (declares_tree _ _ WF _ _ _ A0) as (_ & _ & (an & Y1 & Y2) & _).
      rewrite (node_det _ _ _ _ Y1 N0) in *. exfalso. apply (NK' K_Assign); simpl; tauto.
    + destruct (not_argument _ _ _ _ _ _ _ H N H0). exfalso. apply (NK' K_CallArg); simpl; tauto.
  - apply finish_none in F. subst. eapply push_other; eauto; apply NK'; simpl; tauto.
Qed.

Ltac tg := repeat match goal with H : get _ _ = TOk _ |- _ => apply get_ok in H end.
(** kinds are concrete *)
Ltac kd := match goal with
  | E : g_kind ?n = _ |- ~ _ => unfold const_kind, ruled, passing, blocky, number_place; rewrite E; simpl; intuition discriminate
  | |- forall t, None = Some t -> _ => discriminate
  | E : g_kind ?n = _ |- forall t, _ = Some t -> ruled ?n -> _ =>
      let H := fresh in intros ? _ H; exfalso; revert H; unfold ruled, passing, blocky, number_place; rewrite E; simpl; intuition discriminate
  end.
Lemma go_inv : forall s s' n, I (Some i) s -> is_node (s_g s) i n -> g_kind n = K_Go -> go_ i s = TOk s' -> I None s'.
Proof.
  intros s s' n H N E G. unfold go_ in G. tinv G. tg. pose proof (node_det _ _ _ _ E0 N); subst x. destruct (g_children n) as [|c l] eqn:C.
  - eapply (fin_other s s' n); eauto; kd.
  - tinv G. tg. eapply (fin_other s s' n); eauto; try kd. intros t T _. destruct (g_ty x) as [u|] eqn:U; [|discriminate]. injection T as <-.
    eapply D_go; eauto. { now rewrite C. } now rewrite (node_ty _ _ _ E1).
Qed.
Lemma closure_inv : forall s s' n, I (Some i) s -> is_node (s_g s) i n -> g_kind n = K_Closure -> closure_ i s = TOk s' -> I None s'.
Proof.
  intros s s' n H N E G. unfold closure_ in G. tinv G. tg. tinv G. eapply (fin_other s s' n); eauto; kd.
Qed.
Lemma call_closure_inv : forall s s' n, I (Some i) s -> is_node (s_g s) i n -> g_kind n = K_CallClosure -> call_closure i s = TOk s' -> I None s'.
Proof.
  intros s s' n H N E G. unfold call_closure in G. tinvs G; try (eapply (fin_other s s' n); eauto; kd).
  eapply (push_other s n); eauto; congruence.
Qed.
Lemma compare_inv : forall s s' n, I (Some i) s -> is_node (s_g s) i n -> g_kind n = K_Compare -> compare i s = TOk s' -> I None s'.
Proof.
  intros s s' n H N E G. unfold compare in G. tinv G. tinv G. destruct x0; [|tinv G; eapply (push_other s n); eauto; congruence].
  tinv G. destruct (item_ids x0); [tinv G; eapply (push_other s n); eauto; congruence|]. eapply (fin_other s s' n); eauto; kd.
Qed.
Lemma keyed_iff : forall n, item_ids n = false -> ~ keyed n.
Proof.
  intros n E [A B]. unfold item_ids in E. rewrite A, is_kind_refl in E. destruct (g_children n); simpl in E; [congruence|discriminate].
Qed.
Lemma keyed_iff' : forall n, item_ids n = true -> keyed n.
Proof.
  intros n E. unfold item_ids in E. apply andb_true_iff in E. destruct E as [A B]. apply is_kind_iff in A. split; auto.
  destruct (g_children n); [discriminate|congruence].
Qed.
Lemma block_inv : forall s s' n, I (Some i) s -> is_node (s_g s) i n -> blocky (g_kind n) -> block i s = TOk s' -> I None s'.
Proof.
  intros s s' n H N B G.
  assert (~ const_kind (g_kind n) /\ ~ In (g_kind n) [K_Arg; K_Fn; K_Call; K_Item; K_CallArg; K_Left; K_Assign]) as [NC NI].
  { unfold blocky, const_kind in *. simpl in *. split; intros X; intuition congruence. }
  assert (g_kind n <> K_Item /\ g_kind n <> K_CallArg) as [K1 K2].
  { split; intros X; apply NI; rewrite X; simpl; tauto. }
  unfold block in G. tinv G. tg. pose proof (node_det _ _ _ _ E N); subst x. destruct (rev (g_children n)) as [|c l] eqn:R.
  - eapply (fin_other s s' n); eauto. intros t T _. injection T as <-. eapply D_empty; eauto. rewrite <- (rev_involutive (g_children n)), R. reflexivity.
  - tinv G. tg. destruct (item_ids x) eqn:D; [tinv G; eapply (push_other s n); eauto|]. eapply (fin_other s s' n); eauto. intros t T _.
    destruct (g_ty x) as [u|] eqn:U; [|discriminate]. injection T as <-. rewrite inner_behind. eapply (D_block K _ i n (rev l) c x); eauto.
    + rewrite <- (rev_involutive (g_children n)), R. reflexivity.
    + now apply keyed_iff.
Qed.
Lemma sift_inv : forall s s' n, I (Some i) s -> is_node (s_g s) i n -> g_kind n = K_Sift -> sift i s = TOk s' -> I None s'.
Proof.
  intros s s' n H N B G. unfold sift in G. tinv G. tg. pose proof (node_det _ _ _ _ E N); subst x. tinv G.
  destruct x as [b|]; [|tinv G; eapply (push_other s n); eauto; congruence]. tinv G. tg. eapply (fin_other s s' n); eauto; try kd. intros t T _.
  destruct (g_ty x) as [u|] eqn:U; [|discriminate]. injection T as <-. eapply D_sift; eauto using find_child_first.
  now rewrite (node_ty _ _ _ E1).
Qed.
Lemma if_inv : forall s s' n, I (Some i) s -> is_node (s_g s) i n -> g_kind n = K_If -> if_ i s = TOk s' -> I None s'.
Proof.
  intros s s' n H N B G. unfold if_ in G. tinv G. tg. pose proof (node_det _ _ _ _ E N); subst x. tinv G.
  destruct x as [b|]; [|tinv G; eapply (push_other s n); eauto; congruence]. tinv G. tg.
  destruct (g_ty x) as [u|] eqn:U; [|tinv G; eapply (push_other s n); eauto; congruence]. eapply (fin_other s s' n); eauto; try kd. intros t T _.
  injection T as <-. rewrite inner_behind. eapply D_if; eauto using find_child_first. now rewrite (node_ty _ _ _ E1).
Qed.
Lemma component_inv : forall s s' n, I (Some i) s -> is_node (s_g s) i n -> number_place (g_kind n) -> component i s = TOk s' -> I None s'.
Proof.
  intros s s' n H N B G.
  assert (~ const_kind (g_kind n) /\ ~ In (g_kind n) [K_Arg; K_Fn; K_Call; K_Item; K_CallArg; K_Left; K_Assign]) as [NC NI].
  { unfold number_place, const_kind in *. simpl in *. split; intros X; intuition congruence. }
  assert (g_kind n <> K_Item /\ g_kind n <> K_CallArg) as [K1 K2].
  { split; intros X; apply NI; rewrite X; simpl; tauto. }
  unfold component in G. tinv G. tg. pose proof (node_det _ _ _ _ E N); subst x. destruct (g_children n) as [|c l] eqn:C.
  - tinv G. eapply (push_other s n); eauto.
  - tinv G. tg. destruct (item_ids x) eqn:D; [tinv G; eapply (push_other s n); eauto|].
    destruct (g_ty x) as [u|] eqn:U; cbn [option_map] in G; [|eapply (fin_other s s' n); eauto; intros; discriminate].
    destruct (goes_with (inner_type n u) TF64) eqn:W; [|discriminate]. eapply (fin_other s s' n); eauto. intros t T _. injection T as <-.
    rewrite inner_behind in *. eapply (D_number K _ i n c x u); eauto; [now rewrite C|now apply keyed_iff].
Qed.
(** functions and parameters *)
Lemma fin_typed : forall s s' n o, I (Some i) s -> is_node (s_g s) i n -> g_kind n = K_Fn \/ (g_kind n = K_Arg /\ o = Some TAny) -> g_ty n = None ->
  finish i o s = TOk s' -> I None s'.
Proof.
  intros s s' n o H N KK T F. destruct o as [t|].
  - destruct (finish_some _ _ _ _ F) as (m & M & -> & _ & _ & N1 & N2). rewrite (node_det _ _ _ _ M N) in *.
    assert (ty_at (s_g s) i = None) as TN by (rewrite (node_ty _ _ _ N); auto).
    destruct (node_g0 _ _ _ H N) as (n0 & N0 & E). rewrite E in KK, N2. simpl in *.
    eapply inv_upd; eauto; simpl; intros; try (exfalso; destruct KK as [KK|[KK _]]; congruence).
    + destruct KK as [KK|[KK _]]; rewrite KK; unfold const_kind; simpl; intuition discriminate.
    + destruct KK as [KK|[KK X]]; [congruence|]. injection X as ->. auto.
    + exfalso. destruct KK as [KK|[KK X]]; unfold ruled, passing, blocky, number_place in *; rewrite KK in *; simpl in *; intuition discriminate.
    + destruct (declares_tree _ _ WF _ _ _ H0) as (_ & _ & _ & _ & (dn & Y1 & Y2 & _)). rewrite (node_det _ _ _ _ Y1 N0) in *.
      destruct KK as [KK|[KK X]]; congruence.
    + destruct (sides_tree _ _ WF _ _ _ _ H0) as (A0 & _). destruct (declares_tree _ _ WF _ _ _ A0) as (_ & _ & (an & Y1 & Y2) & _).
      rewrite (node_det _ _ _ _ Y1 N0) in *. destruct KK as [KK|[KK X]]; congruence.
    + destruct (not_argument _ _ _ _ _ _ _ H N H0) as [Y _]. rewrite E in Y. simpl in Y. destruct KK as [KK|[KK X]]; congruence.
  - apply finish_none in F. subst. eapply (push_other s n); eauto; destruct KK as [KK|[KK _]]; congruence.
Qed.
Lemma fn_inv : forall s s' n, I (Some i) s -> is_node (s_g s) i n -> g_kind n = K_Fn -> fn_ i s = TOk s' -> I None s'.
Proof.
  intros s s' n H N B G. unfold fn_ in G. tinv G. tg. pose proof (node_det _ _ _ _ E N); subst x.
  destruct (g_ty n) eqn:T; [tinv G; eapply quiet_other; eauto; [kd|congruence]|].
  tinv G. destruct x as [e|]; [|eapply fin_typed; eauto].
  tinv G. destruct (g_ty x) as [u|]; [destruct u|]; try (eapply fin_typed; eauto; fail). tinv G. eapply (push_other s n); eauto; congruence.
Qed.
Lemma arg_inv : forall s s' n, I (Some i) s -> is_node (s_g s) i n -> g_kind n = K_Arg -> arg_ i s = TOk s' -> I None s'.
Proof.
  intros s s' n H N B G. unfold arg_ in G. tinv G. tg. pose proof (node_det _ _ _ _ E N); subst x.
  destruct (g_ty n) eqn:T; [tinv G; eapply quiet_other; eauto; [kd|congruence]|]. eapply fin_typed; eauto.
Qed.

(** ** Nodes with the type of their child *)
Lemma fin_left : forall s s' n o, I (Some i) s -> is_node (s_g s) i n -> g_kind n = K_Left ->
  (forall t d, o = Some t -> In d (g_children n) -> kind_at g0 d K_Item -> ty_at (s_g s) d = Some t) -> finish i o s = TOk s' -> I None s'.
Proof.
  intros s s' n o H N KK T F. destruct o as [t|].
  - destruct (finish_some _ _ _ _ F) as (m & M & -> & _ & _ & N1 & N2). rewrite (node_det _ _ _ _ M N) in *.
    destruct (node_g0 _ _ _ H N) as (n0 & N0 & E). rewrite E in KK, N2, T, N. simpl in *.
    eapply inv_upd; eauto; simpl; intros; try congruence; try kd.
    + exfalso. revert H0. unfold ruled, passing, blocky, number_place. rewrite KK. simpl. intuition discriminate.
    + destruct (declares_tree _ _ WF _ _ _ H0) as (_ & _ & _ & _ & (dn & Y1 & Y2 & _)). rewrite (node_det _ _ _ _ Y1 N0) in *. congruence.
    + destruct (sides_tree _ _ WF _ _ _ _ H0) as (A0 & _). destruct (declares_tree _ _ WF _ _ _ A0) as (_ & _ & (an & Y1 & Y2) & _).
      rewrite (node_det _ _ _ _ Y1 N0) in *. congruence.
    + destruct (not_argument _ _ _ _ _ _ _ H N H0) as [Y _]. simpl in Y. congruence.
  - apply finish_none in F. subst. eapply (push_other s n); eauto; congruence.
Qed.
Lemma enclosing_in : forall k g p q, shape g0 g -> enclosing k g p = TOk (Some q) ->
  q < p /\ exists n, is_node g q n /\ (g_kind n = K_Fn \/ g_kind n = K_Closure).
Proof.
  induction k as [|k IH]; intros g p q S H; simpl in H; [discriminate|]. tinv H. apply get_ok in E.
  destruct (g_parent x) as [r|] eqn:P; [|discriminate]. destruct (node0 _ _ _ _ S E) as (n0 & N0 & X). rewrite X in P. simpl in P.
  destruct (wf_parent _ _ WF _ _ _ N0 P) as (L & _). tinv H. apply get_ok in E0. rename x0 into y.
  destruct (is_kind (g_kind y) K_Fn || is_kind (g_kind y) K_Closure) eqn:D.
  - injection H as <-. split; auto. exists y. split; auto. apply orb_true_iff in D. rewrite !is_kind_iff in D. auto.
  - destruct (IH _ _ _ S H) as (L' & Y). split; [lia|auto].
Qed.
Lemma inv_node : forall v s, I v s -> shape g0 (s_g s). Proof. intros v s H. apply H. Qed.
Lemma left_try : forall v s n, I v s -> is_node (s_g s) i n -> g_kind n = K_Left -> g_try n = false /\ length (g_children n) <= 1.
Proof.
  intros v s n H N KK. destruct (node_g0 _ _ _ H N) as (n0 & N0 & ->). destruct (wf_left _ _ WF _ _ N0 KK) as (_ & A & B). auto.
Qed.
Lemma one_child : forall A (l : list A) c d r, l = c :: r -> length l <= 1 -> In d l -> d = c.
Proof. intros A l c d r -> L [-> |X]; auto. destruct r; simpl in *; [contradiction|lia]. Qed.
Lemma pass_up_inv : forall s s' n, I (Some i) s -> is_node (s_g s) i n -> passing (g_kind n) \/ g_kind n = K_Left ->
  pass_up i s = TOk s' -> I None s'.
Proof.
  intros s s' n H N KK G.
  assert (g_kind n <> K_Item /\ g_kind n <> K_CallArg /\ g_kind n <> K_Assign) as (K1 & K2 & K3).
  { repeat split; intros X; rewrite X in KK; destruct KK as [KK|KK]; unfold passing in KK; simpl in KK; intuition discriminate. }
  assert (passing (g_kind n) -> ~ const_kind (g_kind n) /\ ~ In (g_kind n) [K_Arg; K_Fn; K_Call; K_Item; K_CallArg; K_Left; K_Assign]) as PK.
  { intros X. unfold passing, const_kind in *. simpl in *. split; intros Y; intuition congruence. }
  unfold pass_up in G. tinv G. tg. pose proof (node_det _ _ _ _ E N); subst x. destruct (g_children n) as [|c l] eqn:C.
  - tinv G. eapply (quiet_other s n); eauto. unfold ruled, passing, blocky, number_place in *. rewrite C. simpl in *.
    intros Y. intuition congruence.
  - tinv G. tg. destruct (item_ids x) eqn:D; [tinv G; eapply (push_other s n); eauto|].
    destruct (g_ty x) as [u|] eqn:U; [|tinv G; eapply (push_other s n); eauto].
    destruct (is_kind (g_kind n) K_Grab && ty_eqb u TVoid) eqn:GR; [discriminate|].
    assert (In c (g_children n)) as CI by (rewrite C; now left).
    destruct (wf_child _ _ WF _ _ _ _ (inv_node _ _ H) N CI) as (IC & _).
    destruct (is_kind (g_kind x) K_Return) eqn:R.
    + apply is_kind_iff in R. tinv G. tinv G.
      assert (I (Some i) x1 /\ is_node (s_g x1) i n /\ is_node (s_g x1) c x) as (H1 & N1 & NC1).
      { destruct x0 as [q|]; [|injection E2 as <-; auto].
        destruct (enclosing_in _ _ _ _ (inv_node _ _ H) E1) as (L & qn & Q1 & Q2).
        tinv E2. apply get_ok in E3. pose proof (node_det _ _ _ _ E3 Q1); subst x0. destruct (g_ty qn) as [ft|] eqn:FT.
        - destruct (goes_with ft u); [|discriminate]. injection E2 as <-. auto.
        - injection E2 as <-. simpl. split; [|split; apply node_put_other; auto; lia].
          destruct (node0 _ _ _ _ (inv_node _ _ H) Q1) as (q0 & Q0 & X). rewrite X in Q2. simpl in Q2.
          assert (forall a d (r : Prop), declares g0 a q d -> r) as ND.
          { intros a d r Y. destruct (declares_tree _ _ WF _ _ _ Y) as (_ & _ & _ & (ln & Y1 & Y2 & _) & _).
            rewrite (node_det _ _ _ _ Y1 Q0) in Y2. exfalso. destruct Q2; congruence. }
          eapply (inv_pre K g0 WF i q q0); eauto.
          + right. split; [lia|]. split; auto. now rewrite (node_ty _ _ _ Q1).
          + intros j m _ _. right. intros _. now rewrite (node_ty _ _ _ Q1).
          + intros a d j [Y _]. eapply ND; eauto.
          + intros a d r [Y _]. eapply ND; eauto. }
      destruct KK as [KK|KK].
      * destruct (PK KK). eapply (fin_other x1 s' n); eauto. intros t T _. injection T as <-.
        eapply (D_return K _ i n c x u); eauto. now rewrite C.
      * eapply (fin_left x1 s' n); eauto. intros t d T X Y.
        destruct (left_try _ _ _ H N KK) as (_ & L). rewrite (one_child _ _ _ _ _ C L X) in *.
        destruct (shape_node' _ _ _ _ (inv_node _ _ H) E0) as [Z _]. destruct Y as (m & M1 & M2). rewrite (node_det _ _ _ _ M1 Z) in M2.
        simpl in M2. congruence.
    + destruct KK as [KK|KK].
      * destruct (PK KK). eapply (fin_other s s' n); eauto. intros t T _. injection T as <-. rewrite inner_behind.
        eapply (D_pass K _ i n c x u); eauto; [now rewrite C|now apply keyed_iff|].
        intros X. apply is_kind_iff in X. congruence.
      * eapply (fin_left s s' n); eauto. intros t d T X Y. injection T as <-.
        destruct (left_try _ _ _ H N KK) as (TR & L). rewrite (one_child _ _ _ _ _ C L X) in *.
        rewrite (node_ty _ _ _ E0), U. unfold inner_type. now rewrite TR.
Qed.

(** ** Variables *)
Lemma fin_item : forall s s' n o, I (Some i) s -> is_node (s_g s) i n -> g_kind n = K_Item ->
  (forall t, o = Some t -> derives K (s_g s) i t) -> (forall a l, declares g0 a l i -> ty_at (s_g s) l = o) ->
  finish i o s = TOk s' -> I None s'.
Proof.
  intros s s' n o H N KK D L F. destruct o as [t|].
  - destruct (finish_some _ _ _ _ F) as (m & M & -> & _ & _ & N1 & N2). rewrite (node_det _ _ _ _ M N) in *.
    destruct (node_g0 _ _ _ H N) as (n0 & N0 & E). rewrite E in KK, N2, N. simpl in *.
    eapply inv_upd; eauto; simpl; intros; try congruence; try kd.
    + destruct (sides_tree _ _ WF _ _ _ _ H0) as (A0 & _). destruct (declares_tree _ _ WF _ _ _ A0) as (_ & _ & (an & Y1 & Y2) & _).
      rewrite (node_det _ _ _ _ Y1 N0) in *. congruence.
    + destruct (not_argument _ _ _ _ _ _ _ H N H0) as [Y _]. simpl in Y. congruence.
  - apply finish_none in F. subst. simpl. eapply inv_pend; eauto; try (simpl; auto; fail).
    + intros a l Y. destruct (ty_at (s_g s) i) eqn:Z; auto. exfalso. eapply (V_left _ _ _ _ _ _ H a l i); eauto. congruence.
    + intros y sigs j x Y. destruct (not_argument _ _ _ _ _ _ _ H N Y). congruence.
Qed.
Lemma push_item : forall s n, I (Some i) s -> is_node (s_g s) i n -> g_kind n = K_Item -> g_children n <> [] -> I None (push i s).
Proof.
  intros s n H N KK C. simpl. eapply inv_pend; eauto; try (simpl; auto; fail).
  - intros a l Y. destruct (not_declared _ _ _ _ _ H N Y) as (_ & X & _). contradiction.
  - intros y sigs j x Y. destruct (not_argument _ _ _ _ _ _ _ H N Y). congruence.
Qed.
(** what reads a left side *)
Lemma left_reads : forall g p pn j m, shape g0 g -> is_node g0 p pn -> g_kind pn = K_Left -> is_node g0 j m -> ruled m -> reads g j p ->
  g_kind m = K_Item /\ g_decl m = None /\ g_parent m = Some p /\ In j (g_children pn).
Proof.
  intros g p pn j m S P KP J R [(xn & X1 & X2)|[(mm & X1 & X2 & X3 & X4)|(mm & X1 & X2 & X3 & X4 & X5)]].
  - exfalso. destruct (node0 _ _ _ _ S X1) as (x0 & Y & Z). rewrite Z in X2. simpl in X2. rewrite (node_det _ _ _ _ Y P) in X2.
    destruct (proj1 (wf_left _ _ WF _ _ P KP) _ X2) as (a & A1 & A2). rewrite (node_det _ _ _ _ A1 J) in A2.
    revert R. unfold ruled, passing, blocky, number_place. rewrite A2. simpl. intuition discriminate.
  - exfalso. destruct (node0 _ _ _ _ S X1) as (x0 & Y & Z). rewrite Z in X2, X3. simpl in X2, X3. rewrite (node_det _ _ _ _ Y J) in *.
    destruct (proj2 (wf_item _ _ WF _ _ J X2) _ X3) as [(k & W1 & W2)|[_ (a & l & W)]].
    + assert (kind_at g0 p K_Left) as W3 by (eexists; eauto). rewrite (kind_at_det _ _ _ _ W1 W3) in W2.
      destruct W2 as [W2|W2]; unfold counting in W2; simpl in W2; intuition discriminate.
    + destruct (declares_tree _ _ WF _ _ _ W) as (_ & _ & _ & _ & (dn & Y1 & Y2 & _)). rewrite (node_det _ _ _ _ Y1 P) in Y2. congruence.
  - destruct (node0 _ _ _ _ S X1) as (x0 & Y & Z). rewrite Z in X2, X3, X4. simpl in X2, X3, X4. rewrite (node_det _ _ _ _ Y J) in *.
    repeat split; auto. destruct (wf_parent _ _ WF _ _ _ J X4) as (_ & pn' & A & B). now rewrite (node_det _ _ _ _ A P) in B.
Qed.
Lemma index_counting : forall k, is_index_loop k = true <-> counting k.
Proof. intros k. unfold counting. split; [destruct k; simpl; intros H; try discriminate; tauto|simpl; intuition (subst; auto)]. Qed.
Lemma item_inv : forall s s' n, I (Some i) s -> is_node (s_g s) i n -> g_kind n = K_Item -> item i s = TOk s' -> I None s'.
Proof.
  intros s s' n H N KK G. unfold item in G. tinv G. tg. pose proof (node_det _ _ _ _ E N); subst x.
  destruct (item_ids n) eqn:IT. { tinv G. eapply push_item; eauto. apply (keyed_iff' _ IT). }
  assert (g_children n = []) as CH.
  { apply keyed_iff in IT. destruct (g_children n) eqn:X; auto. exfalso. apply IT. split; auto. congruence. }
  destruct (g_decl n) as [d|] eqn:DN.
  - assert (forall a l o, declares g0 a l i -> ty_at (s_g s) l = o) as ND.
    { intros a l o Y. destruct (not_declared _ _ _ _ _ H N Y) as (_ & _ & X & _). congruence. }
    tinv G. tg. rename x into dn. destruct (is_index_loop (g_kind dn)) eqn:IL.
    { destruct (g_try n) eqn:TR; [discriminate|]. eapply (fin_item s s' n); eauto. intros t T. injection T as <-.
      eapply (D_index K _ i n d dn); eauto. now apply index_counting. }
    destruct (is_kind (g_kind dn) K_Arg) eqn:IA.
    { eapply (fin_item s s' n); eauto. intros t T. injection T as <-. rewrite inner_behind.
      apply is_kind_iff in IA. eapply (D_param K _ i n d dn); eauto. }
    assert (~ counting (g_kind dn)) as NC by (rewrite <- index_counting; congruence).
    assert (g_kind dn <> K_Arg) as NA by (intros X; apply is_kind_iff in X; congruence).
    destruct (g_ty dn) as [u|] eqn:U; [|eapply (fin_item s s' n); eauto; discriminate].
    assert (derives K (s_g s) i (inner_type n u)) as DD.
    { rewrite inner_behind. eapply (D_variable K _ i n d dn); eauto. }
    destruct (g_parent n) as [p|] eqn:PN; [|eapply (fin_item s s' n); eauto; congruence].
    tinv G. tg. rename x into pn. destruct (is_kind (g_kind pn) K_Left) eqn:KP; [|eapply (fin_item s s' n); eauto; congruence].
    apply is_kind_iff in KP. destruct (node0 _ _ _ _ (inv_node _ _ H) E1) as (p0 & P0 & X). rewrite X in KP. simpl in KP.
    destruct (node_g0 _ _ _ H N) as (n0 & N0 & Y). rewrite Y in PN, DN, KK. simpl in PN, DN, KK.
    destruct (wf_parent _ _ WF _ _ _ N0 PN) as (L & pn' & Q1 & Q2). rewrite (node_det _ _ _ _ Q1 P0) in *.
    destruct (wf_left _ _ WF _ _ P0 KP) as (_ & LE & TR).
    assert (forall a d' (r : Prop), declares g0 a p d' -> r) as NDP.
    { intros a d' r Z. destruct (declares_tree _ _ WF _ _ _ Z) as (_ & _ & _ & (ln & Z1 & Z2 & Z3 & Z4) & (dn' & W1 & W2 & W3 & W4 & W5)).
      rewrite (node_det _ _ _ _ Z1 P0) in Z3. rewrite Z3 in Q2. destruct Q2 as [-> |[]]. rewrite (node_det _ _ _ _ W1 N0) in W4. congruence. }
    assert (I (Some i) (set_ty p (inner_type n u) s)) as H1.
    { simpl. eapply (inv_pre K g0 WF i p p0); eauto.
      - intros j m J R. right. intros RD. destruct (left_reads _ _ _ _ _ (inv_node _ _ H) P0 KP J R RD) as (_ & J1 & _ & J2).
        assert (j = i) as ->.
        { destruct (g_children p0) as [|c r] eqn:CC; [contradiction|]. rewrite <- CC in *.
          now rewrite (one_child _ _ _ _ _ CC LE J2), (one_child _ _ _ _ _ CC LE Q2). }
        rewrite (node_det _ _ _ _ J N0) in J1. congruence.
      - intros a d' j [Z _]. eapply NDP; eauto.
      - intros a d' r [Z _]. eapply NDP; eauto. }
    eapply (fin_item (set_ty p (inner_type n u) s) s' n); eauto.
    + simpl. apply node_put_other; auto. lia.
    + rewrite Y. auto.
    + intros t T. injection T as <-. simpl. rewrite inner_behind.
      destruct (shape_node' _ _ _ _ (inv_node _ _ H) E0) as [D0 _].
      eapply (D_variable K _ i n d dn); auto.
      * apply node_put_other; auto. lia.
      * rewrite Y. auto.
      * rewrite Y. auto.
      * apply node_put_other; auto. intros ->.
        destruct (proj2 (wf_item _ _ WF _ _ N0 KK) _ DN) as [(k & W1 & W2)|[_ (a & l & W)]].
        -- assert (kind_at g0 p K_Left) as W3 by (eexists; eauto). rewrite (kind_at_det _ _ _ _ W1 W3) in W2.
           destruct W2 as [W2|W2]; unfold counting in W2; simpl in W2; intuition discriminate.
        -- destruct (declares_tree _ _ WF _ _ _ W) as (_ & _ & _ & _ & (dn' & Y1 & Y2 & _)). rewrite (node_det _ _ _ _ Y1 P0) in Y2. congruence.
    + intros a l Z. destruct (not_declared _ _ _ _ _ H N Z) as (_ & _ & W & _). rewrite Y in W. simpl in W. congruence.
  - destruct (g_parent n) as [p|] eqn:PN.
    + tinv G. tg. rename x into pn. destruct (is_kind (g_kind pn) K_Left) eqn:KP.
      * apply is_kind_iff in KP. eapply (fin_item s s' n); eauto.
        -- intros t T. eapply (D_declared K _ i n p); eauto; [exists pn; auto|]. now rewrite (node_ty _ _ _ E0).
        -- intros a l Z. destruct (not_declared _ _ _ _ _ H N Z) as (_ & _ & _ & W). rewrite PN in W. injection W as <-.
           now rewrite (node_ty _ _ _ E0).
      * eapply (fin_item s s' n); eauto; [discriminate|]. intros a l Z. exfalso.
        destruct (not_declared _ _ _ _ _ H N Z) as (_ & _ & _ & W). rewrite PN in W. injection W as <-.
        destruct (declares_tree _ _ WF _ _ _ Z) as (_ & _ & _ & (ln & Z1 & Z2 & _) & _).
        destruct (node0 _ _ _ _ (inv_node _ _ H) E0) as (p0 & P0 & X). rewrite (node_det _ _ _ _ Z1 P0) in Z2.
        rewrite X in KP. simpl in KP. rewrite Z2 in KP. discriminate.
    + eapply (fin_item s s' n); eauto; [discriminate|]. intros a l Z. exfalso.
      destruct (not_declared _ _ _ _ _ H N Z) as (_ & _ & _ & W). congruence.
Qed.

(** ** Assignments *)
Lemma fin_assign : forall s s' n t, I (Some i) s -> is_node (s_g s) i n -> g_kind n = K_Assign ->
  (forall l d r, sides g0 i l d r -> ty_at (s_g s) r <> None /\ ty_at (s_g s) l = ty_at (s_g s) r) ->
  finish i (Some t) s = TOk s' -> I None s'.
Proof.
  intros s s' n t H N KK D F.
  destruct (finish_some _ _ _ _ F) as (m & M & -> & _ & _ & N1 & N2). rewrite (node_det _ _ _ _ M N) in *.
  destruct (node_g0 _ _ _ H N) as (n0 & N0 & E). rewrite E in KK, N2, N. simpl in *.
  eapply inv_upd; eauto; simpl; intros; try congruence; try kd.
  - exfalso. revert H0. unfold ruled, passing, blocky, number_place. rewrite KK. simpl. intuition discriminate.
  - destruct (declares_tree _ _ WF _ _ _ H0) as (_ & _ & _ & _ & (dn & Y1 & Y2 & _)). rewrite (node_det _ _ _ _ Y1 N0) in *. congruence.
  - destruct (not_argument _ _ _ _ _ _ _ H N H0) as [Y _]. simpl in Y. congruence.
Qed.
Lemma fold_push_new : forall l s x, In x (s_new (fold_left (fun s j => push j s) l s)) <-> In x l \/ In x (s_new s).
Proof. induction l as [|a l IH]; intros s x; simpl; [tauto|]. rewrite IH. simpl. tauto. Qed.
Lemma user_in : forall g a l d j, shape g0 g -> user g0 a l d j -> In j (users g d).
Proof.
  intros g a l d j S U. pose proof (user_lt _ _ WF _ _ _ _ U) as L. destruct U as [_ (n & N & A & B)].
  destruct (shape_node _ _ _ _ S N) as [t T]. apply filter_In. split.
  - assert (j < length g) by (apply nth_error_Some; unfold is_node in T; congruence). apply in_seq. lia.
  - unfold is_node in T. rewrite T. simpl. rewrite B. apply Nat.eqb_refl.
Qed.
Lemma assign_inv : forall s s' n, I (Some i) s -> is_node (s_g s) i n -> g_kind n = K_Assign -> assign i s = TOk s' -> I None s'.
Proof.
  intros s s' n H N KK G. unfold assign in G. tinv G. tg. pose proof (node_det _ _ _ _ E N); subst x.
  tinv G. destruct x as [l|]; [|tinv G; eapply (push_other s n); eauto; congruence].
  tinv G. destruct x as [r|]; [|tinv G; eapply (push_other s n); eauto; congruence].
  tinv G. tinv G. tg. rename x into ln. rename x0 into rn.
  destruct (item_ids rn); [tinv G; eapply (push_other s n); eauto; congruence|].
  apply find_child_first in E0, E1.
  destruct (node_g0 _ _ _ H N) as (n0 & N0 & X).
  assert (forall k c, first_of (s_g s) n k c -> first_of g0 n0 k c) as FO.
  { intros k c F. eapply shape_first; [apply shape_sym, (inv_node _ _ H)| |exact F]. now rewrite X. }
  pose proof (FO _ _ E0) as FL. pose proof (FO _ _ E1) as FR.
  assert (kind_at g0 l K_Left) as (l0 & L0 & LK) by (destruct FL as (pre & post & _ & Y & _); exact Y).
  assert (kind_at g0 r K_Right) as (r0 & R0 & RK) by (destruct FR as (pre & post & _ & Y & _); exact Y).
  assert (l <> r) as LR by (intros ->; rewrite (node_det _ _ _ _ L0 R0) in LK; congruence).
  assert (i < l /\ g_parent l0 = Some i) as (IL & LP).
  { destruct FL as (pre & post & Y & _). destruct (wf_child _ _ WF g0 i n0 l (shape_refl g0) N0) as (Z1 & m & Z2 & Z3).
    - rewrite Y. apply in_or_app. right. now left.
    - rewrite (node_det _ _ _ _ Z2 L0) in Z3. auto. }
  assert (forall a d r, sides g0 a l d r -> a = i) as AI.
  { intros a d q Y. destruct (sides_tree _ _ WF _ _ _ _ Y) as (A0 & _).
    destruct (declares_tree _ _ WF _ _ _ A0) as (_ & _ & _ & (m & M1 & M2 & M3 & M4) & _). rewrite (node_det _ _ _ _ M1 L0) in M4. congruence. }
  assert (forall s1 t, I (Some i) s1 -> s_g s1 = put (s_g s) l (Some t) -> g_ty rn = Some t -> finish i (Some TVoid) s1 = TOk s' -> I None s') as FIN.
  { intros s1 t H1 Y Z W. eapply (fin_assign s1 s' n); eauto.
    - rewrite Y. apply node_put_other; auto. lia.
    - intros l' d r' SD. destruct (sides_tree _ _ WF _ _ _ _ SD) as (A0 & _).
      assert (r' = r) as -> by (destruct SD as [_ (an & A1 & A2)]; rewrite (node_det _ _ _ _ A1 N0) in A2; eapply first_det; eauto).
      assert (l' = l) as ->.
      { destruct A0 as (an & ? & ? & A1 & _ & A2 & _). rewrite (node_det _ _ _ _ A1 N0) in A2. eapply first_det; eauto. }
      rewrite Y, ty_put_other, (ty_put_here _ _ _ _ E2), (node_ty _ _ _ E3) by auto. rewrite Z. split; [discriminate|auto]. }
  destruct (g_ty ln) as [lt|] eqn:LT', (g_ty rn) as [t|] eqn:RT; try (tinv G; eapply (push_other s n); eauto; congruence).
  - destruct (goes_with t lt); [|tinv G; eapply (push_other s n); eauto; congruence].
    set (s0 := match g_children ln with [] => s | it :: _ => fold_left (fun s j => push j s) (it :: users (s_g s) it) s end) in *.
    assert (s_g s0 = s_g s) as G0 by (unfold s0; destruct (g_children ln); auto using fold_push).
    assert (forall x, In x (s_new s) -> In x (s_new s0)) as NW.
    { intros x Y. unfold s0. destruct (g_children ln); auto. apply fold_push_new. now right. }
    assert (g_children ln = g_children l0) as CL.
    { destruct (node0 _ _ _ _ (inv_node _ _ H) E2) as (l1 & L1 & Y). rewrite Y. simpl. now rewrite (node_det _ _ _ _ L1 L0). }
    destruct (wf_left _ _ WF _ _ L0 LK) as (_ & LE & _).
    assert (I (Some i) (change (set_ty l t s0))) as H1.
    { simpl. rewrite G0. eapply (inv_pre K g0 WF i l l0); eauto.
      - intros j m J R. destruct (in_dec Nat.eq_dec j (g_children l0)) as [Y|Y].
        + left. unfold s0. rewrite CL. destruct (g_children l0) as [|it q] eqn:CC; [contradiction|]. rewrite <- CC in *.
          rewrite (one_child _ _ _ _ _ CC LE Y) in *. apply fold_push_new. left. now left.
        + right. intros RD. destruct (left_reads _ _ _ _ _ (inv_node _ _ H) L0 LK J R RD) as (_ & _ & _ & Z). contradiction.
      - intros a d j Y. right. destruct (declares_tree _ _ WF _ _ _ (proj1 Y)) as (_ & _ & _ & (m & M1 & M2 & M3 & M4) & _).
        rewrite (node_det _ _ _ _ M1 L0) in M3. unfold s0. rewrite CL, M3. split; apply fold_push_new; left; [right|now left].
        eapply user_in; eauto. exact (inv_node _ _ H). }
    eapply (FIN _ t H1); eauto. simpl. now rewrite G0.
  - assert (I (Some i) (change (set_ty l t s))) as H1.
    { simpl. eapply (inv_pre K g0 WF i l l0); eauto.
      - intros j m J R. right. intros _. now rewrite (node_ty _ _ _ E2).
      - intros a d j Y. left. destruct (ty_at (s_g s) d) eqn:Z; auto. exfalso.
        eapply (V_left _ _ _ _ _ _ H a l d (proj1 Y)); [congruence|]. now rewrite (node_ty _ _ _ E2). }
    eapply (FIN _ t H1); eauto.
Qed.

(** ** Calls *)
Lemma call_args : forall s n, I (Some i) s -> is_node (s_g s) i n -> g_kind n = K_Call ->
  forall c, In c (g_children n) -> exists cn x, is_node (s_g s) c cn /\ g_kind cn = K_CallArg /\ g_try cn = false /\ g_children cn = [x].
Proof.
  intros s n H N KK c C. destruct (node_g0 _ _ _ H N) as (n0 & N0 & X). rewrite X in KK, C. simpl in KK, C.
  destruct (wf_call _ _ WF _ _ N0 KK) as (_ & _ & W). destruct (W _ C) as (cn & x & A & B & D & E).
  destruct (shape_node _ _ _ _ (inv_node _ _ H) A) as [t T]. exists (retype cn t), x. auto.
Qed.
Lemma arg_types_nth : forall g l ts, (forall c, In c l -> exists cn x, is_node g c cn /\ g_kind cn = K_CallArg /\ g_try cn = false /\ g_children cn = [x]) ->
  arg_types g l = TOk ts -> length ts = length l /\
  forall j c cn x u, nth_error l j = Some c -> is_node g c cn -> g_children cn = [x] -> nth_error ts j = Some u -> u = ty_at g x.
Proof.
  induction l as [|c l IH]; intros ts W H; simpl in H.
  - injection H as <-. split; auto. intros [|j] c cn x u A; discriminate.
  - tinv H. apply get_ok in E. destruct (W c (or_introl eq_refl)) as (cn & x' & A & B & _ & D). pose proof (node_det _ _ _ _ E A); subst x.
    rewrite B, is_kind_refl, D in H. tinv H. tinv H. tinv H. apply get_ok in E0.
    destruct (IH _ (fun c X => W c (or_intror X)) E1) as (L & R). split; [simpl; congruence|].
    intros [|j] c' cn' y u P Q S T; simpl in P, T; [|eapply R; eauto].
    injection P as <-. injection T as <-. rewrite (node_det _ _ _ _ Q A), D in S. injection S as <-. now rewrite (node_ty _ _ _ E0).
Qed.
Lemma fin_call : forall s s' n o, I (Some i) s -> is_node (s_g s) i n -> g_kind n = K_Call ->
  (forall t, o = Some t -> (~ choosing K g0 i -> In i (s_new s) \/ derives K (s_g s) i t) /\
    (forall sigs, choices K (s_g s) n sigs -> sigs <> [] -> In i (s_new s) \/ exists u, refine sigs u = RFound t /\ arg_types (s_g s) (g_children n) = TOk u) /\
    (forall d, g_decl n = Some d -> choices K (s_g s) n [] -> ty_at (s_g s) d = Some t)) ->
  finish i o s = TOk s' -> I None s'.
Proof.
  intros s s' n o H N KK D F. destruct o as [t|].
  - destruct (finish_some _ _ _ _ F) as (m & M & -> & _ & _ & N1 & N2). rewrite (node_det _ _ _ _ M N) in *.
    destruct (D t eq_refl) as (D1 & D2 & D3).
    assert (forall c, In c (g_children n) -> exists cn x, is_node (s_g s) c cn /\ g_kind cn = K_CallArg /\ g_try cn = false /\ g_children cn = [x]) as CA
      by (eapply call_args; eauto).
    destruct (node_g0 _ _ _ H N) as (n0 & N0 & E). rewrite E in KK, N2, N, CA, D2, D3. simpl in *.
    assert (forall sigs, choices K g0 n0 sigs -> choices K (s_g s) (retype n0 (ty_at (s_g s) i)) sigs) as CH.
    { intros sigs C. eapply same_choices; eauto. eapply inv_same_sigs; eauto. }
    eapply inv_upd; eauto; simpl; intros; try congruence; try kd.
    + destruct (D1 H1) as [X|X]; auto.
    + destruct (D2 sigs (CH _ H1) H2) as [X|(u & X & Y)]; auto. right. exists u. destruct (arg_types_nth _ _ _ CA Y) as (L & R).
      repeat split; auto. intros j c x uj Z W. destruct Z as (q & cn & Z1 & Z2 & Z3 & Z4 & Z5 & Z6 & Z7 & Z8 & Z9).
      rewrite (node_det _ _ _ _ Z1 N0) in Z5. destruct (shape_node _ _ _ _ (inv_node _ _ H) Z6) as [ct T].
      eapply R; eauto.
    + destruct (declares_tree _ _ WF _ _ _ H0) as (_ & _ & _ & _ & (dn & Y1 & Y2 & _)). rewrite (node_det _ _ _ _ Y1 N0) in *. congruence.
    + destruct (sides_tree _ _ WF _ _ _ _ H0) as (A0 & _). destruct (declares_tree _ _ WF _ _ _ A0) as (_ & _ & (an & Y1 & Y2) & _).
      rewrite (node_det _ _ _ _ Y1 N0) in *. congruence.
    + destruct (not_argument _ _ _ _ _ _ _ H N H0) as [Y _]. simpl in Y. congruence.
  - apply finish_none in F. subst. eapply (push_other s n); eauto; congruence.
Qed.
Lemma refine_call_inv : forall s s' n sigs default, I (Some i) s -> is_node (s_g s) i n -> g_kind n = K_Call ->
  choices K (s_g s) n sigs -> (forall t, default = Some t -> plain_result K (s_g s) n t) ->
  refine_call i n sigs default s = TOk s' -> I None s'.
Proof.
  intros s s' n sigs default H N KK C P G. unfold refine_call in G. tinv G. rename x into ts.
  assert (forall t, default = Some t -> forall d, g_decl n = Some d -> ty_at (s_g s) d = Some t) as PD.
  { intros t T d D. destruct (P t T) as [(d' & X & Y)|(f & (X & _) & _)]; congruence. }
  destruct (refine sigs ts) as [t| | | |] eqn:R; try discriminate.
  - eapply (fin_call s s' n); eauto. intros t' T. injection T as <-. assert (sigs <> []) as NE by (intros ->; discriminate). repeat split.
    + intros NC. exfalso. apply NC. destruct (node_g0 _ _ _ H N) as (n0 & N0 & X). exists n0, sigs. rewrite X in KK. repeat split; auto.
      pose proof (same_choices K _ _ _ (ty_at g0 i) _ (same_sigs_sym _ _ (inv_same_sigs _ _ _ _ _ _ H)) C) as Y. rewrite X in Y.
      replace n0 with (retype n0 (ty_at g0 i)); auto. rewrite retype_id; auto. now rewrite (node_ty _ _ _ N0).
    + intros sigs' C' _. rewrite (choices_det _ _ _ _ _ C' C). eauto.
    + intros d D C'. exfalso. apply NE. eapply choices_det; eauto.
  - eapply (fin_call (push i s) s' n); eauto.
    + apply inv_push; auto.
    + intros t T. assert (default = Some t) as DT by (destruct (g_ty n); congruence). simpl. repeat split; auto.
  - apply refine_nothing in R. subst. eapply (fin_call s s' n); eauto. intros t T.
    assert (default = Some t) as DT by (destruct (g_ty n); congruence). repeat split.
    + intros NC. right. eapply D_call; eauto.
    + intros sigs' C' NE. exfalso. apply NE. eapply choices_det; eauto.
    + eauto.
Qed.
Lemma call_inv : forall s s' n, I (Some i) s -> is_node (s_g s) i n -> g_kind n = K_Call -> call K i s = TOk s' -> I None s'.
Proof.
  intros s s' n H N KK G. unfold call in G. tinv G. tg. pose proof (node_det _ _ _ _ E N); subst x. destruct (g_decl n) as [d|] eqn:D.
  - tinv G. tg. tinv G. eapply (refine_call_inv s s' n); eauto.
    + left. exists d, x. repeat split; auto. now apply sigs_of_are.
    + intros t T. left. exists d. split; auto. now rewrite (node_ty _ _ _ E0).
  - tinv G. destruct x as [f|]; [|eapply (fin_call s s' n); eauto; discriminate].
    pose proof (callee_target _ _ _ D E0) as T. assert (choices K (s_g s) n (d_ext f)) as C by (right; eauto).
    destruct (d_ext f) as [|a l] eqn:X.
    + eapply (fin_call s s' n); eauto. intros t Y. injection Y as <-. repeat split.
      * intros _. right. eapply D_call; eauto. right. eauto.
      * intros sigs' C' NE. exfalso. apply NE. eapply choices_det; eauto.
      * congruence.
    + eapply (refine_call_inv s s' n); eauto. intros t Y. injection Y as <-. right. eauto.
Qed.

(** ** Call arguments *)
Lemma fits_takes : forall g p pn j t, shape g0 g -> is_node g p pn -> arg_fits K g pn (Some t) j = TOk true -> takes K g0 g p j t.
Proof.
  intros g p pn j t S P H q Q KQ. destruct (node0 _ _ _ _ S P) as (p0 & P0 & X). pose proof (node_det _ _ _ _ Q P0); subst q. rewrite X in H.
  unfold arg_fits in H. simpl in H. rewrite KQ in H. simpl in H. split.
  - intros d f a u D F A KA T. rewrite D in H. tinv H. apply get_ok in E.
    destruct (shape_node _ _ _ _ S F) as [ft FT]. rewrite (node_det _ _ _ _ E FT) in H. simpl in H. rewrite A in H. tinv H. apply get_ok in E0.
    injection H as H. rewrite (node_ty _ _ _ E0) in T. rewrite T in H. auto.
  - intros f u T A. rewrite (proj1 T) in H. tinv H. rewrite (target_callee _ _ f _ T E) in H. rewrite A in H. now injection H as <-.
Qed.
Lemma index_sum : forall g pre ws, Forall2 (spread g) pre ws -> (forall c, In c pre -> spread g c 1) -> list_sum ws = length pre.
Proof.
  intros g pre ws F. induction F as [|c w pre ws A F IH]; intros H; simpl; auto.
  assert (w = 1) as ->; [|rewrite IH; auto; intros; apply H; now right].
  destruct (H c (or_introl eq_refl)) as (cn & x & B & C & D). destruct A as (cn' & x' & B' & C' & D').
  pose proof (node_det _ _ _ _ B' B); subst cn'. rewrite C in C'. injection C' as <-.
  destruct D as [(xn & X1 & X2 & X3)|(X1 & X2)], D' as [(xn' & Y1 & Y2 & Y3)|(Y1 & Y2)]; try lia.
  - pose proof (node_det _ _ _ _ Y1 X1); subst xn'. lia.
  - exfalso. apply X1. exists xn'. auto.
Qed.
Lemma argument_single : forall y sigs j c x n, argument K g0 y sigs j c x -> is_node g0 y n -> g_kind n = K_Call ->
  (exists ps, params_are K g0 n ps /\ fitting sigs ps /\ length (g_children n) <= length ps) /\
  (forall d, In d (g_children n) -> spread g0 d 1) /\ ~ kind_at g0 x K_Swizzle.
Proof.
  intros y sigs j c x n (n' & cn & A & B & C & D & E & F & G & H & J) N KN. pose proof (node_det _ _ _ _ A N); subst n'.
  assert (exists ps, params_are K g0 n ps) as (ps & PS).
  { destruct C as [(d & f & C1 & C2 & C3)|(f & C1 & C2)].
    - exists (map (fun c => match ty_at g0 c with Some t => t | None => TAny end)
        (filter (fun c => match nth_error g0 c with Some m => is_kind (g_kind m) K_Arg | None => false end) (g_children f))).
      left. exists d, f. repeat split; auto. induction (filter _ (g_children f)); simpl; constructor; auto.
    - exists (d_tys f). right. eauto. }
  destruct (wf_fit _ _ WF y n sigs ps N KN C D PS) as (F1 & F2 & F3). split; [exists ps; auto|]. split.
  - intros d X. destruct (wf_call _ _ WF _ _ N KN) as (_ & _ & W). destruct (W _ X) as (dn & z & Z1 & Z2 & Z3 & Z4).
    exists dn, z. repeat split; auto. right. split; auto. eapply F3; eauto. rewrite Z4. now left.
  - eapply (F3 c cn x); eauto; [eapply nth_error_In; eauto|rewrite J; now left].
Qed.
Lemma all_spread : forall g l, (forall d, In d l -> spread g d 1) -> Forall2 (spread g) l (repeat 1 (length l)).
Proof. induction l as [|a l IH]; intros H; simpl; constructor; [apply H; now left|apply IH; intros; apply H; now right]. Qed.
Lemma list_sum_ones : forall n, list_sum (repeat 1 n) = n. Proof. induction n; simpl; auto. Qed.
Lemma nth_app_at : forall A (l : list A) j c, nth_error l j = Some c -> exists pre post, l = pre ++ c :: post /\ length pre = j.
Proof. intros A l j c H. destruct (nth_error_split _ _ H) as (a & b & X & Y). eauto. Qed.
Lemma arg_nth : forall (g : graph) f ps j q, (exists args rest, g_children f = args ++ rest /\
    (forall c, In c args -> kind_at g c K_Arg) /\ (forall c, In c rest -> ~ kind_at g c K_Arg)) ->
  Forall2 (fun c p => p = match ty_at g c with Some t => t | None => TAny end)
    (filter (fun c => match nth_error g c with Some m => is_kind (g_kind m) K_Arg | None => false end) (g_children f)) ps ->
  nth_error ps j = Some q -> exists a, nth_error (g_children f) j = Some a /\ kind_at g a K_Arg /\ q = match ty_at g a with Some t => t | None => TAny end.
Proof.
  intros g f ps j q (args & rest & A & B & C) F H. rewrite A in *. rewrite filter_app in F.
  assert (filter (fun c => match nth_error g c with Some m => is_kind (g_kind m) K_Arg | None => false end) args = args) as E1.
  { clear - B. induction args as [|a args IH]; simpl; auto. destruct (B a (or_introl eq_refl)) as (m & M & Q). unfold is_node in M.
    rewrite M, Q, is_kind_refl. f_equal. apply IH. intros; apply B; now right. }
  assert (filter (fun c => match nth_error g c with Some m => is_kind (g_kind m) K_Arg | None => false end) rest = []) as E2.
  { clear - C. induction rest as [|a rest IH]; simpl; auto. destruct (nth_error g a) as [m|] eqn:M.
    - destruct (is_kind (g_kind m) K_Arg) eqn:Q.
      + exfalso. apply (C a); [now left|]. apply is_kind_iff in Q. exists m. auto.
      + apply IH. intros; apply C; now right.
    - apply IH. intros; apply C; now right. }
  rewrite E1, E2, app_nil_r in F. clear E1 E2 A C. revert j H. induction F as [|a p args ps X F IH]; intros [|j] H; simpl in H; try discriminate.
  - injection H as <-. exists a. simpl. split; auto. split; auto. apply B. now left.
  - destruct (IH (fun c Y => B c (or_intror Y)) j H) as (b & Y1 & Y2 & Y3). exists b. auto.
Qed.
Lemma misfit_blocked : forall s p pn cn js y sigs j x, I (Some i) s -> argument K g0 y sigs j i x -> is_node (s_g s) x cn ->
  is_node (s_g s) p pn -> p = y -> arg_positions (s_g s) i pn cn = TOk js -> all_fit K (s_g s) pn (g_ty cn) js = TOk false ->
  blocked sigs j (ty_at (s_g s) x).
Proof.
  intros s p pn cn js y sigs j x H A X P -> AP AF. pose proof (inv_node _ _ H) as S.
  destruct (node0 _ _ _ _ S P) as (p0 & P0 & PE).
  assert (g_kind p0 = K_Call) as KP.
  { destruct A as (n & cn' & A1 & A2 & _). now rewrite (node_det _ _ _ _ P0 A1). }
  destruct (argument_single _ _ _ _ _ _ A P0 KP) as ((ps & PS & FT & LE) & SP & NS).
  destruct A as (n & cn' & A1 & A2 & A3 & A4 & A5 & A6 & A7 & A8 & A9). pose proof (node_det _ _ _ _ A1 P0); subst n.
  destruct (nth_app_at _ _ _ _ A5) as (pre & post & L1 & L2).
  assert (js = [j]) as ->.
  { unfold arg_positions in AP. tinv AP. rewrite PE in E. simpl in E. rewrite L1 in E.
    destruct (wf_tree _ _ WF _ _ P0) as (ND & _). rewrite L1 in ND. apply NoDup_remove_2 in ND.
    apply (arg_position_sum _ _ _ _ (repeat 1 (length pre))) in E.
    - rewrite list_sum_ones, L2 in E. subst x0. destruct (is_kind (g_kind cn) K_Swizzle) eqn:Q; [|now injection AP as <-].
      exfalso. apply NS. apply is_kind_iff in Q. eapply shape_kind; [apply shape_sym; exact S|]. exists cn. auto.
    - intros Y. apply ND. apply in_or_app. auto.
    - apply all_spread. intros d D. eapply spread_shape; eauto. apply SP. rewrite L1. apply in_or_app. auto. }
  destruct (all_fit_false _ _ _ _ _ AF) as (j' & [<- |[]] & F). clear AF.
  intros u t R NU. rewrite (node_ty _ _ _ X) in NU.
  assert (exists q, nth_error ps j = Some q) as (q & Q).
  { assert (j < length ps) as L by (rewrite L1, app_length in LE; simpl in LE; lia). apply nth_error_Some in L. destruct (nth_error ps j); [eauto|congruence]. }
  unfold arg_fits in F. rewrite PE in F. simpl in F. rewrite KP in F. simpl in F. destruct (g_decl p0) as [d|] eqn:DP.
  - tinv F. apply get_ok in E. destruct (nth_error (g_children x0) j) as [a|] eqn:AN; [|discriminate]. tinv F. apply get_ok in E0.
    destruct (g_ty cn) as [ct|]; [|discriminate]. destruct (g_ty x1) as [at_|] eqn:AT; [|discriminate]. injection F as F.
    destruct PS as [(d' & f & D1 & D2 & D3)|(f & (D1 & _) & _)]; [|congruence]. rewrite DP in D1. injection D1 as <-.
    destruct (wf_call _ _ WF _ _ P0 KP) as (_ & W & _). destruct (W _ DP) as (f' & F1 & F2 & _). pose proof (node_det _ _ _ _ F1 D2); subst f'.
    destruct (arg_nth g0 f ps j q (wf_fn _ _ WF _ _ D2 F2) D3 Q) as (a' & N1 & N2 & N3).
    destruct (shape_node _ _ _ _ S D2) as [ft FT']. rewrite (node_det _ _ _ _ E FT') in AN. simpl in AN. rewrite AN in N1. injection N1 as <-.
    assert (q = at_) as ->.
    { destruct (V_arg _ _ _ _ _ _ H a N2) as [V|[V1 V2]]; rewrite (node_ty _ _ _ E0), AT in *.
      - now rewrite <- V in N3.
      - rewrite V1 in N3. congruence. }
    rewrite (FT u t j ct at_ R NU Q) in F. discriminate.
  - tinv F. destruct x0 as [f|]; [|discriminate]. destruct (g_ty cn) as [ct|]; [|discriminate].
    destruct (nth_error (d_tys f) j) as [w|] eqn:W; [|discriminate]. injection F as F.
    destruct PS as [(d' & f' & D1 & _)|(f' & D1 & ->)]; [congruence|]. pose proof (target_callee _ _ _ _ D1 E) as Y. injection Y as <-.
    rewrite Q in W. injection W as <-. rewrite (FT u t j ct q R NU Q) in F. discriminate.
Qed.
Lemma fin_arg : forall s s' n o, I (Some i) s -> is_node (s_g s) i n -> g_kind n = K_CallArg ->
  (forall t, o = Some t -> derives K (s_g s) i t) -> (forall x, g_children n = [x] -> g_try n = false -> ty_at (s_g s) x = o) ->
  (forall t p pn j, o = Some t -> g_parent n = Some p -> is_node g0 p pn -> supplies g0 pn i j -> takes K g0 (s_g s) p j t) ->
  finish i o s = TOk s' -> I None s'.
Proof.
  intros s s' n o H N KK D X T F. destruct o as [t|].
  - destruct (finish_some _ _ _ _ F) as (m & M & -> & _ & _ & N1 & N2). rewrite (node_det _ _ _ _ M N) in *.
    destruct (node_g0 _ _ _ H N) as (n0 & N0 & E). rewrite E in KK, N2, N, T. simpl in *.
    eapply inv_upd; eauto; simpl; intros; try congruence; try kd.
    + destruct (declares_tree _ _ WF _ _ _ H0) as (_ & _ & _ & _ & (dn & Y1 & Y2 & _)). rewrite (node_det _ _ _ _ Y1 N0) in *. congruence.
    + destruct (sides_tree _ _ WF _ _ _ _ H0) as (A0 & _). destruct (declares_tree _ _ WF _ _ _ A0) as (_ & _ & (an & Y1 & Y2) & _).
      rewrite (node_det _ _ _ _ Y1 N0) in *. congruence.
    + destruct (not_argument _ _ _ _ _ _ _ H N H0) as (_ & Y1 & Y2 & _). apply X; rewrite E; auto.
  - apply finish_none in F. subst. simpl. eapply inv_pend; eauto; try (simpl; auto; fail).
    + intros a l Y. destruct (not_declared _ _ _ _ _ H N Y). congruence.
    + intros y sigs j x Y. left. destruct (not_argument _ _ _ _ _ _ _ H N Y) as (_ & Y1 & Y2 & _). auto.
Qed.
Lemma supplies_one : forall pn c n j, is_node g0 c n -> supplies g0 pn c j -> exists x, g_children n = [x].
Proof. intros pn c n j N (pre & post & ws & w & _ & _ & (cn & x & A & B & _) & _). rewrite (node_det _ _ _ _ A N) in B. eauto. Qed.
Lemma inv_errs : forall v s l, I v s -> I v (St (s_g s) (s_new s) l (s_changed s)). Proof. auto. Qed.
Lemma call_arg_inv : forall s s' n, I (Some i) s -> is_node (s_g s) i n -> g_kind n = K_CallArg -> call_arg K i s = TOk s' -> I None s'.
Proof.
  intros s s' n H N KK G. unfold call_arg in G. tinv G. tg. pose proof (node_det _ _ _ _ E N); subst x.
  pose proof (inv_node _ _ H) as S.
  destruct (g_children n) as [|c l] eqn:C.
  { tinv G. simpl. eapply inv_pend; eauto; try (simpl; auto; fail).
    - intros a l Y. destruct (not_declared _ _ _ _ _ H N Y). congruence.
    - intros y sigs j x Y. destruct (not_argument _ _ _ _ _ _ _ H N Y) as (_ & _ & Y2 & _). congruence. }
  tinv G. tg. rename x into cn.
  assert (forall t, option_map (inner_type n) (g_ty cn) = Some t -> derives K (s_g s) i t) as DD.
  { intros t T. destruct (g_ty cn) as [u|] eqn:U; [|discriminate]. injection T as <-. rewrite inner_behind.
    eapply (D_arg K _ i n c cn u); eauto. now rewrite C. }
  assert (forall x, g_children n = [x] -> g_try n = false -> ty_at (s_g s) x = option_map (inner_type n) (g_ty cn)) as DX.
  { intros x X Y. rewrite C in X. injection X as <-. rewrite (node_ty _ _ _ E0). destruct (g_ty cn); auto. simpl. unfold inner_type. now rewrite Y. }
  destruct (g_parent n) as [p|] eqn:P.
  2:{ eapply (fin_arg s s' n); eauto; try (rewrite C; auto); congruence. }
  cbv zeta in G. tinv G. tg. simpl in E1. rename x into pn. tinv G. simpl in E2. rename x into js. tinv G. rename x into b. simpl in E3. destruct b.
  - eapply (fin_arg (St (s_g s) (s_new s) (remove Nat.eq_dec i (s_errs s)) (s_changed s)) s' n); eauto; simpl; try (rewrite C; auto; fail).
    intros t q qn j T Q QN SU. rewrite P in Q. injection Q as <-. destruct (node0 _ _ _ _ S E1) as (p0 & P0 & PE). pose proof (node_det _ _ _ _ QN P0); subst qn.
    destruct (node_g0 _ _ _ H N) as (n0 & N0 & NE). destruct (supplies_one _ _ _ _ N0 SU) as (x & CX).
    assert (c = x /\ l = []) as [-> ->] by (rewrite NE in C; simpl in C; rewrite C in CX; injection CX; auto).
    eapply fits_takes; eauto. rewrite <- T. eapply all_fit_true; eauto. eapply (positions_in (s_g s) pn i n x cn); eauto.
    + rewrite PE. apply (wf_tree _ _ WF _ _ P0).
    + destruct SU as (pre & post & ws & w & S1 & S2 & S3 & S4). exists pre, post, ws, w. rewrite PE. simpl. repeat split; auto; try lia.
      * eapply Forall2_impl; [|exact S2]. intros a b. now apply spread_shape.
      * eapply spread_shape; eauto.
  - tinv G. simpl. eapply inv_pend; eauto; try (simpl; auto; fail).
    + intros a l' Y. destruct (not_declared _ _ _ _ _ H N Y). congruence.
    + intros y sigs j x Y. right. destruct (not_argument _ _ _ _ _ _ _ H N Y) as (_ & Y1 & Y2 & Y3).
      rewrite C in Y2. injection Y2 as -> ->. eapply (misfit_blocked s p pn cn js); eauto; [congruence|].
      assert (option_map (inner_type n) (g_ty cn) = g_ty cn) as Q by (destruct (g_ty cn); auto; simpl; unfold inner_type; now rewrite Y1).
      now rewrite Q in E3.
Qed.
End Visit.
End Wf.
