(** * The invariant of type propagation. *)
From Coq Require Import String List Bool Arith Lia Sorted.
From Verif Require Import Syntax TypeModel LifetimeModel TypecheckModel TypecheckSpec TypeProofs TypecheckProofs TypecheckShape.
Import ListNotations.
Local Open Scope string_scope.
Local Open Scope nat_scope.
Local Open Scope list_scope.

Lemma ty_eqb_iff : forall a b, ty_eqb a b = true <-> a = b.
Proof.
  induction a as [| | | | | | | | | |a IH|a IH|a IH|a IH|a IH|a IH|n a IH|l a HL IH] using ty_ind'; intros b; destruct b; simpl;
    try (split; intros H; [discriminate H|discriminate H]); try (split; reflexivity).
  1-6: rewrite IH; split; congruence.
  - rewrite andb_true_iff, IH, String.eqb_eq. split; [intros [-> ->]; auto|intros H; inversion H; auto].
  - rewrite andb_true_iff, IH.
    assert (forall l', (fix go (l l' : list ty) : bool :=
         match l, l' with [], [] => true | x :: l, y :: l' => ty_eqb x y && go l l' | _, _ => false end) l l' = true <-> l = l') as HH.
    { induction HL as [|x l X HL IHL]; intros [|y l']; try (split; [discriminate|discriminate]); [split; auto|].
      rewrite andb_true_iff, X, IHL. split; [intros [-> ->]; auto|intros H; inversion H; auto]. }
    rewrite HH. split; [intros [-> ->]; auto|intros H; inversion H; auto].
Qed.
Lemma ty_eq_dec : forall a b : ty, {a = b} + {a <> b}.
Proof.
  intros a b. destruct (ty_eqb a b) eqn:E; [left; now apply ty_eqb_iff|right; intros H; apply ty_eqb_iff in H; congruence].
Qed.

Section Wf.
Variables (K : known) (g0 : graph).
Hypothesis WF : well_formed K g0.

(** [c] is argument number [j] of the call [y] that has to choose among [sigs]; [x] is in [c] *)
Definition argument (y : nat) (sigs : list sig) (j c x : nat) : Prop :=
  exists n cn, is_node g0 y n /\ g_kind n = K_Call /\ choices K g0 n sigs /\ sigs <> [] /\
    nth_error (g_children n) j = Some c /\ is_node g0 c cn /\ g_kind cn = K_CallArg /\ g_try cn = false /\ g_children cn = [x].
(** no signature is chosen when argument [j] has type [o] *)
Definition blocked (sigs : list sig) (j : nat) (o : option ty) : Prop :=
  forall u t, refine sigs u = RFound t -> nth_error u j <> Some o.
(** [j] uses the variable that [a] declares *)
Definition user (a l d j : nat) : Prop :=
  declares g0 a l d /\ exists n, is_node g0 j n /\ g_kind n = K_Item /\ g_decl n = Some d.
(** [a] declares a variable with the right side [r] *)
Definition sides (a l d r : nat) : Prop :=
  declares g0 a l d /\ exists an, is_node g0 a an /\ first_of g0 an K_Right r.
(** the declared type of the parameter [j] takes [t] *)
Definition takes (g : graph) (p j : nat) (t : ty) : Prop :=
  forall pn, is_node g0 p pn -> g_kind pn = K_Call ->
  (forall d f a q, g_decl pn = Some d -> is_node g0 d f -> nth_error (g_children f) j = Some a -> kind_at g0 a K_Arg -> ty_at g a = Some q ->
     q = TAny \/ goes_with q t = true) /\
  (forall f q, target K pn f -> nth_error (d_tys f) j = Some q -> goes_with q t = true).

Section State.
Variables (v : option nat) (cur new : list nat) (g : graph).
Definition pend (x : nat) : Prop := v = Some x \/ In x cur \/ In x new.
Record Inv : Prop := {
  V_shape : shape g0 g;
  V_const : forall i k, kind_at g0 i k -> const_kind k -> ty_at g i = ty_at g0 i;
  V_arg : forall i, kind_at g0 i K_Arg -> ty_at g i = ty_at g0 i \/ (ty_at g0 i = None /\ ty_at g i = Some TAny);
  V_settled : forall i n, is_node g0 i n -> ruled n -> ~ choosing K g0 i ->
    pend i \/ exists t, ty_at g i = Some t /\ derives K g i t;
  V_choose : forall y n sigs, is_node g0 y n -> g_kind n = K_Call -> choices K g0 n sigs -> sigs <> [] ->
    pend y \/ exists t u, ty_at g y = Some t /\ refine sigs u = RFound t /\ length u = length (g_children n) /\
      forall j c x uj, argument y sigs j c x -> nth_error u j = Some uj ->
        uj = None \/ uj = ty_at g x \/ (pend c /\ uj = ty_at g c /\ ty_at g x <> None);
  V_carg : forall y sigs j c x, argument y sigs j c x ->
    v = Some c \/ In c cur \/ (ty_at g c <> None /\ ty_at g c = ty_at g x) \/
    (In c new /\ ((~ In x cur /\ v <> Some x) \/ ty_at g x = None \/ blocked sigs j (ty_at g x)));
  V_plain : forall y n d t, is_node g0 y n -> g_kind n = K_Call -> g_decl n = Some d -> choices K g0 n [] ->
    ty_at g y = Some t -> ty_at g d = Some t;
  V_left : forall a l d, declares g0 a l d -> ty_at g d <> None -> ty_at g l <> None;
  V_user : forall a l d j, user a l d j ->
    ty_at g l = ty_at g d \/ ty_at g d = None \/ (In j new /\ In d new) \/ (In j cur /\ (In d cur \/ v = Some d));
  V_assign : forall a l d r, sides a l d r ->
    pend a \/ (ty_at g a <> None /\ ty_at g r <> None /\ ty_at g l = ty_at g r);
  V_takes : forall c cn p pn j, is_node g0 c cn -> g_kind cn = K_CallArg -> g_parent cn = Some p -> is_node g0 p pn ->
    supplies g0 pn c j -> pend c \/ exists t, ty_at g c = Some t /\ takes g p j t }.
End State.

Lemma inv_same_sigs : forall v cur new g, Inv v cur new g -> same_sigs g0 g.
Proof.
  intros v cur new g I. split; [apply (V_shape _ _ _ _ I)|]. intros i k H S. symmetry. eapply V_const; eauto using sig_const.
Qed.
Lemma choosing_shape : forall g i, same_sigs g0 g -> (choosing K g i <-> choosing K g0 i).
Proof.
  intros g i S. split; intros (n & l & A & B & C & D).
  - destruct (shape_node' _ _ _ _ (proj1 S) A) as [A0 _]. exists (retype n (ty_at g0 i)), l. repeat split; auto.
    eapply same_choices; eauto using same_sigs_sym.
  - destruct (shape_node _ _ _ _ (proj1 S) A) as [u A0]. exists (retype n u), l. repeat split; auto. eapply same_choices; eauto.
Qed.

(** ** Between visits *)
Lemma inv_push : forall v cur new g x, Inv v cur new g -> Inv v cur (x :: new) g.
Proof.
  intros v cur new g x I.
  assert (forall y, pend v cur new y -> pend v cur (x :: new) y) as P.
  { intros y [H|[H|H]]; [left|right;left|right;right;right]; auto. }
  split; try apply I.
  - intros i n A B C. destruct (V_settled _ _ _ _ I i n A B C); auto.
  - intros y n sigs A B C D. destruct (V_choose _ _ _ _ I y n sigs A B C D) as [H|(t & u & E & F & G & H)]; auto.
    right. exists t, u. repeat split; auto. intros j c z uj X Y. destruct (H j c z uj X Y) as [Z|[Z|(Z1 & Z2 & Z3)]]; auto.
  - intros y sigs j c z A. destruct (V_carg _ _ _ _ I y sigs j c z A) as [H|[H|[H|[H1 H2]]]]; auto.
    right; right; right. split; [now right|auto].
  - intros a l d j A. destruct (V_user _ _ _ _ I a l d j A) as [H|[H|[[H1 H2]|H]]]; auto. right; right; left. split; now right.
  - intros a l d r A. destruct (V_assign _ _ _ _ I a l d r A) as [H|H]; auto.
  - intros c cn p pn j A B C D E. destruct (V_takes _ _ _ _ I c cn p pn j A B C D E) as [H|H]; auto.
Qed.
Lemma sorted_lt : forall i cur x, StronglySorted Peano.lt (i :: cur) -> In x cur -> i < x.
Proof. intros i cur x S H. inversion S as [|? ? _ F]. rewrite Forall_forall in F. auto. Qed.
Lemma user_lt : forall a l d j, user a l d j -> d < j.
Proof.
  intros a l d j [D (n & N & A & B)]. destruct (proj2 (wf_item _ _ WF _ _ N A) _ B) as [(k & X & Y)|[X _]]; auto. exfalso.
  destruct D as (an & ln & dn & _ & _ & _ & _ & _ & _ & _ & _ & D1 & D2 & _).
  assert (kind_at g0 d K_Item) as Z by (eexists; eauto). rewrite (kind_at_det _ _ _ _ X Z) in Y.
  destruct Y as [Y|Y]; unfold counting in Y; simpl in Y; intuition discriminate.
Qed.
Lemma inv_begin : forall i cur new g, StronglySorted Peano.lt (i :: cur) -> Inv None (i :: cur) new g -> Inv (Some i) cur new g.
Proof.
  intros i cur new g S I.
  assert (forall y, pend None (i :: cur) new y <-> pend (Some i) cur new y) as P.
  { intros y. unfold pend. simpl. split; intros H.
    - destruct H as [H|[[H|H]|H]]; [discriminate| | |]; subst; auto.
    - destruct H as [H|[H|H]]; [inversion H| |]; auto. }
  split; try apply I.
  - intros j n A B C. rewrite <- P. apply I with (1 := A); auto.
  - intros y n sigs A B C D. rewrite <- P. destruct (V_choose _ _ _ _ I y n sigs A B C D) as [H|(t & u & E & F & G & H)]; auto.
    right. exists t, u. repeat split; auto. intros j c z uj X Y. rewrite <- P. exact (H j c z uj X Y).
  - intros y sigs j c z A. destruct (V_carg _ _ _ _ I y sigs j c z A) as [H|[[H|H]|[H|[H1 H2]]]]; [discriminate|subst; auto|auto|auto|].
    right; right; right. split; auto. destruct H2 as [[H2 _]|H2]; auto. left. simpl in H2. split; [|intros X; inversion X]; auto.
  - intros a l d j A. destruct (V_user _ _ _ _ I a l d j A) as [H|[H|[H|[H1 [H2|H2]]]]]; auto; [|discriminate].
    apply user_lt in A. right; right; right. destruct H1 as [H1|H1], H2 as [H2|H2]; subst; auto.
    + lia.
    + pose proof (sorted_lt _ _ _ S H2). lia.
  - intros a l d r A. rewrite <- P. eapply V_assign; eauto.
  - intros c cn p pn j A B C D E. rewrite <- P. eapply V_takes; eauto.
Qed.

(** ** The end of a visit *)
Lemma node0 : forall g i n, shape g0 g -> is_node g i n -> exists n0, is_node g0 i n0 /\ n = retype n0 (ty_at g i).
Proof.
  intros g i n S N. destruct (shape_node' _ _ _ _ S N) as [A B]. eexists. split; [exact A|]. rewrite <- B. destruct n; reflexivity.
Qed.
Lemma item_no_binder : forall k, binder k -> k <> K_Item.
Proof. intros k [B|B] ->; unfold counting in B; simpl in B; intuition discriminate. Qed.

(** a node that keeps waiting *)
Lemma inv_pend : forall i cur new new' g, Inv (Some i) cur new g -> In i new' -> (forall x, In x new -> In x new') ->
  (forall x, In x cur -> i < x) ->
  (forall a l, declares g0 a l i -> ty_at g i = None) ->
  (forall y sigs j x, argument y sigs j i x -> ty_at g x = None \/ blocked sigs j (ty_at g x)) ->
  Inv None cur new' g.
Proof.
  intros i cur new new' g I N1 N2 LT HD HA.
  assert (forall y, pend (Some i) cur new y -> pend None cur new' y) as P.
  { intros y [H|[H|H]]; unfold pend; auto. inversion H; subst. auto. }
  split; try apply I.
  - intros j n A B C. destruct (V_settled _ _ _ _ I j n A B C); auto.
  - intros y n sigs A B C D. destruct (V_choose _ _ _ _ I y n sigs A B C D) as [H|(t & u & E & F & G & H)]; auto.
    right. exists t, u. repeat split; auto. intros j c z uj X Y. destruct (H j c z uj X Y) as [Z|[Z|(Z1 & Z2 & Z3)]]; auto.
  - intros y sigs j c x A. destruct (V_carg _ _ _ _ I y sigs j c x A) as [H|[H|[H|[H1 H2]]]]; auto.
    + inversion H; subst c. right; right; right. split; auto. right. eapply HA; eauto.
    + right; right; right. split; auto. destruct H2 as [[X _]|H2]; auto. left. split; [auto|discriminate].
  - intros a l d j A. destruct (V_user _ _ _ _ I a l d j A) as [H|[H|[[H1 H2]|[H1 [H2|H2]]]]]; auto 9.
    inversion H2; subst d. right; left. eapply HD. apply A.
  - intros a l d r A. destruct (V_assign _ _ _ _ I a l d r A) as [H|H]; auto.
  - intros c cn p pn j A B C D E. destruct (V_takes _ _ _ _ I c cn p pn j A B C D E) as [H|H]; auto.
Qed.

(** a node that needs nothing *)
Lemma inv_quiet : forall i n cur new g, Inv (Some i) cur new g -> is_node g0 i n -> ~ ruled n -> g_kind n <> K_Assign ->
  Inv None cur new g.
Proof.
  intros i n cur new g I N NR NA.
  assert (forall y, y <> i -> pend (Some i) cur new y -> pend None cur new y) as P.
  { intros y D [H|[H|H]]; unfold pend; auto. congruence. }
  assert (forall y m, is_node g0 y m -> ruled m \/ g_kind m = K_Assign -> y <> i) as NE.
  { intros y m Y R ->. rewrite (node_det _ _ _ _ Y N) in R. tauto. }
  assert (forall m k, g_kind m = k -> In k [K_Sift; K_If; K_Go; K_Item; K_CallArg; K_Call] -> ruled m) as RK.
  { intros m k <- H. right; right; right. exact H. }
  split; try apply I.
  - intros j m A B C. destruct (V_settled _ _ _ _ I j m A B C); auto. left. apply P; eauto.
  - intros y m sigs A B C D. destruct (V_choose _ _ _ _ I y m sigs A B C D) as [H|(t & u & E & F & G & H)].
    { left. apply P; auto. eapply NE; eauto. left. eapply RK; eauto. simpl; tauto. }
    right. exists t, u. repeat split; auto. intros j c z uj X Y. destruct (H j c z uj X Y) as [Z|[Z|(Z1 & Z2 & Z3)]]; auto.
    right; right. repeat split; auto. apply P; auto. destruct X as (_ & cn & _ & _ & _ & _ & _ & X & Y1 & _).
    eapply NE; eauto. left. eapply RK; eauto. simpl; tauto.
  - intros y sigs j c x A. destruct (V_carg _ _ _ _ I y sigs j c x A) as [H|[H|[H|[H1 H2]]]]; auto.
    + exfalso. inversion H; subst c. destruct A as (_ & cn & _ & _ & _ & _ & _ & X & Y1 & _). apply (NE i cn); auto.
      left. eapply RK; eauto. simpl; tauto.
    + right; right; right. split; auto. destruct H2 as [[X _]|H2]; auto. left. split; [auto|discriminate].
  - intros a l d j A. destruct (V_user _ _ _ _ I a l d j A) as [H|[H|[[H1 H2]|[H1 [H2|H2]]]]]; auto 9.
    exfalso. inversion H2; subst d. destruct A as [(an & ln & dn & _ & _ & _ & _ & _ & _ & _ & _ & D1 & D2 & _) _].
    apply (NE i dn); auto. left. eapply RK; eauto. simpl; tauto.
  - intros a l d r A. destruct (V_assign _ _ _ _ I a l d r A) as [H|H]; auto. left. apply P; auto.
    destruct A as [(an & ln & dn & A1 & A2 & _) _]. eapply NE; eauto.
  - intros c cn p pn j A B C D E. destruct (V_takes _ _ _ _ I c cn p pn j A B C D E) as [H|H]; auto. left. apply P; auto.
    eapply NE; eauto. left. eapply RK; eauto. simpl; tauto.
Qed.

Lemma argument_tree : forall y sigs j c x, argument y sigs j c x -> y < c /\ c < x /\
  (exists n, is_node g0 y n /\ g_kind n = K_Call) /\
  (exists n, is_node g0 c n /\ g_kind n = K_CallArg /\ g_parent n = Some y) /\ (exists n, is_node g0 x n /\ g_parent n = Some c).
Proof.
  intros y sigs j c x (n & cn & A & B & C & D & E & F & G & H & J).
  destruct (wf_child _ _ WF g0 y n c (shape_refl g0) A (nth_error_In _ _ E)) as (L1 & cn' & M1 & M2).
  destruct (wf_child _ _ WF g0 c cn x (shape_refl g0) F) as (L2 & xn & M3 & M4); [rewrite J; now left|].
  rewrite (node_det _ _ _ _ M1 F) in *. repeat split; eauto.
Qed.
Lemma declares_tree : forall a l d, declares g0 a l d -> a < l /\ l < d /\
  (exists an, is_node g0 a an /\ g_kind an = K_Assign) /\
  (exists ln, is_node g0 l ln /\ g_kind ln = K_Left /\ g_children ln = [d] /\ g_parent ln = Some a) /\
  (exists dn, is_node g0 d dn /\ g_kind dn = K_Item /\ g_parent dn = Some l /\ g_decl dn = None /\ g_children dn = []).
Proof.
  intros a l d (an & ln & dn & A1 & A2 & A3 & L1 & L2 & L3 & L4 & L5 & D1 & D2 & D3 & D4 & D5 & D6).
  destruct (wf_parent _ _ WF _ _ _ L1 L5) as (X & _). destruct (wf_parent _ _ WF _ _ _ D1 D6) as (Y & _).
  repeat split; eauto 9.
Qed.
Lemma sides_tree : forall a l d r, sides a l d r -> declares g0 a l d /\ exists rn, is_node g0 r rn /\ g_kind rn = K_Right /\ g_parent rn = Some a.
Proof.
  intros a l d r [D (an & A & F)]. split; auto. destruct F as (pre & post & E & (rn & R1 & R2) & _).
  destruct (wf_child _ _ WF g0 a an r (shape_refl g0) A) as (_ & rn' & M1 & M2); [rewrite E; apply in_or_app; right; now left|].
  rewrite (node_det _ _ _ _ M1 R1) in *. eauto.
Qed.
Lemma no_self_read : forall g i, shape g0 g -> ~ reads g i i.
Proof.
  intros g i S [(xn & A & B)|[(n & A & B & C & D)|(n & A & B & C & D & E)]].
  - destruct (node0 _ _ _ S A) as (n0 & N & X). rewrite X in B. simpl in B. destruct (wf_parent _ _ WF _ _ _ N B). lia.
  - destruct (node0 _ _ _ S A) as (n0 & N & X). rewrite X in B, C. simpl in B, C.
    destruct (proj2 (wf_item _ _ WF _ _ N B) _ C) as [(k & Y & Z)|[Y _]]; [|lia].
    assert (kind_at g0 i K_Item) as W by (eexists; eauto). apply item_no_binder in Z. apply Z. eapply kind_at_det; eauto.
  - destruct (node0 _ _ _ S A) as (n0 & N & X). rewrite X in D. simpl in D. destruct (wf_parent _ _ WF _ _ _ N D). lia.
Qed.
Lemma takes_put : forall g x p j t v, shape g0 g -> (kind_at g0 x K_Arg -> v = TAny) -> takes g p j t -> takes (put g x (Some v)) p j t.
Proof.
  intros g x p j t v S A T pn P Q. destruct (T pn P Q) as [T1 T2]. split; auto. intros d f a q D F N KA E.
  destruct (Nat.eq_dec a x) as [-> | NE]; [|rewrite ty_put_other in E; eauto].
  left. destruct (nth_error g x) eqn:X; [|unfold ty_at in E; rewrite put_nth, Nat.eqb_refl, X in E; discriminate].
  rewrite (ty_put_here _ _ _ _ X) in E. injection E as <-. auto.
Qed.

(** a node that gets a type *)
Lemma inv_upd : forall i n t cur new new' g,
  Inv (Some i) cur new g -> (forall x, In x cur -> i < x) -> is_node g0 i n -> (forall x, In x new -> In x new') ->
  (forall old p, ty_at g i = Some old -> old <> t -> g_parent n = Some p -> ty_at g p <> None -> In p new') ->
  ~ const_kind (g_kind n) -> (g_kind n = K_Arg -> ty_at g i = None /\ t = TAny) -> (g_kind n = K_Fn -> ty_at g i = None) ->
  (ruled n -> ~ choosing K g0 i -> In i new' \/ derives K g i t) ->
  (forall sigs, g_kind n = K_Call -> choices K g0 n sigs -> sigs <> [] -> In i new' \/ exists u, refine sigs u = RFound t /\
     length u = length (g_children n) /\ forall j c x uj, argument i sigs j c x -> nth_error u j = Some uj -> uj = ty_at g x) ->
  (forall d, g_kind n = K_Call -> g_decl n = Some d -> choices K g0 n [] -> ty_at g d = Some t) ->
  (forall a l, declares g0 a l i -> ty_at g l = Some t) ->
  (forall d, g_kind n = K_Left -> In d (g_children n) -> kind_at g0 d K_Item -> ty_at g d = Some t) ->
  (forall l d r, sides i l d r -> ty_at g r <> None /\ ty_at g l = ty_at g r) ->
  (forall y sigs j x, argument y sigs j i x -> ty_at g x = Some t) ->
  (forall p pn j, g_kind n = K_CallArg -> g_parent n = Some p -> is_node g0 p pn -> supplies g0 pn i j -> takes g p j t) ->
  Inv None cur new' (put g i (Some t)).
Proof.
  intros i n t cur new new' g I LT N N1 N2 HC HArg HFn HR HCh HPl HDe HLe HAs HCa HTa.
  pose proof (V_shape _ _ _ _ I) as SH.
  destruct (shape_node _ _ _ _ SH N) as [oldt Ng].
  assert (forall j, j <> i -> ty_at (put g i (Some t)) j = ty_at g j) as TO by (intros; now apply ty_put_other).
  assert (ty_at (put g i (Some t)) i = Some t) as TH by (eapply ty_put_here; eauto).
  assert (forall y, y <> i -> pend (Some i) cur new y -> pend None cur new' y) as P.
  { intros y D [H|[H|H]]; unfold pend; auto. congruence. }
  assert (forall j m, is_node g0 j m -> g_kind m <> g_kind n -> j <> i) as KN.
  { intros j m M D ->. rewrite (node_det _ _ _ _ M N) in D. congruence. }
  assert (forall k, kind_at g0 i k -> k = g_kind n) as KI.
  { intros k (m & M & <-). now rewrite (node_det _ _ _ _ M N). }
  assert (forall k, kind_at g i k -> k = g_kind n) as KI'.
  { intros k H. apply KI. eapply shape_kind; [apply shape_sym|]; eauto. }
  assert (forall i' t', i' <> i -> derives K g i' t' -> ~ choosing K g0 i' -> (reads g i' i -> ty_at g i = None \/ ty_at g i = Some t) ->
    derives K (put g i (Some t)) i' t') as DW.
  { intros i' t' NE D C R. eapply derives_write; eauto.
    - intros X. apply C. exact (proj1 (choosing_shape g _ (inv_same_sigs _ _ _ _ I)) X).
    - intros k X Y. apply KI' in X. subst. auto.
    - intros X. destruct (R X) as [E|E]; [|right; right; auto].
      destruct (kind_eq_dec (g_kind n) K_Arg) as [EA|EA].
      + right; left. destruct (HArg EA) as [_ ->]. repeat split; auto. exists (retype n oldt). auto.
      + left. split; auto. split; [discriminate|]. intros Y. apply KI' in Y. congruence.
    - intros X. apply HFn. symmetry. auto. }
  split.
  - eapply shape_trans; [exact SH|apply shape_put].
  - intros j k A B. destruct (Nat.eq_dec j i) as [-> | NE]; [apply KI in A; subst; contradiction|]. rewrite TO by auto. eapply V_const; eauto.
  - intros j A. destruct (Nat.eq_dec j i) as [-> | NE]; [|rewrite TO by auto; eapply V_arg; eauto].
    right. rewrite TH. destruct (HArg (eq_sym (KI _ A))) as [X ->]. split; auto. destruct (V_arg _ _ _ _ I i A) as [Y|[Y _]]; congruence.
  - (* settled *)
    intros j m A B C. destruct (Nat.eq_dec j i) as [-> | NE].
    { rewrite (node_det _ _ _ _ A N) in *. destruct (HR B C) as [X|X]; [left; right; right; auto|]. right. exists t. split; auto.
      eapply derives_write; eauto.
      - intros Y. apply C. exact (proj1 (choosing_shape g _ (inv_same_sigs _ _ _ _ I)) Y).
      - intros k Y Z. apply KI' in Y. subst. auto.
      - intros Y. exfalso. eapply no_self_read; eauto.
      - intros Y. apply HFn. symmetry. auto. }
    destruct (V_settled _ _ _ _ I j m A B C) as [H|(u & E & D)]; [left; auto|].
    destruct (ty_at g i) as [old|] eqn:O; [|right; exists u; rewrite TO by auto; split; auto].
    destruct (ty_eq_dec old t) as [-> | Dif]; [right; exists u; rewrite TO by auto; split; auto|].
    destruct (option_map (Nat.eqb j) (g_parent n)) as [[]|] eqn:Par.
    { left. right; right. destruct (g_parent n) as [p|] eqn:Q; [|discriminate]. simpl in Par. injection Par as Par. apply Nat.eqb_eq in Par. subst p.
      apply (N2 old j); auto. congruence. }
    all: assert (g_parent n <> Some j) as NP by (intros Q; rewrite Q in Par; simpl in Par; rewrite ?Nat.eqb_refl in Par; discriminate).
    all: destruct (kind_eq_dec (g_kind m) K_Item) as [KM|KM]; [|right; exists u; rewrite TO by auto; split; auto; apply DW; auto;
      intros [(xn & X1 & X2)|[(mm & X1 & X2 & _)|(mm & X1 & X2 & _)]]; exfalso;
      [rewrite (node_det _ _ _ _ X1 Ng) in X2; simpl in X2; congruence
      |destruct (node0 _ _ _ SH X1) as (m' & M' & Y); rewrite Y in X2; simpl in X2; rewrite (node_det _ _ _ _ M' A) in X2; congruence
      |destruct (node0 _ _ _ SH X1) as (m' & M' & Y); rewrite Y in X2; simpl in X2; rewrite (node_det _ _ _ _ M' A) in X2; congruence]].
    all: assert (pend None cur new' j \/ (reads g j i -> False)) as [X|X];
      [|left; exact X|right; exists u; rewrite TO by auto; split; auto; apply DW; auto; intros R; contradiction].
    all: destruct (g_decl m) as [d|] eqn:DM.
    1, 3: destruct (Nat.eq_dec d i) as [-> | ND];
      [|right; intros [(xn & X1 & X2)|[(mm & X1 & X2 & X3 & _)|(mm & X1 & X2 & X3 & _)]];
        [rewrite (node_det _ _ _ _ X1 Ng) in X2; simpl in X2; congruence
        |destruct (node0 _ _ _ SH X1) as (m' & M' & Y); rewrite Y in X3; simpl in X3; rewrite (node_det _ _ _ _ M' A) in X3; congruence
        |destruct (node0 _ _ _ SH X1) as (m' & M' & Y); rewrite Y in X3; simpl in X3; rewrite (node_det _ _ _ _ M' A) in X3; congruence]].
    1, 2: destruct (proj2 (wf_item _ _ WF _ _ A KM) _ DM) as [(k & Y & Z)|[_ (a & l & Y)]];
      [|left; destruct (V_user _ _ _ _ I a l i j) as [U|[U|[[U _]|[U _]]]];
        [split; eauto|rewrite O, (HDe _ _ Y) in U; congruence|congruence|right; right; auto|right; left; auto]].
    1, 2: right; apply KI in Y; subst k; destruct Z as [Z|Z];
      [intros [(xn & X1 & X2)|[(mm & X1 & X2 & X3 & X4)|(mm & X1 & X2 & X3 & _)]];
        [rewrite (node_det _ _ _ _ X1 Ng) in X2; simpl in X2; congruence
        |apply (X4 (g_kind n)); auto; exists (retype n oldt); auto
        |destruct (node0 _ _ _ SH X1) as (m' & M' & Y); rewrite Y in X3; simpl in X3; rewrite (node_det _ _ _ _ M' A) in X3; congruence]
      |exfalso; destruct Z as [Z|Z]; [destruct (HArg (eq_sym Z)); congruence|apply HC; unfold const_kind; simpl in Z |- *; tauto]].
    1, 2: right; intros [(xn & X1 & X2)|[(mm & X1 & X2 & X3 & X4)|(mm & X1 & X2 & X3 & X4 & X5)]];
      [rewrite (node_det _ _ _ _ X1 Ng) in X2; simpl in X2; congruence
      |destruct (node0 _ _ _ SH X1) as (m' & M' & Y); rewrite Y in X3; simpl in X3; rewrite (node_det _ _ _ _ M' A) in X3; congruence|].
    1, 2: apply KI' in X5; destruct (node0 _ _ _ SH X1) as (m' & M' & Y); rewrite (node_det _ _ _ _ M' A) in Y; subst mm; simpl in *;
      destruct (wf_parent _ _ WF _ _ _ A X4) as (_ & pn & Pn1 & Pn2); rewrite (node_det _ _ _ _ Pn1 N) in Pn2;
      assert (ty_at g j = Some t) as TJ by (apply HLe; auto; exists m; auto);
      assert (ty_at g i = Some u) as TI; [|congruence].
    1, 2: inversion D as [i' nn c cn u' D1 D2 D3 D4 D5 D6 D7|i' nn c cn u' D1 D2|i' nn D1 D2|i' nn l c cn u' D1 D2|i' nn c u' D1 D2|
      i' nn c cn u' D1 D2|i' nn c u' D1 D2|i' nn c u' D1 D2|i' nn d dn D1 D2 D3 D4|i' nn d dn D1 D2 D3 D4|
      i' nn d dn u' D1 D2 D3 D4|i' nn l u' D1 D2 D3 D4 D5 D6 D7|i' nn c cn u' D1 D2|i' nn u' D1 D2|i' nn sigs ts u' D1 D2];
      subst; rewrite (node_det _ _ _ _ D1 X1) in *; simpl in *; try congruence;
      exfalso; clear - D2 KM; rewrite KM in D2; unfold passing, blocky, number_place in D2; simpl in D2; intuition discriminate.
  - (* choosing calls *)
    intros y m sigs A B C D. destruct (Nat.eq_dec y i) as [-> | NE].
    { rewrite (node_det _ _ _ _ A N) in *. destruct (HCh sigs B C D) as [X|(u & X1 & X2 & X3)]; [left; right; right; auto|].
      right. exists t, u. repeat split; auto. intros j c x uj Y Z. right; left. rewrite TO; [eauto|].
      destruct (argument_tree _ _ _ _ _ Y) as (L1 & L2 & _). lia. }
    destruct (V_choose _ _ _ _ I y m sigs A B C D) as [H|(t0 & u & E & F & G & H)]; [left; auto|].
    assert (pend None cur new' y \/ (g_parent n = Some y -> forall old, ty_at g i = Some old -> old = t)) as [X|HP]; [|left; exact X|].
    { destruct (g_parent n) as [p|] eqn:Q; [|right; discriminate]. destruct (Nat.eq_dec p y) as [-> | NP]; [|right; congruence].
      destruct (ty_at g i) as [old|] eqn:O; [|right; discriminate]. destruct (ty_eq_dec old t) as [-> | Dif]; [right; congruence|].
      left. right; right. apply (N2 old y); auto. congruence. }
    right. exists t0, u. rewrite TO by auto. repeat split; auto. intros j c x uj X Y.
    destruct (argument_tree _ _ _ _ _ X) as (L1 & L2 & _ & (cn & Cn & Ck & Cp) & (xn & Xn & Xp)).
    destruct (H j c x uj X Y) as [Z|[Z|(Z1 & Z2 & Z3)]]; auto.
    + destruct (Nat.eq_dec x i) as [-> | NX]; [|right; left; rewrite TO; auto].
      rewrite (node_det _ _ _ _ Xn N) in *. destruct (ty_at g i) as [old|] eqn:O; [|auto].
      destruct (ty_eq_dec old t) as [-> | Dif]; [right; left; congruence|]. right; right.
      destruct (V_carg _ _ _ _ I y sigs j c i X) as [V|[V|[[V1 V2]|[V1 [[V2 V3]|[V2|V2]]]]]].
      * inversion V. lia.
      * apply LT in V. lia.
      * split; [right; right; apply (N2 old c); auto|]. rewrite TO by lia. rewrite TH. split; [congruence|discriminate].
      * congruence.
      * congruence.
      * exfalso. apply (V2 u t0 F). congruence.
    + destruct (Nat.eq_dec c i) as [-> | NC].
      * rewrite (node_det _ _ _ _ Cn N) in *. destruct (ty_at g i) as [old|] eqn:O; [|auto].
        rewrite (HP Cp old eq_refl) in *. right; left. rewrite TO by lia. rewrite (HCa _ _ _ _ X). auto.
      * right; right. rewrite (TO c) by auto. repeat split; auto. destruct (Nat.eq_dec x i) as [-> | NX]; [rewrite TH; discriminate|].
        rewrite TO; auto.
  - (* arguments of choosing calls *)
    intros y sigs j c x X.
    destruct (argument_tree _ _ _ _ _ X) as (L1 & L2 & _ & (cn & Cn & Ck & Cp) & (xn & Xn & Xp)).
    destruct (Nat.eq_dec c i) as [-> | NC].
    { right; right; left. rewrite TH, TO by lia. rewrite (HCa _ _ _ _ X). split; [discriminate|auto]. }
    rewrite (TO c) by auto. destruct (V_carg _ _ _ _ I y sigs j c x X) as [V|[V|[[V1 V2]|[V1 V]]]].
    + congruence.
    + auto.
    + destruct (Nat.eq_dec x i) as [-> | NX]; [|right; right; left; rewrite TO; auto].
      rewrite (node_det _ _ _ _ Xn N) in *. destruct (ty_at g i) as [old|] eqn:O; [|congruence].
      destruct (ty_eq_dec old t) as [-> | Dif]; [right; right; left; split; congruence|].
      right; right; right. split; [apply (N2 old c); auto|]. left. split; [|discriminate]. intros Y. apply LT in Y. lia.
    + right; right; right. split; auto. destruct (Nat.eq_dec x i) as [-> | NX].
      * left. split; [|discriminate]. intros Y. apply LT in Y. lia.
      * rewrite TO by auto. destruct V as [[V2 V3]|V]; auto. left. split; [auto|discriminate].
  - (* plain calls *)
    intros y m d u A B C D E. assert (ty_at g d = Some u \/ (y = i /\ t = u)) as F.
    { destruct (Nat.eq_dec y i) as [-> | NY]; [right; split; congruence|]. rewrite TO in E by auto. left. eapply V_plain; eauto. }
    destruct (proj1 (proj2 (wf_call _ _ WF _ _ A B)) _ C) as (f & F1 & F2 & _).
    destruct F as [F|[-> ->]].
    + rewrite TO; auto. intros ->. rewrite (node_det _ _ _ _ F1 N) in F2. rewrite (HFn F2) in F. discriminate.
    + rewrite (node_det _ _ _ _ A N) in *. rewrite TO; auto. intros ->. rewrite (node_det _ _ _ _ F1 N) in F2. congruence.
  - (* left sides *)
    intros a l d A B. destruct (declares_tree _ _ _ A) as (L1 & L2 & _).
    destruct (Nat.eq_dec l i) as [-> | NL]; [rewrite TH; discriminate|]. rewrite (TO l) by auto.
    destruct (Nat.eq_dec d i) as [-> | ND]; [rewrite (HDe _ _ A); discriminate|]. rewrite TO in B by auto. eapply V_left; eauto.
  - (* users *)
    intros a l d j A. pose proof (proj1 A) as A0. destruct (declares_tree _ _ _ A0) as (L1 & L2 & _ & (ln & Ln1 & Ln2 & Ln3 & _) & (dn & Dn1 & Dn2 & _)).
    destruct (Nat.eq_dec d i) as [-> | ND]; [left; rewrite TH, TO by lia; now apply (HDe a)|].
    destruct (Nat.eq_dec l i) as [-> | NL].
    { left. rewrite TH, TO by auto. symmetry. apply HLe; [|rewrite <- (node_det _ _ _ _ Ln1 N), Ln3; now left|exists dn; auto].
      now rewrite <- (node_det _ _ _ _ Ln1 N). }
    rewrite !TO by auto. destruct (V_user _ _ _ _ I a l d j A) as [V|[V|[[V1 V2]|[V1 [V2|V2]]]]]; auto 9. congruence.
  - (* declarations *)
    intros a l d r A. destruct (sides_tree _ _ _ _ A) as (A0 & rn & Rn1 & Rn2 & Rn3).
    destruct (declares_tree _ _ _ A0) as (L1 & L2 & (an & An1 & An2) & (ln & Ln1 & Ln2 & Ln3 & Ln4) & (dn & Dn1 & Dn2 & _)).
    destruct (Nat.eq_dec a i) as [-> | NA].
    { right. destruct (HAs _ _ _ A) as [X Y]. rewrite TH.
      assert (r <> i) by (apply (KN r rn); auto; rewrite Rn2, <- (node_det _ _ _ _ An1 N), An2; discriminate).
      rewrite !TO by (auto; lia). repeat split; auto. discriminate. }
    destruct (V_assign _ _ _ _ I a l d r A) as [V|(V1 & V2 & V3)]; [left; auto|].
    destruct (Nat.eq_dec r i) as [-> | NR].
    { rewrite (node_det _ _ _ _ Rn1 N) in *. destruct (ty_at g i) as [old|] eqn:O; [|congruence].
      destruct (ty_eq_dec old t) as [-> | Dif]; [right|left; right; right; apply (N2 old a); auto].
      assert (l <> i) by (apply (KN l ln); auto; rewrite Ln2, Rn2; discriminate).
      rewrite TH, (TO a), (TO l) by auto. repeat split; auto. }
    destruct (Nat.eq_dec l i) as [-> | NL].
    { rewrite (node_det _ _ _ _ Ln1 N) in *. destruct (ty_at g i) as [old|] eqn:O; [|congruence].
      destruct (ty_eq_dec old t) as [-> | Dif]; [right|left; right; right; apply (N2 old a); auto].
      rewrite TH, (TO a), (TO r) by auto. auto. }
    right. rewrite !TO by auto. auto.
  - (* parameters *)
    intros c cn p pn j A B C D E. destruct (Nat.eq_dec c i) as [-> | NC].
    + rewrite (node_det _ _ _ _ A N) in *. right. exists t. split; auto. apply takes_put; auto; [|eapply HTa; eauto].
      intros X. apply KI in X. congruence.
    + destruct (V_takes _ _ _ _ I c cn p pn j A B C D E) as [H|(u & H1 & H2)]; [left; auto|]. right. exists u. rewrite TO by auto. split; auto.
      apply takes_put; auto. intros X. apply KI in X. now apply HArg.
Qed.

(** a function, closure or left side that gets a type from the visited node *)
Lemma inv_pre : forall i x n t cur new new' g,
  Inv (Some i) cur new g -> (forall y, In y cur -> i < y) -> is_node g0 x n -> (forall y, In y new -> In y new') ->
  (g_kind n = K_Left \/ (x < i /\ ty_at g x = None /\ (g_kind n = K_Fn \/ g_kind n = K_Closure))) ->
  (forall j m, is_node g0 j m -> ruled m -> In j new' \/ (reads g j x -> ty_at g x = None)) ->
  (forall a d j, user a x d j -> ty_at g d = None \/ (In j new' /\ In d new')) ->
  (forall a d r, sides a x d r -> a = i) ->
  Inv (Some i) cur new' (put g x (Some t)).
Proof.
  intros i x n t cur new new' g I LT N N1 HK HS HU HAs.
  pose proof (V_shape _ _ _ _ I) as SH.
  destruct (shape_node _ _ _ _ SH N) as [oldt Ng].
  assert (forall j, j <> x -> ty_at (put g x (Some t)) j = ty_at g j) as TO by (intros; now apply ty_put_other).
  assert (ty_at (put g x (Some t)) x = Some t) as TH by (eapply ty_put_here; eauto).
  assert (forall y, pend (Some i) cur new y -> pend (Some i) cur new' y) as P.
  { intros y [H|[H|H]]; unfold pend; auto. }
  assert (forall j m k, is_node g0 j m -> g_kind m = k -> k <> K_Left -> k <> K_Fn -> k <> K_Closure -> j <> x) as KN.
  { intros j m k M <- D1 D2 D3 ->. rewrite (node_det _ _ _ _ M N) in *. destruct HK as [E|(_ & _ & [E|E])]; congruence. }
  assert (forall k, kind_at g0 x k -> k = g_kind n) as KI.
  { intros k (m & M & <-). now rewrite (node_det _ _ _ _ M N). }
  assert (forall k, kind_at g x k -> k = g_kind n) as KI'.
  { intros k H. apply KI. eapply shape_kind; [apply shape_sym|]; eauto. }
  assert (~ const_kind (g_kind n)) as HC.
  { intros C. destruct HK as [E|(_ & _ & [E|E])]; rewrite E in C; unfold const_kind in C; simpl in C; intuition discriminate. }
  assert (g_kind n <> K_Arg) as HArg by (destruct HK as [E|(_ & _ & [E|E])]; congruence).
  assert (forall y sigs j c, argument y sigs j c x -> ty_at g x = None /\ x < i) as XA.
  { intros y sigs j c A. destruct HK as [E|(E1 & E2 & _)]; auto. exfalso.
    destruct (argument_tree _ _ _ _ _ A) as (_ & _ & _ & (cn & Cn & Ck & Cp) & (xn & Xn & Xp)). rewrite (node_det _ _ _ _ Xn N) in *.
    destruct (proj1 (wf_left _ _ WF _ _ N E) _ Xp) as (m & M1 & M2). rewrite (node_det _ _ _ _ M1 Cn) in M2. congruence. }
  split.
  - eapply shape_trans; [exact SH|apply shape_put].
  - intros j k A B. destruct (Nat.eq_dec j x) as [-> | NE]; [apply KI in A; subst; contradiction|]. rewrite TO by auto. eapply V_const; eauto.
  - intros j A. destruct (Nat.eq_dec j x) as [-> | NE]; [apply KI in A; congruence|]. rewrite TO by auto. eapply V_arg; eauto.
  - intros j m A B C. destruct (V_settled _ _ _ _ I j m A B C) as [H|(u & E & D)]; [left; auto|].
    destruct (HS j m A B) as [X|X]; [left; right; right; auto|]. right. exists u. split.
    + rewrite TO; auto. intros ->. rewrite (node_det _ _ _ _ A N) in B. clear - B HK. unfold ruled, passing, blocky, number_place in B.
      destruct HK as [E|(_ & _ & [E|E])]; rewrite E in B; simpl in B; intuition discriminate.
    + eapply derives_write; eauto.
      * intros Y. apply C. exact (proj1 (choosing_shape g _ (inv_same_sigs _ _ _ _ I)) Y).
      * intros k Y Z. apply KI' in Y. subst. auto.
      * intros Y. left. split; auto. split; [discriminate|]. intros Z. apply KI' in Z. congruence.
      * intros Y. apply KI' in Y. destruct HK as [Z|(_ & Z & _)]; [congruence|auto].
  - intros y m sigs A B C D. assert (y <> x) as NY by (eapply KN; eauto; discriminate).
    destruct (V_choose _ _ _ _ I y m sigs A B C D) as [H|(t0 & u & E & F & G & H)]; [left; auto|].
    right. exists t0, u. rewrite TO by auto. repeat split; auto. intros j c z uj X Y.
    destruct (argument_tree _ _ _ _ _ X) as (L1 & L2 & _ & (cn & Cn & Ck & Cp) & (xn & Xn & Xp)).
    assert (c <> x) as NC by (eapply KN; eauto; discriminate).
    destruct (H j c z uj X Y) as [Z|[Z|(Z1 & Z2 & Z3)]]; auto.
    + destruct (Nat.eq_dec z x) as [-> | NZ]; [left; destruct (XA _ _ _ _ X); congruence|]. right; left. rewrite TO; auto.
    + right; right. rewrite (TO c) by auto. repeat split; auto. destruct (Nat.eq_dec z x) as [-> | NZ]; [rewrite TH; discriminate|].
      rewrite TO; auto.
  - intros y sigs j c z X.
    destruct (argument_tree _ _ _ _ _ X) as (L1 & L2 & _ & (cn & Cn & Ck & Cp) & (xn & Xn & Xp)).
    assert (c <> x) as NC by (eapply KN; eauto; discriminate). rewrite (TO c) by auto.
    destruct (V_carg _ _ _ _ I y sigs j c z X) as [V|[V|[[V1 V2]|[V1 V]]]]; auto.
    + destruct (Nat.eq_dec z x) as [-> | NZ]; [destruct (XA _ _ _ _ X); congruence|]. right; right; left. rewrite TO; auto.
    + right; right; right. split; auto. destruct (Nat.eq_dec z x) as [-> | NZ].
      * left. destruct (XA _ _ _ _ X) as [_ L]. split; [|intros Y; inversion Y; lia]. intros Y. apply LT in Y. lia.
      * rewrite TO by auto. auto.
  - intros y m d u A B C D E. assert (y <> x) as NY by (eapply KN; eauto; discriminate). rewrite TO in E by auto.
    pose proof (V_plain _ _ _ _ I y m d u A B C D E) as F. destruct (Nat.eq_dec d x) as [-> | ND]; [|rewrite TO; auto].
    destruct (proj1 (proj2 (wf_call _ _ WF _ _ A B)) _ C) as (f & F1 & F2 & _). rewrite (node_det _ _ _ _ F1 N) in F2.
    destruct HK as [Z|(_ & Z & _)]; congruence.
  - intros a l d A B. destruct (declares_tree _ _ _ A) as (L1 & L2 & _ & _ & (dn & Dn1 & Dn2 & _)).
    assert (d <> x) as ND by (eapply KN; eauto; discriminate). rewrite TO in B by auto.
    destruct (Nat.eq_dec l x) as [-> | NL]; [rewrite TH; discriminate|]. rewrite TO by auto. eapply V_left; eauto.
  - intros a l d j A. pose proof (proj1 A) as A0. destruct (declares_tree _ _ _ A0) as (L1 & L2 & _ & _ & (dn & Dn1 & Dn2 & _)).
    assert (d <> x) as ND by (eapply KN; eauto; discriminate). rewrite (TO d) by auto.
    destruct (Nat.eq_dec l x) as [-> | NL].
    + destruct (HU _ _ _ A) as [X|X]; auto.
    + rewrite TO by auto. destruct (V_user _ _ _ _ I a l d j A) as [V|[V|[[V1 V2]|V]]]; auto 9.
  - intros a l d r A. destruct (sides_tree _ _ _ _ A) as (A0 & rn & Rn1 & Rn2 & Rn3).
    destruct (declares_tree _ _ _ A0) as (L1 & L2 & (an & An1 & An2) & _).
    assert (a <> x) as NA by (eapply KN; eauto; discriminate). assert (r <> x) as NR by (eapply KN; eauto; discriminate).
    destruct (Nat.eq_dec l x) as [-> | NL]; [left; left; f_equal; symmetry; eauto|].
    rewrite !TO by auto. destruct (V_assign _ _ _ _ I a l d r A) as [V|V]; auto.
  - intros c cn p pn j A B C D E. assert (c <> x) as NC by (eapply KN; eauto; discriminate). rewrite TO by auto.
    destruct (V_takes _ _ _ _ I c cn p pn j A B C D E) as [H|(u & H1 & H2)]; [left; auto|]. right. exists u. split; auto.
    apply takes_put; auto. intros X. apply KI in X. congruence.
Qed.
End Wf.
