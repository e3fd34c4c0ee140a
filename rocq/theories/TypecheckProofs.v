(** * Lemmas about the type checker. *)
From Coq Require Import String List Bool Arith Lia Sorted.
From Verif Require Import Syntax TypeModel LifetimeModel TypecheckModel TypecheckSpec.
Import ListNotations.
Local Open Scope string_scope.
Local Open Scope nat_scope.
Local Open Scope list_scope.

Lemma Forall2_impl : forall A B (P Q : A -> B -> Prop) l l', (forall a b, P a b -> Q a b) -> Forall2 P l l' -> Forall2 Q l l'.
Proof. intros A B P Q l l' H F. induction F; constructor; auto. Qed.

(** ** Writes *)
Definition retype (n : gnode) (t : option ty) : gnode :=
  GNode (g_kind n) (g_names n) (g_alias n) t (g_try n) (g_parent n) (g_children n) (g_decl n) (g_op n).
Lemma set_nth_nth : forall A (l : list A) i x j,
  nth_error (LifetimeModel.set_nth l i x) j = if j =? i then match nth_error l i with Some _ => Some x | None => None end else nth_error l j.
Proof.
  induction l as [|a l IH]; intros [|i] x [|j]; simpl; auto; try (destruct (j =? i); reflexivity).
Qed.
Lemma set_nth_len : forall A (l : list A) i x, length (LifetimeModel.set_nth l i x) = length l.
Proof. induction l as [|a l IH]; intros [|i] x; simpl; auto. Qed.
Lemma put_nth : forall g x t i, nth_error (put g x t) i =
  if i =? x then option_map (fun n => retype n t) (nth_error g x) else nth_error g i.
Proof.
  intros g x t i. unfold put. destruct (nth_error g x) eqn:E.
  - rewrite set_nth_nth, E. destruct (i =? x); reflexivity.
  - destruct (i =? x) eqn:F; auto. apply Nat.eqb_eq in F. subst. rewrite E. reflexivity.
Qed.
Lemma put_len : forall g x t, length (put g x t) = length g.
Proof. intros. unfold put. destruct (nth_error g x); auto using set_nth_len. Qed.
Lemma nth_ext_error : forall A (l l' : list A), (forall i, nth_error l i = nth_error l' i) -> l = l'.
Proof.
  induction l as [|a l IH]; intros [|b l'] H; auto; try (specialize (H 0); discriminate).
  f_equal; [specialize (H 0); now inversion H|]. apply IH. intros i. exact (H (S i)).
Qed.
Lemma retype_id : forall n t, g_ty n = t -> retype n t = n.
Proof. intros [] t H. simpl in H. subst. reflexivity. Qed.
Lemma put_same : forall g x t, ty_at g x = Some t -> put g x (Some t) = g.
Proof.
  intros g x t H. apply nth_ext_error. intros i. rewrite put_nth. destruct (i =? x) eqn:E; auto.
  apply Nat.eqb_eq in E. subst. unfold ty_at in H. destruct (nth_error g x); [|discriminate]. simpl. now rewrite retype_id.
Qed.
Lemma ty_put : forall g x t i, ty_at (put g x t) i = if (i =? x) && (x <? length g) then t else ty_at g i.
Proof.
  intros g x t i. unfold ty_at. rewrite put_nth. destruct (i =? x) eqn:E; simpl; auto. apply Nat.eqb_eq in E. subst.
  destruct (nth_error g x) eqn:F; simpl.
  - assert (nth_error g x <> None) as H by congruence. apply nth_error_Some in H. apply Nat.ltb_lt in H. now rewrite H.
  - apply nth_error_None in F. assert (x <? length g = false) as -> by (apply Nat.ltb_ge; lia). reflexivity.
Qed.
Lemma ty_put_other : forall g x t i, i <> x -> ty_at (put g x t) i = ty_at g i.
Proof. intros. rewrite ty_put. assert (i =? x = false) as -> by (apply Nat.eqb_neq; auto). reflexivity. Qed.
Lemma ty_put_here : forall g x n t, is_node g x n -> ty_at (put g x t) x = t.
Proof.
  intros g x n t H. rewrite ty_put, Nat.eqb_refl. unfold is_node in H.
  assert (x < length g) as L by (apply nth_error_Some; congruence). apply Nat.ltb_lt in L. now rewrite L.
Qed.

(** ** Same shape *)
Definition shape (g h : graph) : Prop :=
  forall i, option_map (fun n => retype n None) (nth_error g i) = option_map (fun n => retype n None) (nth_error h i).
Lemma shape_refl : forall g, shape g g. Proof. intros g i. reflexivity. Qed.
Lemma shape_sym : forall g h, shape g h -> shape h g. Proof. intros g h H i. symmetry. apply H. Qed.
Lemma shape_trans : forall g h k, shape g h -> shape h k -> shape g k.
Proof. intros g h k H1 H2 i. rewrite H1. apply H2. Qed.
Lemma shape_put : forall g x t, shape g (put g x t).
Proof.
  intros g x t i. rewrite put_nth. destruct (i =? x) eqn:E; auto. apply Nat.eqb_eq in E. subst.
  destruct (nth_error g x) as [[]|]; reflexivity.
Qed.
Lemma shape_len : forall g h, shape g h -> length g = length h.
Proof.
  intros g h H. destruct (Nat.lt_trichotomy (length g) (length h)) as [L|[L|L]]; auto; exfalso.
  - specialize (H (length g)). assert (nth_error h (length g) <> None) as X by (apply nth_error_Some; lia).
    assert (nth_error g (length g) = None) as Y by (apply nth_error_None; lia). rewrite Y in H. destruct (nth_error h (length g)); simpl in *; congruence.
  - specialize (H (length h)). assert (nth_error g (length h) <> None) as X by (apply nth_error_Some; lia).
    assert (nth_error h (length h) = None) as Y by (apply nth_error_None; lia). rewrite Y in H. destruct (nth_error g (length h)); simpl in *; congruence.
Qed.
Lemma shape_node : forall g h i n, shape g h -> is_node g i n -> exists t, is_node h i (retype n t).
Proof.
  intros g h i n H N. specialize (H i). unfold is_node in *. rewrite N in H. destruct (nth_error h i) as [[]|] eqn:E; [|discriminate].
  simpl in H. inversion H. eexists. destruct n; simpl in *; subst. reflexivity.
Qed.
Lemma shape_node' : forall g h i n, shape g h -> is_node h i n -> is_node g i (retype n (ty_at g i)) /\ g_ty n = ty_at h i.
Proof.
  intros g h i n H N. split; [|unfold ty_at; now rewrite N]. destruct (shape_node h g i n (shape_sym _ _ H) N) as [t T].
  unfold is_node in *. rewrite T. do 2 f_equal. unfold ty_at. now rewrite T.
Qed.
Lemma shape_kind : forall g h i k, shape g h -> kind_at g i k -> kind_at h i k.
Proof. intros g h i k H (n & N & E). destruct (shape_node g h i n H N) as [t T]. eexists; split; eauto. Qed.
Lemma shape_first : forall g h n n' k c, shape g h -> g_children n = g_children n' -> first_of g n k c -> first_of h n' k c.
Proof.
  intros g h n n' k c H E (pre & post & A & B & C). exists pre, post. rewrite <- E. split; [auto|]. split; [eauto using shape_kind|].
  intros d D X. eapply C; eauto. eapply shape_kind; [apply shape_sym|]; eauto.
Qed.
Lemma shape_declares : forall g h a l d, shape g h -> declares g a l d -> declares h a l d.
Proof.
  intros g h a l d H (an & ln & dn & A1 & A2 & A3 & L1 & L2 & L3 & L4 & L5 & D1 & D2 & D3 & D4 & D5 & D6).
  destruct (shape_node g h _ _ H A1) as [ta TA]. destruct (shape_node g h _ _ H L1) as [tl TL]. destruct (shape_node g h _ _ H D1) as [td TD].
  exists (retype an ta), (retype ln tl), (retype dn td). repeat (split; auto). eapply shape_first; eauto.
Qed.
Lemma shape_is_kind : forall g h k, shape g h -> forall c,
  match nth_error g c with Some m => is_kind (g_kind m) k | None => false end =
  match nth_error h c with Some m => is_kind (g_kind m) k | None => false end.
Proof.
  intros g h k H c. specialize (H c). destruct (nth_error g c) as [m|], (nth_error h c) as [m'|]; try discriminate; auto.
  simpl in H. inversion H. now replace (g_kind m') with (g_kind m).
Qed.
Lemma is_kind_iff : forall a b, is_kind a b = true <-> a = b.
Proof. intros. unfold is_kind. destruct (kind_eq_dec a b); split; congruence. Qed.
Lemma is_kind_refl : forall a, is_kind a a = true. Proof. intros. now apply is_kind_iff. Qed.
Lemma kind_at_det : forall g i a b, kind_at g i a -> kind_at g i b -> a = b.
Proof. intros g i a b (n & N & A) (m & M & B). unfold is_node in *. rewrite N in M. inversion M. congruence. Qed.
Lemma node_det : forall g i n m, is_node g i n -> is_node g i m -> n = m.
Proof. intros g i n m N M. unfold is_node in *. rewrite N in M. now inversion M. Qed.
Lemma node_ty : forall g i n, is_node g i n -> ty_at g i = g_ty n.
Proof. intros g i n N. unfold ty_at. now rewrite N. Qed.
Lemma node_retype : forall g h i n m, shape g h -> is_node g i n -> is_node h i m -> m = retype n (g_ty m).
Proof.
  intros g h i n m H N M. destruct (shape_node g h i n H N) as [t T]. rewrite (node_det _ _ _ _ M T). reflexivity.
Qed.
Lemma inner_behind : forall n t, inner_type n t = behind n t.
Proof. intros n t. unfold inner_type, behind. destruct (g_try n), t; reflexivity. Qed.

(** ** Signatures do not change when the types of their nodes do not *)
Definition sig_kind (k : kind) : Prop := k = K_TyArg \/ k = K_TyRet.
Definition same_sigs (g h : graph) : Prop := shape g h /\ forall i k, kind_at g i k -> sig_kind k -> ty_at g i = ty_at h i.
Lemma same_sigs_sym : forall g h, same_sigs g h -> same_sigs h g.
Proof.
  intros g h [H T]. split; [now apply shape_sym|]. intros i k X Y. symmetry. eapply T; eauto. eapply shape_kind; [apply shape_sym|]; eauto.
Qed.
Lemma filter_ext_all : forall A (f f' : A -> bool) l, (forall x, f x = f' x) -> filter f l = filter f' l.
Proof. intros. apply filter_ext. auto. Qed.
Lemma same_sig_node : forall g h n n' s, same_sigs g h -> g_children n = g_children n' -> g_names n = g_names n' ->
  sig_node g n s -> sig_node h n' s.
Proof.
  intros g h n n' s [H T] E N S. inversion S as [args r rt A B C]; subst. rewrite N. econstructor.
  - rewrite <- E. rewrite (filter_ext_all _ _ _ _ (fun c => eq_sym (shape_is_kind g h K_TyArg H c))).
    eapply Forall2_impl; [|exact A]. intros c t [X Y]. split; [eapply shape_kind; eauto|]. rewrite <- (T c K_TyArg); auto. now left.
  - eapply shape_first; eauto.
  - rewrite <- (T r K_TyRet); auto; [|now right]. destruct B as (pre & post & _ & B & _). exact B.
Qed.
Lemma same_sigs_are : forall g h n n' l, same_sigs g h -> g_children n = g_children n' -> sigs_are g n l -> sigs_are h n' l.
Proof.
  intros g h n n' l S E A. unfold sigs_are in *. rewrite <- E. destruct S as [H T].
  rewrite (filter_ext_all _ _ _ _ (fun c => eq_sym (shape_is_kind g h K_Ty H c))).
  eapply Forall2_impl; [|exact A]. intros c s (m & M & X). destruct (shape_node g h _ _ H M) as [t M'].
  eexists. split; [exact M'|]. eapply (same_sig_node g h m (retype m t)); [split; auto|reflexivity|reflexivity|exact X].
Qed.
Lemma target_retype : forall K n t f, target K (retype n t) f <-> target K n f. Proof. intros K [] t f. reflexivity. Qed.
Lemma same_choices : forall K g h n t l, same_sigs g h -> choices K g n l -> choices K h (retype n t) l.
Proof.
  intros K g h n t l S [(d & f & A & B & C)|(f & A & B)].
  - left. destruct (shape_node g h _ _ (proj1 S) B) as [u U]. exists d, (retype f u). split; [auto|]. split; [auto|].
    eapply same_sigs_are; eauto.
  - right. exists f. split; auto.
Qed.

(** ** When a derivation survives a write *)

(** kinds whose type is never written *)
Definition const_kind (k : kind) : Prop :=
  In k [K_TyArg; K_TyRet; K_Current; K_Prod; K_SumVec4; K_ProdVec4; K_ForIn; K_SumIn; K_ProdIn; K_MinIn; K_MaxIn;
        K_AnyIn; K_AllIn; K_SiftIn; K_LinkIn].
Lemma sig_const : forall k, sig_kind k -> const_kind k.
Proof. intros k [-> | ->]; unfold const_kind; simpl; auto. Qed.

Lemma put_same_sigs : forall g x v, (forall k, kind_at g x k -> ~ const_kind k) -> same_sigs g (put g x v).
Proof.
  intros g x v H. split; [apply shape_put|]. intros i k Hk S. destruct (Nat.eq_dec i x) as [-> | N].
  - exfalso. eapply H; eauto using sig_const.
  - now rewrite ty_put_other.
Qed.

Lemma node_put_other : forall g x v i n, i <> x -> is_node g i n -> is_node (put g x v) i n.
Proof. intros g x v i n N H. unfold is_node. rewrite put_nth. assert (i =? x = false) as -> by (now apply Nat.eqb_neq). exact H. Qed.
Lemma node_put : forall g x v i n, is_node g i n -> exists u, is_node (put g x v) i (retype n u) /\ (i <> x -> u = g_ty n).
Proof.
  intros g x v i n H. destruct (Nat.eq_dec i x) as [-> | N].
  - exists v. split; [|congruence]. unfold is_node in *. rewrite put_nth, Nat.eqb_refl, H. reflexivity.
  - exists (g_ty n). split; auto. rewrite retype_id by auto. now apply node_put_other.
Qed.
Lemma keyed_retype : forall n u, keyed (retype n u) <-> keyed n. Proof. intros. reflexivity. Qed.

Section Wf.
Variables (K : known) (g0 : graph).
Hypothesis WF : well_formed K g0.

Lemma wf_child : forall g i n c, shape g0 g -> is_node g i n -> In c (g_children n) ->
  i < c /\ exists cn, is_node g c cn /\ g_parent cn = Some i.
Proof.
  intros g i n c S N C. destruct (shape_node' g0 g i n S N) as [N0 _].
  destruct (proj2 (wf_tree _ _ WF _ _ N0) _ C) as (cn & A & B). split.
  - destruct (wf_parent _ _ WF _ _ _ A B). auto.
  - destruct (shape_node g0 g _ _ S A) as [t T]. eexists. split; eauto.
Qed.
Lemma wf_first : forall g i n c, shape g0 g -> is_node g i n -> hd_error (g_children n) = Some c ->
  i < c /\ exists cn, is_node g c cn /\ g_parent cn = Some i.
Proof. intros g i n c S N H. eapply wf_child; eauto. destruct (g_children n); inversion H. now left. Qed.

(** the derivation at [i] reads the type of [x] *)
Definition reads (g : graph) (i x : nat) : Prop :=
  (exists xn, is_node g x xn /\ g_parent xn = Some i) \/
  (exists n, is_node g i n /\ g_kind n = K_Item /\ g_decl n = Some x /\ forall k, kind_at g x k -> ~ counting k) \/
  (exists n, is_node g i n /\ g_kind n = K_Item /\ g_decl n = None /\ g_parent n = Some x /\ kind_at g x K_Left).

Lemma derives_write : forall g i t x v, shape g0 g -> derives K g i t -> ~ choosing K g i ->
  (forall k, kind_at g x k -> ~ const_kind k) ->
  (reads g i x -> (ty_at g x = None /\ v <> None /\ ~ kind_at g x K_Arg) \/
                  (kind_at g x K_Arg /\ ty_at g x = None /\ v = Some TAny) \/ v = ty_at g x) ->
  (kind_at g x K_Fn -> ty_at g x = None) ->
  derives K (put g x v) i t.
Proof.
  intros g i t x v S D NC HC HR HF.
  assert (forall n c cn, is_node g i n -> hd_error (g_children n) = Some c -> is_node g c cn -> reads g i c) as R1.
  { intros n c cn A B C. destruct (wf_first _ _ _ _ S A B) as (_ & cn' & E & F). left. eauto. }
  assert (forall n c k, is_node g i n -> first_of g n k c -> reads g i c) as R2.
  { intros n c k A (pre & post & B & _). left. eapply (wf_child g i n); eauto. rewrite B. apply in_or_app. right. now left. }
  assert (forall c cn u, is_node g c cn -> g_ty cn = Some u -> reads g i c ->
    exists cn', is_node (put g x v) c cn' /\ g_ty cn' = Some u /\ g_kind cn' = g_kind cn /\ (keyed cn' <-> keyed cn)) as RD.
  { intros c cn u A B C. destruct (Nat.eq_dec c x) as [-> | N].
    - destruct (HR C) as [(X & _)|[(_ & X)|X]].
      + rewrite (node_ty _ _ _ A) in X. congruence.
      + destruct X as [X _]. rewrite (node_ty _ _ _ A) in X. congruence.
      + rewrite (node_ty _ _ _ A), B in X. subst. rewrite put_same by (rewrite (node_ty _ _ _ A); auto). eauto 6 using iff_refl.
    - exists cn. split; [now apply node_put_other|]. auto using iff_refl. }
  assert (forall c u, ty_at g c = Some u -> reads g i c -> ty_at (put g x v) c = Some u) as RT.
  { intros c u A B. unfold ty_at in A. destruct (nth_error g c) eqn:E; [|discriminate].
    destruct (RD c g1 u E A B) as (cn' & P & Q & _). now rewrite (node_ty _ _ _ P). }
  inversion D as [i' n c cn u A B C E F G I|i' n c cn u A B C E F G|i' n A B C|i' n l c cn u A B C E F G|i' n c u A B C E|
    i' n c cn u A B C E F G I|i' n c u A B C E|i' n c u A B C E|i' n d dn A B C E F G I|i' n d dn A B C E F G|
    i' n d dn u A B C E F G I J|i' n l u A B C E F G I|i' n c cn u A B C E F|i' n u A B C E|i' n sigs ts u A B C E F G]; subst;
    destruct (node_put g x v i n A) as (w & W & W').

  - destruct (RD c cn u E G) as (cn' & P & Q & X & Y); [eauto|]. change (behind n u) with (behind (retype n w) u).
    eapply D_pass; eauto; [|congruence]. now rewrite Y.
  - destruct (RD c cn u E F) as (cn' & P & Q & X & Y); [eauto|]. eapply D_return; eauto; congruence.
  - eapply D_empty; eauto.
  - destruct (RD c cn u E G) as (cn' & P & Q & X & Y).
    { left. eapply (wf_child g i n); eauto. rewrite C. apply in_or_app. right. now left. }
    change (behind n u) with (behind (retype n w) u). eapply D_block; eauto. now rewrite Y.
  - eapply D_sift; [exact W|auto| |apply RT; eauto]. apply (shape_first g _ n); auto. apply shape_put.
  - destruct (RD c cn u E G) as (cn' & P & Q & X & Y); [eauto|]. change (behind n u) with (behind (retype n w) u).
    eapply D_number; eauto. now rewrite Y.
  - change (behind n u) with (behind (retype n w) u). eapply D_if; [exact W|auto| |apply RT; eauto].
    apply (shape_first g _ n); auto. apply shape_put.
  - destruct (wf_first _ _ _ _ S A C) as (_ & cn & N & M). eapply D_go; eauto.
  - destruct (node_put g x v d dn F) as (w' & X & _). eapply D_index; eauto.
  - destruct (node_put g x v d dn F) as (w' & X & Y).
    change (behind n) with (behind (retype n w)).
    replace (match g_ty dn with Some t => t | None => TAny end) with (match g_ty (retype dn w') with Some t => t | None => TAny end).
    { eapply D_param; eauto. }
    simpl. destruct (Nat.eq_dec d x) as [-> | N]; [|now rewrite Y].
    assert (kind_at g x K_Arg) as KA by (eexists; split; eauto).
    assert (w' = v) as ->.
    { unfold is_node in X. rewrite put_nth, Nat.eqb_refl in X. unfold is_node in F. rewrite F in X. simpl in X. inversion X. auto. }
    assert (reads g i x) as RX.
    { right; left. exists n. repeat split; auto. intros k X'. rewrite (kind_at_det _ _ _ _ X' KA). unfold counting. simpl. intuition discriminate. }
    rewrite <- (node_ty _ _ _ F). destruct (HR RX) as [(_ & _ & Y1)|[(_ & Y1 & ->)|Y1]].
    + contradiction.
    + now rewrite Y1.
    + now rewrite Y1.
  - assert (reads g i d) as RX.
    { right; left. exists n. repeat split; auto. intros k (m & X & <-). now rewrite (node_det _ _ _ _ X F). }
    destruct (RD d dn u F J RX) as (cn' & P & Q & X & Y). change (behind n u) with (behind (retype n w) u).
    eapply D_variable; eauto; congruence.
  - assert (reads g i l) as RX by (right; right; eauto 7).
    eapply D_declared; [exact W|auto|auto|auto|exact F| |apply RT; auto]. eapply shape_kind; [apply shape_put|]; auto.
  - destruct (RD c cn u E F) as (cn' & P & Q & X & Y); [eauto|]. change (behind n u) with (behind (retype n w) u).
    eapply D_arg; eauto.
  - eapply D_call; [exact W|auto|eapply same_choices; [apply put_same_sigs; exact HC|exact C]|].
    destruct E as [(d & P & Q)|(f & P & Q)].
    + left. exists d. split; auto. rewrite ty_put_other; auto. intros ->.
      destruct (shape_node' g0 g i n S A) as [N0 _]. destruct (wf_call _ _ WF _ _ N0 B) as (_ & X & _).
      destruct (X _ P) as (f & F1 & F2 & _).
      rewrite HF in Q; [discriminate|]. eapply shape_kind; eauto. eexists; eauto.
    + right. eauto.
  - exfalso. apply NC. exists n, sigs. auto.
Qed.
End Wf.
