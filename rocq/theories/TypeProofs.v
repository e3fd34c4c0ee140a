From Coq Require Import String List Arith Bool Lia.
From Verif Require Import TypeModel.
Import ListNotations.
Local Open Scope list_scope.

Ltac splits := repeat match goal with |- _ /\ _ => split end.

Section ty_ind.
  Variable P : ty -> Prop.
  Hypothesis HU : P TUnreachable. Hypothesis HV : P TVoid. Hypothesis HA : P TAny.
  Hypothesis HB : P TBool. Hypothesis HF : P TF64. Hypothesis HV4 : P TVec4. Hypothesis HM : P TMat4.
  Hypothesis HS : P TStr. Hypothesis HL : P TLink. Hypothesis HO : P TObject.
  Hypothesis HArr : forall t, P t -> P (TArray t).
  Hypothesis HOpt : forall t, P t -> P (TOption t).
  Hypothesis HRes : forall t, P t -> P (TResult t).
  Hypothesis HSec : forall t, P t -> P (TSecret t).
  Hypothesis HThr : forall t, P t -> P (TThread t).
  Hypothesis HIn : forall t, P t -> P (TIn t).
  Hypothesis HAd : forall n t, P t -> P (TAdHoc n t).
  Hypothesis HCl : forall l t, Forall P l -> P t -> P (TClosure l t).
  Fixpoint ty_ind' (t : ty) : P t :=
    match t with
    | TUnreachable => HU | TVoid => HV | TAny => HA | TBool => HB | TF64 => HF | TVec4 => HV4
    | TMat4 => HM | TStr => HS | TLink => HL | TObject => HO
    | TArray t => HArr t (ty_ind' t) | TOption t => HOpt t (ty_ind' t)
    | TResult t => HRes t (ty_ind' t) | TSecret t => HSec t (ty_ind' t)
    | TThread t => HThr t (ty_ind' t) | TIn t => HIn t (ty_ind' t)
    | TAdHoc n t => HAd n t (ty_ind' t)
    | TClosure l r => HCl l r ((fix go l : Forall P l :=
        match l with [] => Forall_nil _ | x :: l => Forall_cons _ (ty_ind' x) (go l) end) l) (ty_ind' r)
    end.
End ty_ind.

Lemma size_pos t : size t >= 1.
Proof. destruct t; simpl; lia. Qed.

Definition sumsize (l : list ty) : nat := fold_right (fun a n => size a + n) 0 l.
Definition swap1 (a b : ty) : nat := if is_adhoc b && negb (is_adhoc a) then 1 else 0.

Lemma oall2_mono (f g : ty -> ty -> option bool) :
  (forall a b r, f a b = Some r -> g a b = Some r) ->
  forall l l' r, oall2 f l l' = Some r -> oall2 g l l' = Some r.
Proof.
  intros H l; induction l as [|a l IH]; intros [|b l'] r; simpl; auto.
  unfold oand. destruct (f a b) as [[|]|] eqn:E; try discriminate.
  - rewrite (H _ _ _ E). apply IH.
  - rewrite (H _ _ _ E). auto.
Qed.

Ltac inner_match :=
  repeat match goal with
  | |- context [match ?x with _ => _ end] => destruct x
  | H : context [match ?x with _ => _ end] |- _ => destruct x
  end.

Lemma gw_match_mono (f g : ty -> ty -> option bool) a b r :
  (forall a b r, f a b = Some r -> g a b = Some r) ->
  gw_match f a b = Some r -> gw_match g a b = Some r.
Proof.
  intros M. unfold gw_match. destruct (is_unreachable a || is_unreachable b); auto.
  destruct a; auto; destruct b; auto.
  - destruct (String.eqb name name0); auto.
  - destruct (negb _); auto. unfold oand.
    destruct (oall2 f args args0) as [[|]|] eqn:O; try discriminate;
      rewrite (oall2_mono _ _ M _ _ _ O); auto.
Qed.

Lemma gw_mono n : forall m a b r, n <= m -> gw n a b = Some r -> gw m a b = Some r.
Proof.
  induction n as [|n IH]; intros m a b r L E; [discriminate|].
  destruct m as [|m]; [lia|].
  assert (M : forall a b r, gw n a b = Some r -> gw m a b = Some r) by (intros; apply IH; auto; lia).
  cbn [gw] in *. destruct (is_adhoc b && negb (is_adhoc a)); auto.
  destruct b; try (eapply gw_match_mono; eassumption). destruct a; auto.
Qed.

Lemma oall2_some (f : ty -> ty -> option bool) l : forall l',
  (forall a b, In a l -> In b l' -> f a b <> None) -> oall2 f l l' <> None.
Proof.
  induction l as [|a l IH]; intros [|b l'] H; simpl; try discriminate.
  unfold oand. destruct (f a b) as [[|]|] eqn:E; try discriminate.
  - apply IH. intros; apply H; simpl; auto.
  - exfalso. apply (H a b); simpl; auto.
Qed.

Lemma in_sumsize a l : In a l -> size a <= sumsize l.
Proof. unfold sumsize. induction l; simpl; intros []; subst; try lia. apply IHl in H. lia. Qed.

Lemma gw_match_some f a b :
  (forall a' b', size a' + size b' < size a + size b -> f a' b' <> None) -> gw_match f a b <> None.
Proof.
  intros W. unfold gw_match. destruct (is_unreachable a || is_unreachable b); [discriminate|].
  destruct a; try discriminate;
    try (destruct (atom_eq _ _); discriminate);
    destruct b; try discriminate; try (apply W; cbn [size] in *; lia).
  - destruct (String.eqb name name0); try discriminate. apply W; cbn [size] in *; lia.
  - destruct (negb _); try discriminate.
    cbn [size] in W. fold (sumsize args) in W. fold (sumsize args0) in W.
    assert (O : oall2 f args args0 <> None).
    { apply oall2_some. intros x y X Y. apply W. apply in_sumsize in X, Y. pose proof (size_pos a). pose proof (size_pos b). lia. }
    unfold oand. destruct (oall2 f args args0) as [[|]|]; try congruence.
    apply W. lia.
Qed.

Lemma gw_enough n : forall a b, 2 * (size a + size b) + swap1 a b < n -> gw n a b <> None.
Proof.
  induction n as [|n IH]; intros a b L; [lia|]. cbn [gw].
  assert (W : forall a' b', 2 * (size a' + size b') + 2 <= n -> gw n a' b' <> None).
  { intros a' b' L'. apply IH. unfold swap1. destruct (is_adhoc b' && negb (is_adhoc a')); lia. }
  destruct (is_adhoc b && negb (is_adhoc a)) eqn:S.
  - apply IH. unfold swap1 in *. rewrite S in L.
    apply andb_true_iff in S as [S1 S2]. apply negb_true_iff in S2. rewrite S2. simpl. lia.
  - assert (G : gw_match (gw n) a b <> None) by (apply gw_match_some; intros; apply W; lia).
    destruct b; auto. destruct a; apply W; cbn [size] in *; lia.
Qed.

Lemma goes_with_fuel a b : gw (gw_fuel a b) a b <> None.
Proof. apply gw_enough. unfold gw_fuel, swap1. destruct (_ && _); lia. Qed.

Lemma goes_with_gw a b n r : gw n a b = Some r -> goes_with a b = r.
Proof.
  intros E. unfold goes_with. destruct (gw (gw_fuel a b) a b) as [r'|] eqn:E'.
  - destruct (Nat.le_ge_cases n (gw_fuel a b)) as [L|L].
    + rewrite (gw_mono _ _ _ _ _ L E) in E'. congruence.
    + rewrite (gw_mono _ _ _ _ _ L E') in E. congruence.
  - now apply goes_with_fuel in E'.
Qed.

Fixpoint all2 (f : ty -> ty -> bool) (l l' : list ty) : bool :=
  match l, l' with a :: l, b :: l' => f a b && all2 f l l' | _, _ => true end.

Definition gw_cases (f : ty -> ty -> bool) (self other : ty) : bool :=
  if is_unreachable self || is_unreachable other then true
  else match self with
  | TAny => negb (is_void other)
  | TVoid => is_void other
  | TArray a => match other with TArray b => f a b | _ => is_any other end
  | TObject => match other with TObject => true | _ => is_any other end
  | TOption a => match other with TOption b => f a b | _ => is_any other end
  | TResult a => match other with TResult b => f a b | _ => is_any other end
  | TThread a => match other with TThread b => f a b | _ => is_any other end
  | TIn a => match other with TIn b => f a b | _ => is_any other end
  | TClosure args ret =>
      match other with
      | TClosure args' ret' =>
          Nat.eqb (length args) (length args') && all2 f args args' && f ret ret'
      | _ => is_any other
      end
  | TAdHoc name t =>
      match other with
      | TAdHoc name' t' => String.eqb name name' && f t t'
      | TVoid => false
      | _ => f t other
      end
  | _ => atom_eq self other || is_any other
  end.

Definition gw_body (f : ty -> ty -> bool) (self other : ty) : bool :=
  if is_adhoc other && negb (is_adhoc self) then f other self
  else match other with
  | TSecret o => match self with TSecret s => f s o | _ => f self o end
  | _ => gw_cases f self other
  end.

Lemma oall2_all2 n l : forall l' r, oall2 (gw n) l l' = Some r -> all2 goes_with l l' = r.
Proof.
  induction l as [|a l IH]; intros [|b l'] r; simpl; try (intros [= <-]; reflexivity).
  unfold oand. destruct (gw n a b) as [[|]|] eqn:E; try discriminate; intros H.
  - rewrite (goes_with_gw _ _ _ _ E). simpl. now apply IH.
  - rewrite (goes_with_gw _ _ _ _ E). now inversion H.
Qed.

Lemma gw_match_cases n a b r : gw_match (gw n) a b = Some r -> gw_cases goes_with a b = r.
Proof.
  unfold gw_match, gw_cases. destruct (is_unreachable a || is_unreachable b); [congruence|].
  intros E.
  destruct a; try (destruct (atom_eq _ _); inversion E; reflexivity);
   try congruence;
   destruct b; try congruence; try (apply goes_with_gw in E; exact E).
  - destruct (String.eqb name name0); simpl; [now apply goes_with_gw in E|congruence].
  - destruct (Nat.eqb (length args) (length args0)); simpl in *; [|congruence].
    unfold oand in E. destruct (oall2 (gw n) args args0) as [[|]|] eqn:O; try discriminate.
    + rewrite (oall2_all2 _ _ _ _ O). simpl. now apply goes_with_gw in E.
    + rewrite (oall2_all2 _ _ _ _ O). simpl. congruence.
Qed.

Lemma goes_with_eq a b : goes_with a b = gw_body goes_with a b.
Proof.
  unfold goes_with at 1. remember (gw_fuel a b) as n eqn:En. destruct n as [|n]; [unfold gw_fuel in En; lia|].
  pose proof (goes_with_fuel a b) as NN. rewrite <- En in NN. clear En.
  destruct (gw (S n) a b) as [r|] eqn:E; [|congruence]. clear NN. symmetry.
  cbn [gw] in E. unfold gw_body.
  destruct (is_adhoc b && negb (is_adhoc a)); [now apply goes_with_gw in E|].
  destruct b; try (now apply gw_match_cases in E).
  destruct a; now apply goes_with_gw in E.
Qed.

(** ** C26 *)
From Verif Require Import TypeSpec.

Lemma all2_refl (f : ty -> ty -> bool) l : Forall (fun t => f t t = true) l -> all2 f l l = true.
Proof. induction 1; simpl; auto. now rewrite H. Qed.

Lemma goes_with_refl t : goes_with t t = true.
Proof.
  induction t using ty_ind'; rewrite goes_with_eq; unfold gw_body; simpl; auto.
  - unfold gw_cases. simpl. now rewrite String.eqb_refl.
  - unfold gw_cases. simpl. rewrite Nat.eqb_refl, (all2_refl _ _ H), IHt. reflexivity.
Qed.

Lemma adhoc_dec t : {adhoc t} + {~ adhoc t}.
Proof. destruct t; try (right; intros (?&?&?); discriminate). left. red; eauto. Qed.
Lemma is_adhoc_spec t : is_adhoc t = true <-> adhoc t.
Proof. destruct t; simpl; split; intros; try discriminate; try (destruct H as (?&?&?); discriminate); auto. red; eauto. Qed.
Lemma is_adhoc_false t : is_adhoc t = false <-> ~ adhoc t.
Proof. rewrite <- is_adhoc_spec. destruct (is_adhoc t); split; congruence. Qed.

Section compat_ind.
  Variable P : ty -> ty -> Prop.
  Hypothesis H1 : forall b, P TUnreachable b.
  Hypothesis H2 : forall a, P a TUnreachable.
  Hypothesis H3 : P TVoid TVoid.
  Hypothesis H4 : forall b, b <> TVoid -> ~ adhoc b -> P TAny b.
  Hypothesis H5 : forall a, a <> TVoid -> ~ adhoc a -> P a TAny.
  Hypothesis H6 : P TBool TBool. Hypothesis H7 : P TF64 TF64. Hypothesis H8 : P TVec4 TVec4.
  Hypothesis H9 : P TMat4 TMat4. Hypothesis H10 : P TStr TStr. Hypothesis H11 : P TLink TLink.
  Hypothesis H12 : P TObject TObject.
  Hypothesis H13 : forall a b, P a b -> P (TArray a) (TArray b).
  Hypothesis H14 : forall a b, P a b -> P (TOption a) (TOption b).
  Hypothesis H15 : forall a b, P a b -> P (TResult a) (TResult b).
  Hypothesis H16 : forall a b, P a b -> P (TThread a) (TThread b).
  Hypothesis H17 : forall a b, P a b -> P (TIn a) (TIn b).
  Hypothesis H18 : forall l l' r r', Forall2 P l l' -> P r r' -> P (TClosure l r) (TClosure l' r').
  Hypothesis H19 : forall n a b, P a b -> P (TAdHoc n a) (TAdHoc n b).
  Hypothesis H20 : forall n a b, ~ adhoc b -> b <> TVoid -> P a b -> P (TAdHoc n a) b.
  Hypothesis H21 : forall n a b, ~ adhoc a -> a <> TVoid -> P a b -> P a (TAdHoc n b).
  Fixpoint Compat_ind' a b (C : Compat a b) : P a b :=
    match C with
    | C_unr_l b => H1 b | C_unr_r a => H2 a | C_void => H3
    | C_any_l b x y => H4 b x y | C_any_r a x y => H5 a x y
    | C_bool => H6 | C_f64 => H7 | C_vec4 => H8 | C_mat4 => H9 | C_str => H10 | C_link => H11
    | C_object => H12
    | C_array a b c => H13 _ _ (Compat_ind' _ _ c)
    | C_option a b c => H14 _ _ (Compat_ind' _ _ c)
    | C_result a b c => H15 _ _ (Compat_ind' _ _ c)
    | C_thread a b c => H16 _ _ (Compat_ind' _ _ c)
    | C_in a b c => H17 _ _ (Compat_ind' _ _ c)
    | C_closure l l' r r' f c => H18 _ _ _ _
        ((fix go l l' (f : Forall2 Compat l l') : Forall2 P l l' :=
           match f with
           | Forall2_nil _ => Forall2_nil _
           | Forall2_cons _ _ c f => Forall2_cons _ _ (Compat_ind' _ _ c) (go _ _ f)
           end) l l' f) (Compat_ind' _ _ c)
    | C_named n a b c => H19 n _ _ (Compat_ind' _ _ c)
    | C_name_l n a b x y c => H20 n _ _ x y (Compat_ind' _ _ c)
    | C_name_r n a b x y c => H21 n _ _ x y (Compat_ind' _ _ c)
    end.
End compat_ind.

Lemma Compat_sym a b : Compat a b -> Compat b a.
Proof.
  induction 1 using Compat_ind'; try (constructor; auto; fail).
  constructor; auto. clear - H. induction H; constructor; auto.
Qed.

Lemma value_any : forall t, value_type t -> goes_with TAny t = true /\ goes_with t TAny = true.
Proof.
  induction t using ty_ind'; intros V; simpl in V; try (split; rewrite goes_with_eq; reflexivity); try contradiction.
  - destruct (IHt V). split; rewrite goes_with_eq; [assumption|reflexivity].
  - destruct (IHt V) as [A B].
    assert (goes_with (TAdHoc n t) TAny = true) by (rewrite goes_with_eq; unfold gw_body, gw_cases; simpl; assumption).
    split; auto. rewrite goes_with_eq. unfold gw_body; simpl. assumption.
Qed.

Lemma proper_void t : proper_type t -> goes_with TVoid t = false /\ goes_with t TVoid = false.
Proof.
  induction t using ty_ind'; intros V; simpl in V; try (split; rewrite goes_with_eq; reflexivity); try contradiction.
  destruct (IHt V). split; rewrite goes_with_eq; [assumption|reflexivity].
Qed.

Lemma all2_Forall2 (P : ty -> ty -> Prop) l : forall l',
  length l = length l' ->
  Forall (fun a => forall b, In b l' -> goes_with a b = true -> P a b) l ->
  all2 goes_with l l' = true -> Forall2 P l l'.
Proof.
  induction l as [|a l IH]; intros [|b l'] L F A; simpl in *; try discriminate; constructor.
  - apply andb_true_iff in A as [A _]. inversion F; subst. apply H1; auto.
  - apply andb_true_iff in A as [_ A]. inversion F; subst. apply IH; auto.
    eapply Forall_impl; [|exact H2]. simpl. intros; auto.
Qed.

Lemma secret_free_args l r : fold_right (fun a P => secret_free a /\ P) (secret_free r) l ->
  Forall secret_free l /\ secret_free r.
Proof. induction l; simpl; intros H; [auto|]. destruct H as [A B]. destruct (IHl B). auto. Qed.

Lemma gw_adhoc_r n a b : is_adhoc a = false -> goes_with a (TAdHoc n b) = goes_with (TAdHoc n b) a.
Proof. intros A. rewrite goes_with_eq. unfold gw_body. simpl. now rewrite A. Qed.

Lemma gw_adhoc_l n t b : is_adhoc b = false -> ~ secret b -> b <> TVoid -> b <> TUnreachable ->
  goes_with (TAdHoc n t) b = goes_with t b.
Proof.
  intros A S V U. rewrite goes_with_eq. unfold gw_body. simpl. rewrite A. simpl.
  destruct b; try reflexivity; try congruence; try discriminate. exfalso; apply S; red; eauto.
Qed.

(** Soundness of [goes_with] on types without secrets, by induction on the sum of the sizes. *)
Lemma goes_with_Compat_size : forall k a b, size a + size b <= k ->
  secret_free a -> secret_free b -> goes_with a b = true -> Compat a b.
Proof.
  induction k as [|k IH]; intros a b K SA SB G.
  { pose proof (size_pos a); lia. }
  destruct (is_adhoc a) eqn:Aa; destruct (is_adhoc b) eqn:Ab.
  - destruct a; try discriminate. destruct b; try discriminate.
    rewrite goes_with_eq in G. unfold gw_body, gw_cases in G. simpl in G.
    apply andb_true_iff in G as [E G]. apply String.eqb_eq in E as <-.
    constructor. apply IH; auto. simpl in K. lia.
  - destruct a; try discriminate.
    destruct b; try discriminate; try contradiction; try (constructor; fail);
    try (apply C_name_l; [now apply is_adhoc_false|congruence|];
         rewrite gw_adhoc_l in G; try discriminate; auto; try (intros (?&?); discriminate);
         apply IH; auto; simpl in *; lia).
  - destruct b; try discriminate. rewrite gw_adhoc_r in G by auto.
    destruct a; try discriminate; try contradiction; try (constructor; fail);
    try (apply C_name_r; [now apply is_adhoc_false|congruence|];
         rewrite gw_adhoc_l in G; try discriminate; auto; try (intros (?&?); discriminate);
         apply Compat_sym, IH; auto; simpl in *; lia).
  - rewrite goes_with_eq in G. unfold gw_body in G. rewrite Aa, Ab in G. simpl in G.
    unfold gw_cases in G.
    assert (NA : ~ adhoc a) by now apply is_adhoc_false.
    assert (NB : ~ adhoc b) by now apply is_adhoc_false.
    destruct a; destruct b; simpl in *; try discriminate; try contradiction; try (constructor; auto; congruence);
      try (constructor; apply IH; auto; lia).
    apply andb_true_iff in G as [G R]. apply andb_true_iff in G as [L G].
    apply Nat.eqb_eq in L. apply secret_free_args in SA as [SA SR]. apply secret_free_args in SB as [SB SR'].
    fold (sumsize args) in K. fold (sumsize args0) in K.
    constructor.
    + apply all2_Forall2; auto. rewrite Forall_forall in *. intros x X y Y XY.
      apply IH; auto. apply in_sumsize in X, Y. pose proof (size_pos a). lia.
    + apply IH; auto. lia.
Qed.

Lemma goes_with_Compat a b : secret_free a -> secret_free b -> goes_with a b = true -> Compat a b.
Proof. intros. eapply goes_with_Compat_size; eauto. Qed.

Lemma Compat_goes_with a b : Compat a b -> secret_free a -> secret_free b ->
  goes_with a b = true.
Proof.
  intros C SA SB.
  assert (goes_with a b = true /\ goes_with b a = true); [|tauto]. revert SA SB.
  induction C using Compat_ind'; intros SA SB; try (split; rewrite goes_with_eq; reflexivity);
    try (split; rewrite goes_with_eq; unfold gw_body, gw_cases; simpl; apply IHC; auto; fail).
  - destruct (is_adhoc b) eqn:A; [|destruct b; try discriminate; simpl in *; try contradiction; split; rewrite goes_with_eq; reflexivity].
    destruct b; try discriminate. split; [rewrite gw_adhoc_r by auto|]; rewrite goes_with_eq; reflexivity.
  - destruct (is_adhoc a) eqn:A; [|destruct a; try discriminate; simpl in *; try contradiction; split; rewrite goes_with_eq; reflexivity].
    destruct a; try discriminate. split; [|rewrite gw_adhoc_r by auto]; rewrite goes_with_eq; reflexivity.
  - apply value_any. destruct b; simpl in *; try tauto; try congruence. exfalso; apply H0; red; eauto.
  - apply and_comm, value_any. destruct a; simpl in *; try tauto; try congruence. exfalso; apply H0; red; eauto.
  - simpl in SA, SB. apply secret_free_args in SA as [SA SR]. apply secret_free_args in SB as [SB SR'].
    destruct (IHC SR SR') as [R1 R2].
    assert (L : length l = length l') by (clear - H; induction H; simpl; auto).
    assert (all2 goes_with l l' = true /\ all2 goes_with l' l = true) as [G1 G2].
    { clear - H SA SB. induction H; simpl; auto. inversion SA; subst. inversion SB; subst.
      destruct (H H3 H5) as [-> ->]. simpl. auto. }
    split; rewrite goes_with_eq; unfold gw_body, gw_cases; simpl; rewrite L, Nat.eqb_refl.
    + now rewrite G1, R1.
    + now rewrite G2, R2.
  - simpl in *. destruct (IHC SA SB).
    split; rewrite goes_with_eq; unfold gw_body, gw_cases; simpl; rewrite String.eqb_refl; assumption.
  - simpl in SA. destruct (IHC SA SB) as [G1 G2].
    assert (Ab : is_adhoc b = false) by now apply is_adhoc_false.
    assert (G : goes_with (TAdHoc n a) b = true).
    { destruct b; try discriminate; try (rewrite gw_adhoc_l; auto; try congruence; intros (?&?); discriminate).
      rewrite goes_with_eq; reflexivity. }
    split; auto. rewrite gw_adhoc_r; auto.
  - simpl in SB. destruct (IHC SA SB) as [G1 G2].
    assert (Aa : is_adhoc a = false) by now apply is_adhoc_false.
    assert (G : goes_with (TAdHoc n b) a = true).
    { destruct a; try discriminate; try (rewrite gw_adhoc_l; auto; try congruence; intros (?&?); discriminate).
      rewrite goes_with_eq; reflexivity. }
    split; auto. rewrite gw_adhoc_r; auto.
Qed.

(** ** C28 *)


Definition ext (tv tv' : tyvars) : Prop :=
  length tv = length tv' /\ forall i x, nth i tv None = Some x -> nth i tv' None = Some x.
Lemma ext_refl tv : ext tv tv.
Proof. split; auto. Qed.
Lemma ext_trans a b c : ext a b -> ext b c -> ext a c.
Proof. intros [L H] [L' H']. split; [congruence|auto]. Qed.

Lemma set_nth_length {A} (x : A) l : forall i, length (set_nth i x l) = length l.
Proof. induction l; intros [|i]; simpl; auto. Qed.
Lemma set_nth_same {A} (x d : A) l : forall i, i < length l -> nth i (set_nth i x l) d = x.
Proof. induction l; intros [|i] L; simpl in *; try lia; auto. apply IHl. lia. Qed.
Lemma set_nth_other {A} (x d : A) l : forall i j, i <> j -> nth j (set_nth i x l) d = nth j l d.
Proof. induction l; intros [|i] [|j] N; simpl; try lia; auto. Qed.

Lemma ext_set i x tv : nth i tv None = None -> ext tv (set_nth i (Some x) tv).
Proof.
  intros N. split; [now rewrite set_nth_length|]. intros j y H.
  destruct (Nat.eq_dec i j) as [->|D]; [congruence|]. now rewrite set_nth_other.
Qed.

Lemma var_ix_In names x i : var_ix names x = Some i -> In x names /\ i < length names.
Proof.
  revert i; induction names as [|y l IH]; intros i; simpl; [discriminate|].
  destruct (String.eqb_spec x y) as [->|N].
  - intros [= <-]. split; [auto|lia].
  - destruct (var_ix l x) as [j|]; [|discriminate]. intros [= <-]. destruct (IH j eq_refl). split; [auto|lia].
Qed.
Lemma var_ix_None names x : var_ix names x = None -> ~ In x names.
Proof.
  induction names as [|y l IH]; simpl; [tauto|].
  destruct (String.eqb_spec x y) as [->|N]; [discriminate|].
  destruct (var_ix l x); [discriminate|]. intros _ [E|I]; [congruence|]. now apply IH.
Qed.

Lemma not_adhoc_eq t : (forall n u, t <> TAdHoc n u) -> ~ adhoc t.
Proof. intros H (n & u & E). eapply H; eauto. Qed.

Definition bind_step (n : string) (p a : ty) (names : list string) (tv : tyvars) :=
     match a with
        | TAdHoc b bi =>
            match var_ix names n with
            | Some i =>
                match bind_ty_vars p bi names tv with
                | None => None
                | Some (new_inner, tv1) =>
                    match nth i tv1 None with
                    | Some ex =>
                        if negb (String.eqb ex b) && goes_with new_inner bi && negb (ambiguous new_inner bi)
                        then None
                        else Some (TAdHoc ex new_inner, tv1)
                    | None =>
                        match bind_ty_vars p bi names (set_nth i (Some b) tv1) with
                        | None => None
                        | Some (t, tv2) => Some (TAdHoc b t, tv2)
                        end
                    end
                end
            | None =>
                match bind_ty_vars p bi names tv with
                | None => None
                | Some (t, tv1) => Some (TAdHoc n t, tv1)
                end
            end
        | _ =>
            match var_ix names n with
            | Some i =>
                match bind_ty_vars p a names tv with
                | None => None
                | Some (new_inner, tv1) =>
                    match nth i tv1 None with
                    | Some _ =>
                        if goes_with new_inner a && negb (ambiguous new_inner a) then None
                        else bind_ty_vars p a names tv1
                    | None => bind_ty_vars p a names tv1
                    end
                end
            | None => bind_ty_vars p a names tv
            end
        end.
Lemma bind_adhoc n p a names tv : names <> [] ->
  bind_ty_vars (TAdHoc n p) a names tv = bind_step n p a names tv.
Proof. destruct names; [congruence|]. reflexivity. Qed.

Lemma bind_spec names : forall p a tv p' tv',
  bind_ty_vars p a names tv = Some (p', tv') -> length tv = length names ->
  ext tv tv' /\ forall tv'', ext tv' tv'' -> Inst names (assoc names tv'') p a p'.
Proof.
  destruct names as [|n0 names0].
  { intros p a tv p' tv' H L. destruct p; simpl in H; inversion H; subst;
     (split; [apply ext_refl|intros; apply I_other; auto]). }
  remember (n0 :: names0) as names eqn:EN.
  assert (NE : names <> []) by (subst; discriminate). clear EN n0 names0.
  induction p using ty_ind'; intros a tv p' tv' H' L;
    try (destruct names; [congruence|]; simpl in H'; inversion H'; subst;
         split; [apply ext_refl|intros; apply I_other; right; apply not_adhoc_eq; discriminate]; fail).
  rewrite bind_adhoc in H' by auto. unfold bind_step in H'.
  destruct (adhoc_dec a) as [(b & bi & ->)|NA].
  - destruct (var_ix names n) as [i|] eqn:V.
    + destruct (bind_ty_vars p bi names tv) as [[ni tv1]|] eqn:B1; [|discriminate].
      destruct (IHp _ _ _ _ B1 L) as [X1 I1].
      destruct (nth i tv1 None) as [ex|] eqn:N.
      * destruct (_ && _ && _); [discriminate|]. inversion H'; subst. split; auto.
        intros tv'' X. destruct (var_ix_In _ _ _ V) as [IN _].
        assert (S : assoc names tv'' n = Some ex) by (unfold assoc; rewrite V; now apply X).
        pose proof (I_var names (assoc names tv'') n b p bi ni IN) as K. rewrite S in K.
        apply K; [congruence|auto].
      * destruct (bind_ty_vars p bi names (set_nth i (Some b) tv1)) as [[t tv2]|] eqn:B2; [|discriminate].
        inversion H'; subst.
        assert (L1 : length tv1 = length names) by (destruct X1; congruence).
        destruct (IHp _ _ _ _ B2) as [X2 I2]; [now rewrite set_nth_length|].
        split; [eapply ext_trans; [exact X1|]; eapply ext_trans; [apply (ext_set i b); auto|exact X2]|].
        intros tv'' X. destruct (var_ix_In _ _ _ V) as [IN LT].
        assert (S : assoc names tv'' n = Some b).
        { unfold assoc; rewrite V. apply X, X2. apply set_nth_same. lia. }
        pose proof (I_var names (assoc names tv'') n b p bi t IN) as K. rewrite S in K.
        apply K; [congruence|auto].
    + destruct (bind_ty_vars p bi names tv) as [[t tv1]|] eqn:B1; [|discriminate]. inversion H'; subst.
      destruct (IHp _ _ _ _ B1 L) as [X1 I1]. split; auto.
      intros. apply I_con; auto. now apply var_ix_None.
  - assert (Hc : match var_ix names n with
            | Some i =>
                match bind_ty_vars p a names tv with
                | None => None
                | Some (new_inner, tv1) =>
                    match nth i tv1 None with
                    | Some _ =>
                        if goes_with new_inner a && negb (ambiguous new_inner a) then None
                        else bind_ty_vars p a names tv1
                    | None => bind_ty_vars p a names tv1
                    end
                end
            | None => bind_ty_vars p a names tv
            end = Some (p', tv')).
    { destruct a; auto. exfalso. apply NA. red; eauto. }
    clear H'. destruct (var_ix names n) as [i|].
    + destruct (bind_ty_vars p a names tv) as [[ni tv1]|] eqn:B1; [|discriminate].
      destruct (IHp _ _ _ _ B1 L) as [X1 I1].
      assert (B2 : bind_ty_vars p a names tv1 = Some (p', tv')).
      { destruct (nth i tv1 None); auto. destruct (_ && _); [discriminate|auto]. }
      destruct (IHp _ _ _ _ B2) as [X2 I2]; [destruct X1; congruence|].
      split; [eapply ext_trans; eauto|]. intros. apply I_drop; auto.
    + destruct (IHp _ _ _ _ Hc L) as [X1 I1]. split; auto. intros. apply I_drop; auto.
Qed.

Lemma bind_err names : forall p a tv,
  bind_ty_vars p a names tv = None -> length tv = length names ->
  exists tv', ext tv tv' /\ Clash names (assoc names tv') p a.
Proof.
  destruct names as [|n0 names0].
  { intros p a tv H L. destruct p; simpl in H; discriminate. }
  remember (n0 :: names0) as names eqn:EN.
  assert (NE : names <> []) by (subst; discriminate). clear EN n0 names0.
  induction p using ty_ind'; intros a tv H' L;
    try (destruct names; [congruence|]; simpl in H'; discriminate).
  rewrite bind_adhoc in H' by auto. unfold bind_step in H'.
  destruct (adhoc_dec a) as [(b & bi & ->)|NA].
  - assert (IN : bind_ty_vars p bi names tv = None -> exists tv', ext tv tv' /\ Clash names (assoc names tv') (TAdHoc n p) (TAdHoc b bi)).
    { intros B. destruct (IHp _ _ B L) as (tv' & X & C). exists tv'. split; auto. now apply CL_in. }
    destruct (var_ix names n) as [i|] eqn:V.
    + destruct (bind_ty_vars p bi names tv) as [[ni tv1]|] eqn:B1; [|auto].
      destruct (bind_spec _ _ _ _ _ _ B1 L) as [X1 I1].
      destruct (nth i tv1 None) as [ex|] eqn:N.
      * destruct (negb (String.eqb ex b) && goes_with ni bi && negb (ambiguous ni bi)) eqn:C; [|discriminate].
        apply andb_true_iff in C as [C _]. apply andb_true_iff in C as [C G].
        apply negb_true_iff, String.eqb_neq in C.
        exists tv1. split; auto. eapply CL_name; eauto.
        -- unfold assoc. rewrite V. eassumption.
        -- apply I1, ext_refl.
      * destruct (bind_ty_vars p bi names (set_nth i (Some b) tv1)) as [[t tv2]|] eqn:B2; [discriminate|].
        destruct (IHp _ _ B2) as (tv' & X & C); [rewrite set_nth_length; destruct X1; congruence|].
        exists tv'. split; [|now apply CL_in].
        eapply ext_trans; [exact X1|]. eapply ext_trans; [apply (ext_set i b); auto|exact X].
    + destruct (bind_ty_vars p bi names tv) as [[t tv1]|] eqn:B1; [discriminate|auto].
  - assert (Hc : match var_ix names n with
            | Some i =>
                match bind_ty_vars p a names tv with
                | None => None
                | Some (new_inner, tv1) =>
                    match nth i tv1 None with
                    | Some _ =>
                        if goes_with new_inner a && negb (ambiguous new_inner a) then None
                        else bind_ty_vars p a names tv1
                    | None => bind_ty_vars p a names tv1
                    end
                end
            | None => bind_ty_vars p a names tv
            end = None).
    { destruct a; auto. exfalso. apply NA. red; eauto. }
    clear H'.
    assert (IN : forall tv0, ext tv tv0 -> bind_ty_vars p a names tv0 = None ->
      exists tv', ext tv tv' /\ Clash names (assoc names tv') (TAdHoc n p) a).
    { intros tv0 X0 B. destruct (IHp _ _ B) as (tv' & X & C); [destruct X0; congruence|].
      exists tv'. split; [eapply ext_trans; eauto|]. now apply CL_drop. }
    destruct (var_ix names n) as [i|] eqn:V; [|apply (IN tv); auto; apply ext_refl].
    destruct (bind_ty_vars p a names tv) as [[ni tv1]|] eqn:B1; [|apply (IN tv); auto; apply ext_refl].
    destruct (bind_spec _ _ _ _ _ _ B1 L) as [X1 I1].
    destruct (nth i tv1 None) as [ex|] eqn:N; [|apply (IN tv1); auto].
    destruct (goes_with ni a && negb (ambiguous ni a)) eqn:C; [|apply (IN tv1); auto].
    apply andb_true_iff in C as [G _].
    exists tv1. split; auto. eapply CL_none; eauto.
    + unfold assoc. rewrite V. eassumption.
    + apply I1, ext_refl.
Qed.

Definition fits names m := fun ap : option ty * ty => Fits names m (fst ap) (snd ap).

Lemma match_spec names : forall args ps tv, length tv = length names ->
  match match_args names args ps tv with
  | AOk tv' => ext tv tv' /\ forall tv'', ext tv' tv'' -> Forall (fits names (assoc names tv'')) (zipped args ps)
  | r =>
     exists tv' pre a p post, ext tv tv' /\ zipped args ps = pre ++ (a, p) :: post /\
       (forall tv'', ext tv' tv'' -> Forall (fits names (assoc names tv'')) pre) /\
       match r with
       | ANo => Misfits names (assoc names tv') a p
       | AAmb => Unclear names (assoc names tv') a p
       | AErr => Clashes names (assoc names tv') a p
       | AOk _ => False
       end
  end.
Proof.
  induction args as [|a args IH]; intros ps tv L.
  { simpl. split; [apply ext_refl|constructor]. }
  destruct ps as [|p ps]; simpl.
  { split; [apply ext_refl|constructor]. }
  destruct a as [a|].
  2: { exists tv, [], None, p, (zipped args ps). splits; auto; try apply ext_refl; try (intros ? ?; constructor). now left. }
  destruct (bind_ty_vars p a names tv) as [[p' tv1]|] eqn:B.
  2: { destruct (bind_err _ _ _ _ B L) as (tv' & X & C).
       exists tv', [], (Some a), p, (zipped args ps). splits; auto; try (intros ? ?; constructor). red. eauto. }
  destruct (bind_spec _ _ _ _ _ _ B L) as [X I].
  destruct (goes_with p' a) eqn:G.
  2: { exists tv1, [], (Some a), p, (zipped args ps). splits; auto; try (intros ? ?; constructor).
       red. exists a, p'. splits; auto. apply I, ext_refl. }
  destruct (ambiguous p' a) eqn:A.
  { exists tv1, [], (Some a), p, (zipped args ps). splits; auto; try (intros ? ?; constructor).
    right. exists a, p'. splits; auto. apply I, ext_refl. }
  assert (L1 : length tv1 = length names) by (destruct X; congruence).
  specialize (IH ps tv1 L1).
  assert (F : forall tv'', ext tv1 tv'' -> fits names (assoc names tv'') (Some a, p)).
  { intros tv'' E. exists a, p'. splits; auto. }
  destruct (match_args names args ps tv1) as [tv'| | |].
  - destruct IH as [X' H]. split; [eapply ext_trans; eauto|].
    intros tv'' E. constructor; auto. apply F. eapply ext_trans; eauto.
  - destruct IH as (tv' & pre & a' & q & post & X' & Z & H & M).
    exists tv', ((Some a, p) :: pre), a', q, post. rewrite Z. splits; auto; [eapply ext_trans; eauto|].
    intros tv'' E. constructor; auto. apply F. eapply ext_trans; eauto.
  - destruct IH as (tv' & pre & a' & q & post & X' & Z & H & M).
    exists tv', ((Some a, p) :: pre), a', q, post. rewrite Z. splits; auto; [eapply ext_trans; eauto|].
    intros tv'' E. constructor; auto. apply F. eapply ext_trans; eauto.
  - destruct IH as (tv' & pre & a' & q & post & X' & Z & H & M).
    exists tv', ((Some a, p) :: pre), a', q, post. rewrite Z. splits; auto; [eapply ext_trans; eauto|].
    intros tv'' E. constructor; auto. apply F. eapply ext_trans; eauto.
Qed.

(** the final bindings of a matching signature *)
Lemma refine_loop_spec args : forall sigs,
  match refine_loop sigs args with
  | RFound t => exists pre s post tv, sigs = pre ++ s :: post /\ Forall (fun s' => FirstBad Misfits s' args) pre /\
      length tv = length (svars s) /\ AllFit s (assoc (svars s) tv) args /\ t = inst_ret (svars s) tv (sret s)
  | RMismatch => Forall (fun s' => FirstBad Misfits s' args) sigs
  | RDelay => exists pre s post, sigs = pre ++ s :: post /\ Forall (fun s' => FirstBad Misfits s' args) pre /\
      FirstBad Unclear s args
  | RVarError => exists pre s post, sigs = pre ++ s :: post /\ Forall (fun s' => FirstBad Misfits s' args) pre /\
      FirstBad Clashes s args
  | RNothing => False
  end.
Proof.
  induction sigs as [|s sigs IH]; simpl; [constructor|].
  pose proof (match_spec (svars s) args (sargs s) (repeat None (length (svars s)))) as M.
  rewrite repeat_length in M. specialize (M eq_refl).
  destruct (match_args _ _ _ _) as [tv'| | |].
  - destruct M as [X H]. exists [], s, sigs, tv'. splits; auto.
    + destruct X as [X _]. rewrite repeat_length in X. auto.
    + apply H, ext_refl.
  - destruct M as (tv' & pre & a & q & post & X & Z & H & M).
    assert (FB : FirstBad Misfits s args).
    { exists (assoc (svars s) tv'), pre, a, q, post. splits; auto. apply H, ext_refl. }
    destruct (refine_loop sigs args).
    + destruct IH as (pre' & s' & post' & tv & -> & F & R). exists (s :: pre'), s', post', tv. splits; auto; apply R.
    + destruct IH as (pre' & s' & post' & -> & F & R). exists (s :: pre'), s', post'. splits; auto.
    + constructor; auto.
    + destruct IH as (pre' & s' & post' & -> & F & R). exists (s :: pre'), s', post'. splits; auto.
    + contradiction.
  - destruct M as (tv' & pre & a & q & post & X & Z & H & M).
    exists [], s, sigs. splits; auto. exists (assoc (svars s) tv'), pre, a, q, post. splits; auto. apply H, ext_refl.
  - destruct M as (tv' & pre & a & q & post & X & Z & H & M).
    exists [], s, sigs. splits; auto. exists (assoc (svars s) tv'), pre, a, q, post. splits; auto. apply H, ext_refl.
Qed.

(** Return type: with all variables bound to names that are not variables themselves, the
    sequential replacement is the simultaneous one. *)
Lemma insert_var_replace names s t n v :
  In n names -> s n = Some v -> ~ In v names ->
  replace_vars names s (insert_var t n v) = replace_vars names s t.
Proof.
  intros I S NV. induction t using ty_ind'; simpl; auto. rewrite IHt. f_equal.
  destruct (String.eqb_spec n0 n) as [->|N].
  - destruct (in_dec string_dec v names); [contradiction|].
    destruct (in_dec string_dec n names); [|contradiction]. now rewrite S.
  - reflexivity.
Qed.

Lemma replace_vars_none names s t :
  (forall n, In n names -> s n = None) -> replace_vars names s t = t.
Proof.
  intros H. induction t using ty_ind'; simpl; auto. rewrite IHt.
  destruct (in_dec string_dec n names); [rewrite H; auto|auto].
Qed.

Lemma replace_vars_layers names s t : (forall n, In n (layers t) -> ~ In n names) -> replace_vars names s t = t.
Proof.
  intros H. induction t using ty_ind'; simpl; auto. simpl in H. rewrite IHt by auto.
  destruct (in_dec string_dec n names); [exfalso; eapply H; eauto|auto].
Qed.
Lemma layers_insert x t n v : In x (layers (insert_var t n v)) -> x = v \/ (In x (layers t) /\ x <> n).
Proof.
  induction t using ty_ind'; simpl; try tauto. intros [E|I].
  - destruct (String.eqb_spec n0 n) as [->|N]; [now left|]. subst. auto.
  - destruct (IHt I) as [|[A B]]; auto.
Qed.

Lemma inst_ret_layers names : forall tv t x,
  (forall i v, nth i tv None = Some v -> ~ In v names) ->
  (forall i, i < length names -> nth i tv None <> None) -> length tv = length names ->
  forall all, incl names all -> (forall i v, nth i tv None = Some v -> ~ In v all) ->
  In x (layers (inst_ret names tv t)) -> In x all -> In x (layers t) /\ ~ In x names.
Proof.
  induction names as [|n names IH]; intros tv t x F B L all IC FA; destruct tv as [|v tv]; simpl in *; try discriminate.
  - intros; auto.
  - destruct v as [v|]; [|exfalso; apply (B 0); simpl; auto; lia].
    intros I IA.
    destruct (IH tv (insert_var t n v) x) with (all := all) as [A C]; auto.
    + intros i v' N I'. apply (F (S i) v'); simpl; auto.
    + intros i Li. apply (B (S i)). lia.
    + intros y Y. apply IC. now right.
    + intros i v' N. apply (FA (S i) v'). auto.
    + destruct (layers_insert _ _ _ _ A) as [->|[D E]].
      * exfalso. apply (FA 0 v); auto.
      * split; auto. intros [->|?]; auto.
Qed.

Lemma inst_ret_replace all s names : forall tv t,
  NoDup names -> incl names all -> length tv = length names ->
  (forall i n, nth_error names i = Some n -> s n = nth i tv None) ->
  (forall i v, nth i tv None = Some v -> ~ In v all) ->
  (forall i, i < length names -> nth i tv None <> None) ->
  replace_vars all s (inst_ret names tv t) = replace_vars all s t.
Proof.
  induction names as [|n names IH]; intros tv t ND IC L S F B; destruct tv as [|v tv]; simpl in *; try discriminate; auto.
  destruct v as [v|]; [|exfalso; apply (B 0); simpl; auto; lia].
  inversion ND; subst.
  rewrite IH; auto.
  - apply insert_var_replace; [apply IC; now left| |].
    + apply (S 0). reflexivity.
    + apply (F 0). reflexivity.
  - intros y Y. apply IC. now right.
  - intros i m E. apply (S (Datatypes.S i) m). exact E.
  - intros i v' N. apply (F (Datatypes.S i) v'). auto.
  - intros i Li. apply (B (Datatypes.S i)). lia.
Qed.

Lemma var_ix_nth names : forall i n, NoDup names -> nth_error names i = Some n -> var_ix names n = Some i.
Proof.
  induction names as [|m names IH]; intros [|i] n ND E; simpl in *; try discriminate.
  - inversion E; subst. now rewrite String.eqb_refl.
  - inversion ND; subst. destruct (String.eqb_spec n m) as [->|N].
    + exfalso. apply H1. eapply nth_error_In; eauto.
    + now rewrite (IH i n).
Qed.

Lemma inst_ret_spec names tv t : NoDup names -> length tv = length names ->
  (forall i v, nth i tv None = Some v -> ~ In v names) ->
  (forall i, i < length names -> nth i tv None <> None) ->
  inst_ret names tv t = replace_vars names (assoc names tv) t.
Proof.
  intros ND L F B.
  rewrite <- (inst_ret_replace names (assoc names tv) names tv t); auto.
  - symmetry. apply replace_vars_layers. intros n I IN.
    destruct (inst_ret_layers names tv t n) with (all := names) as [_ C]; auto. apply incl_refl.
  - apply incl_refl.
  - intros i n E. unfold assoc. now rewrite (var_ix_nth _ _ _ ND E).
Qed.

(** Signatures without type variables: matching is decided argument by argument. *)
Lemma Inst_mono m p a q : Inst [] m p a q -> q = p.
Proof. induction 1; try (now destruct H); try congruence; auto. Qed.

Lemma match_mono : forall args ps tv,
  (exists tv', match_args [] args ps tv = AOk tv') <->
  Forall (fun ap => exists a, fst ap = Some a /\ goes_with (snd ap) a = true /\ ambiguous (snd ap) a = false) (zipped args ps).
Proof.
  induction args as [|a args IH]; intros ps tv; simpl.
  - split; [constructor|eauto].
  - destruct ps as [|p ps]; simpl; [split; [constructor|eauto]|].
    destruct a as [a|].
    2: { split; [intros [? E]; discriminate|]. intros F; inversion F; subst. destruct H1 as (?&?&_); discriminate. }
    replace (bind_ty_vars p a [] tv) with (Some (p, tv)) by (destruct p; reflexivity).
    destruct (goes_with p a) eqn:G.
    2: { split; [intros [? E]; discriminate|]. intros F; inversion F; subst. destruct H1 as (?&E&?&_); simpl in *; congruence. }
    destruct (ambiguous p a) eqn:A.
    { split; [intros [? E]; discriminate|]. intros F; inversion F; subst. destruct H1 as (?&E&?&?); simpl in *; congruence. }
    rewrite IH. split.
    + intros F; constructor; auto. simpl. eauto.
    + intros F; inversion F; auto.
Qed.

Lemma inst_ret_nil tv t : inst_ret [] tv t = t.
Proof. destruct tv; reflexivity. Qed.

Definition mono_fits (ps : list ty) (args : list (option ty)) :=
  Forall (fun ap => exists a, fst ap = Some a /\ goes_with (snd ap) a = true /\ ambiguous (snd ap) a = false) (zipped args ps).

Lemma mono_AllFit s m args : svars s = [] -> (AllFit s m args <-> mono_fits (sargs s) args).
Proof.
  intros V. unfold AllFit, mono_fits. rewrite V. split; intros F; eapply Forall_impl; try exact F; intros [a p]; simpl.
  - intros (a' & p' & -> & I & G & A). apply Inst_mono in I as ->. eauto.
  - intros (a' & -> & G & A). exists a', p. splits; auto. apply I_other. auto.
Qed.

Lemma mono_misfit args : forall ps tv m pre a p post,
  zipped args ps = pre ++ (a, p) :: post -> Forall (fits [] m) pre -> Misfits [] m a p ->
  match_args [] args ps tv = ANo.
Proof.
  induction args as [|x args IH]; intros ps tv m pre a p post Z F M; [destruct pre; discriminate|].
  destruct ps as [|q ps]; [destruct pre; discriminate|].
  simpl in Z. simpl.
  destruct pre as [|[x' q'] pre]; simpl in Z; inversion Z; subst.
  - destruct M as (a' & p' & -> & I & G). apply Inst_mono in I as ->.
    replace (bind_ty_vars p a' [] tv) with (Some (p, tv)) by (destruct p; reflexivity). now rewrite G.
  - inversion F; subst. destruct H1 as (a' & p' & E & I & G & A). simpl in E, I. subst. apply Inst_mono in I as ->.
    replace (bind_ty_vars q' a' [] tv) with (Some (q', tv)) by (destruct q'; reflexivity).
    rewrite G, A. eapply IH; eauto.
Qed.

Lemma refine_mono args : forall pre s post,
  Forall (fun s' => FirstBad Misfits s' args /\ svars s' = []) pre -> svars s = [] ->
  mono_fits (sargs s) args -> refine_loop (pre ++ s :: post) args = RFound (sret s).
Proof.
  induction pre as [|s' pre IH]; intros s post F V M; simpl.
  - rewrite V. destruct (proj2 (match_mono args (sargs s) (repeat None (length (@nil string)))) M) as [tv ->].
    now rewrite inst_ret_nil.
  - inversion F; subst. destruct H1 as [FB V'].
    destruct FB as (m & pr & a & p & po & Z & PF & MF). rewrite V' in *.
    rewrite (mono_misfit _ _ _ _ _ _ _ _ Z PF MF). apply IH; auto.
Qed.
