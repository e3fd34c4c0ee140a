(** * C06, C07, C46, C48: equality, order, secrets and arithmetic of the standard library. *)
From Coq Require Import String Ascii List ZArith Bool Arith Lia Floats.SpecFloat.
From Verif Require Import Float64 FloatProofs Syntax InterpModel BalanceBase StdModel StdSpec.
Import ListNotations.
Local Open Scope string_scope.
Local Open Scope nat_scope.
Local Open Scope list_scope.

Section Ind.
Context (P : value -> Prop)
  (Harr : forall l, Forall P l -> P (VArray l))
  (Hobj : forall l, Forall (fun kx => P (snd kx)) l -> P (VObject l))
  (Hsome : forall x, P x -> P (VSome x))
  (Hrest : forall v, match v with VArray _ | VObject _ | VSome _ => False | _ => True end -> P v).
Fixpoint value_ind1 (v : value) : P v :=
  match v with
  | VArray l => Harr l ((fix go (l : list value) : Forall P l :=
      match l with [] => Forall_nil _ | x :: l => Forall_cons _ (value_ind1 x) (go l) end) l)
  | VObject l => Hobj l ((fix go (l : list (string * value)) : Forall (fun kx => P (snd kx)) l :=
      match l with [] => Forall_nil _ | kx :: l => Forall_cons kx (value_ind1 (snd kx)) (go l) end) l)
  | VSome x => Hsome x (value_ind1 x)
  | v => Hrest v I
  end.
End Ind.

Lemma Forall2_len : forall {A B} (P : A -> B -> Prop) l l', Forall2 P l l' -> length l = length l'.
Proof. induction 1; simpl; auto. Qed.

(** ** C06 *)

Lemma data_arr : forall l, data (VArray l) <-> Forall data l.
Proof.
  intros l. simpl. induction l as [|x l IH]; split; intros H; auto.
  - destruct H. constructor; auto. apply IH; auto.
  - inversion H; subst. split; auto. apply IH; auto.
Qed.
Lemma data_obj : forall l, data (VObject l) <-> NoDup (map fst l) /\ Forall (fun kx => data (snd kx)) l.
Proof.
  intros l. simpl.
  assert ((fix go (l : list (string * value)) : Prop := match l with [] => True | (_, x) :: l => data x /\ go l end) l
    <-> Forall (fun kx => data (snd kx)) l) as H; [|rewrite H; tauto].
  induction l as [|[k x] l IH]; split; intros H; auto.
  - destruct H. constructor; auto. apply IH; auto.
  - inversion H; subst. split; auto. apply IH; auto.
Qed.
Lemma nan_arr : forall l, nan_free (VArray l) <-> Forall nan_free l.
Proof.
  intros l. simpl. induction l as [|x l IH]; split; intros H; auto.
  - destruct H. constructor; auto. apply IH; auto.
  - inversion H; subst. split; auto. apply IH; auto.
Qed.
Lemma nan_obj : forall l, nan_free (VObject l) <-> Forall (fun kx => nan_free (snd kx)) l.
Proof.
  intros l. simpl. induction l as [|[k x] l IH]; split; intros H; auto.
  - destruct H. constructor; auto. apply IH; auto.
  - inversion H; subst. split; auto. apply IH; auto.
Qed.
Lemma same_arr : forall l l', same (VArray l) (VArray l') <-> Forall2 same l l'.
Proof.
  intros l. simpl. induction l as [|x l IH]; intros [|y l']; split; intros H; auto; try contradiction; try (inversion H; fail).
  - destruct H. constructor; auto. apply IH; auto.
  - inversion H; subst. split; auto. apply IH; auto.
Qed.
Lemma same_obj : forall l l', same (VObject l) (VObject l') <->
  (forall k, In k (map fst l) <-> In k (map fst l')) /\
  forall k x, In (k, x) l -> exists y, In (k, y) l' /\ same x y.
Proof.
  intros l l'. simpl.
  assert (forall l, (fix go (l : list (string * value)) : Prop :=
    match l with [] => True | (k, x) :: l => (exists y, In (k, y) l' /\ same x y) /\ go l end) l
    <-> forall k x, In (k, x) l -> exists y, In (k, y) l' /\ same x y) as H; [|rewrite H; tauto].
  clear. induction l as [|[k x] l IH]; split; intros H; auto.
  - intros k x [].
  - destruct H as [H1 H2]. intros k' x' [Q|Q]; [inversion Q; subst; auto|]. eapply IH; eauto.
  - split; [apply H; left; reflexivity|]. apply IH. intros k' x' Q. apply H. right. auto.
Qed.

Lemma assoc_in : forall {A} k (l : list (string * A)) v, assoc k l = Some v -> In (k, v) l.
Proof.
  intros A k l. induction l as [|[k' x] l IH]; intros v H; simpl in H; [discriminate|].
  destruct (String.eqb k' k) eqn:Q; [apply String.eqb_eq in Q; inversion H; subst; left; auto|right; auto].
Qed.
Lemma assoc_nodup : forall {A} k (l : list (string * A)) v, NoDup (map fst l) -> (assoc k l = Some v <-> In (k, v) l).
Proof.
  intros A k l v N. split; [apply assoc_in|]. induction l as [|[k' x] l IH]; intros H; [destruct H|].
  simpl in *. inversion N; subst. destruct H as [H|H].
  - inversion H; subst. rewrite String.eqb_refl. auto.
  - destruct (String.eqb k' k) eqn:Q; [|auto]. apply String.eqb_eq in Q. subst. exfalso. apply H2.
    apply in_map_iff. exists (k, v). auto.
Qed.

Lemma equal_arr : forall l l', is_true (equal (VArray l) (VArray l')) = true <->
  Forall2 (fun x y => is_true (equal x y) = true) l l'.
Proof.
  intros l l'. cbn [equal]. unfold vbool, is_true at 1.
  assert (forall l l', length l = length l' ->
    ((fix go (l1 l2 : list value) : bool :=
               match l1, l2 with
               | x :: l1, y :: l2 => is_true (equal x y) && go l1 l2
               | _, _ => true
               end) l l' = true <-> Forall2 (fun x y => is_true (equal x y) = true) l l')) as HG.
  { clear. induction l as [|x l IH]; intros [|y l'] H; try discriminate; split; intros G; auto.
    - apply andb_prop in G. destruct G. constructor; auto. apply IH; auto.
    - inversion G; subst. apply andb_true_intro. split; auto. apply IH; auto. }
  destruct (Nat.eqb (length l) (length l')) eqn:Q; simpl.
  - apply Nat.eqb_eq in Q. rewrite <- HG by auto. match goal with |- match ?b with _ => _ end = _ <-> _ => destruct b end; tauto.
  - split; [discriminate|]. intros H. apply Forall2_len in H. apply Nat.eqb_neq in Q. contradiction.
Qed.
Lemma equal_obj : forall l l', is_true (equal (VObject l) (VObject l')) = true <->
  length l = length l' /\ Forall (fun kx => exists y, assoc (fst kx) l' = Some y /\ is_true (equal (snd kx) y) = true) l.
Proof.
  intros l l'. cbn [equal]. unfold vbool, is_true at 1.
  assert (forall l,
    (fix go (l : list (string * value)) : bool :=
               match l with
               | [] => true
               | (k, x) :: l => match assoc k l' with Some y => is_true (equal x y) | None => false end && go l
               end) l = true <-> Forall (fun kx => exists y, assoc (fst kx) l' = Some y /\ is_true (equal (snd kx) y) = true) l) as HG.
  { clear. induction l as [|[k x] l IH]; split; intros G; auto.
    - apply andb_prop in G. destruct G as [G1 G2]. constructor; [|apply IH; auto]. simpl.
      destruct (assoc k l') eqn:Q; [eauto|discriminate].
    - inversion G as [|? ? (y & Q1 & Q2) G2]; subst. simpl in *. rewrite Q1, Q2. apply IH; auto. }
  destruct (Nat.eqb (length l) (length l')) eqn:Q; simpl.
  - apply Nat.eqb_eq in Q. rewrite <- HG. match goal with |- match ?b with _ => _ end = _ <-> _ => destruct b end; tauto.
  - split; [discriminate|]. intros [H _]. apply Nat.eqb_neq in Q. contradiction.
Qed.

Lemma Forall2_iff : forall {A B} (P Q : A -> B -> Prop) l l', Forall (fun x => forall y, In y l' -> (P x y <-> Q x y)) l ->
  (Forall2 P l l' <-> Forall2 Q l l').
Proof.
  intros A B P Q l l'. revert l'. induction l as [|x l IH]; intros l' H; split; intros G; inversion G; subst; auto;
    inversion H; subst; constructor.
  - apply H3; auto. left. auto.
  - apply IH; auto. eapply Forall_impl; [|exact H5]. simpl. intros. apply H0. right. auto.
  - apply H3; auto. left. auto.
  - apply IH; auto. eapply Forall_impl; [|exact H5]. simpl. intros. apply H0. right. auto.
Qed.

(** [==] is true exactly on the same data. *)
Theorem C06_equal : forall a b, data a -> data b -> (is_true (equal a b) = true <-> same a b).
Proof.
  induction a using value_ind1; intros b Da Db.
  - destruct b; try (cbn; split; [discriminate|intros []]; fail).
    rewrite equal_arr, same_arr. apply data_arr in Da, Db. apply Forall2_iff.
    rewrite Forall_forall in *. intros x Hx y Hy. apply H; auto.
  - destruct b; try (cbn; split; [discriminate|intros []]; fail).
    rewrite equal_obj, same_obj. apply data_obj in Da, Db. destruct Da as [Na Da], Db as [Nb Db].
    rewrite Forall_forall in H, Da, Db. rewrite Forall_forall. split.
    + intros [HL HF]. assert (forall k x, In (k, x) l -> exists y, In (k, y) l0 /\ same x y) as HS.
      { intros k x Hx. destruct (HF _ Hx) as (y & Q1 & Q2). apply assoc_in in Q1. exists y. split; auto.
        exact (proj1 (H _ Hx y (Da _ Hx) (Db _ Q1)) Q2). }
      split; auto.
      assert (incl (map fst l) (map fst l0)) as I1.
      { intros k Hk. apply in_map_iff in Hk. destruct Hk as ((k' & x) & <- & Hx). destruct (HS _ _ Hx) as (y & Hy & _).
        apply in_map_iff. exists (k', y). auto. }
      intros k. split; [apply I1|]. apply (NoDup_length_incl Na); auto. rewrite !map_length. lia.
    + intros [HK HS]. split.
      * rewrite <- (map_length fst l), <- (map_length fst l0). apply Nat.le_antisymm; apply NoDup_incl_length; auto; intros k Hk; apply HK; auto.
      * intros (k & x) Hx. destruct (HS _ _ Hx) as (y & Hy & Sxy). exists y. split; [apply assoc_nodup; auto|].
        exact (proj2 (H _ Hx y (Da _ Hx) (Db _ Hy)) Sxy).
  - destruct b; try (cbn; split; [discriminate|intros []]; fail). apply IHa; auto.
  - destruct a; try contradiction; destruct b; try (cbn; split; [discriminate|intros []]; fail); cbn.
    + destruct b0, b; cbn; split; congruence.
    + unfold feq. destruct (SFeqb x x0); split; congruence.
    + unfold same_vec, vec_eq. 
      destruct (feq (vx v) (vx v0)), (feq (vy v) (vy v0)), (feq (vz v) (vz v0)), (feq (vw v) (vw v0)); cbn; intuition congruence.
    + destruct (String.eqb s s0) eqn:Q; [apply String.eqb_eq in Q|apply String.eqb_neq in Q]; split; congruence.
    + tauto.
Qed.
Print Assumptions C06_equal.

(** Comparison of numbers. *)
Lemma cmp_sym : forall x y, SFcompare y x = option_map CompOpp (SFcompare x y).
Proof.
  intros x y. unfold SFcompare. destruct x as [[]|[]| |[] m e], y as [[]|[]| |[] m' e']; auto; simpl;
    rewrite (Z.compare_antisym e e'); destruct (Z.compare e e'); simpl; auto;
    fold (Pos.compare m m') (Pos.compare m' m); rewrite (Pos.compare_antisym m m'); destruct (Pos.compare m m'); reflexivity.
Qed.
Lemma feq_sym : forall x y, feq x y = feq y x.
Proof. intros x y. unfold feq, SFeqb. rewrite (cmp_sym x y). destruct (SFcompare x y) as [[]|]; reflexivity. Qed.
Lemma feq_refl : forall x, feq x x = true <-> num_ok x.
Proof.
  intros x. unfold feq, SFeqb, num_ok. destruct x as [[]|[]| |[] m e]; simpl; try tauto; try (split; congruence);
    rewrite Z.compare_refl; fold (Pos.compare m m); rewrite Pos.compare_refl; simpl; tauto.
Qed.
Lemma feq_inv : forall x y, feq x y = true <->
  (num_ok x /\ x = y) \/ (exists s t, x = S754_zero s /\ y = S754_zero t).
Proof.
  intros x y. split.
  - unfold feq, SFeqb, num_ok. destruct x as [s|[]| |[] m e], y as [s'|[]| |[] m' e']; simpl; try discriminate; intros H;
      try (left; auto; fail); try (right; eauto; fail);
      destruct (Z.compare e e') eqn:Q; try discriminate; fold (Pos.compare m m') in H;
      destruct (Pos.compare m m') eqn:R; try discriminate; apply Z.compare_eq in Q; apply Pos.compare_eq in R; subst; left; auto.
  - intros [[N ->]|(s & t & -> & ->)]; [apply feq_refl; auto|reflexivity].
Qed.
Lemma feq_trans : forall x y z, feq x y = true -> feq y z = true -> feq x z = true.
Proof.
  intros x y z. rewrite !feq_inv. intros [[N E1]|(s & t & E1 & E2)] [[M E3]|(s' & t' & E3 & E4)]; subst; auto.
  - right. eauto.
  - right. eauto.
  - right. eauto.
Qed.

Lemma same_sym : forall a b, data a -> data b -> same a b -> same b a.
Proof.
  induction a using value_ind1; intros b Da Db S.
  - destruct b; try contradiction. apply same_arr in S. apply same_arr. apply data_arr in Da, Db.
    induction S; constructor; inversion H; inversion Da; inversion Db; subst; auto.
  - destruct b; try contradiction. apply same_obj in S. apply same_obj. apply data_obj in Da, Db.
    destruct S as [K S], Da as [Na Da], Db as [Nb Db]. split; [intros k; rewrite K; tauto|].
    intros k y Hy. assert (In k (map fst l)) as Hk by (apply K; apply in_map_iff; exists (k, y); auto).
    apply in_map_iff in Hk. destruct Hk as ((k' & x) & Q & Hx). simpl in Q. subst k'. exists x. split; auto.
    destruct (S _ _ Hx) as (y' & Hy' & Sx). assert (y' = y) as ->.
    { apply (assoc_nodup k l0 y' Nb) in Hy'. apply (assoc_nodup k l0 y Nb) in Hy. congruence. }
    rewrite Forall_forall in H, Da, Db. exact (H _ Hx y (Da _ Hx) (Db _ Hy) Sx).
  - destruct b; try contradiction. simpl in *. auto.
  - destruct a; try contradiction; destruct b; try contradiction; simpl in *; auto.
    + rewrite feq_sym. auto.
    + unfold same_vec in *. rewrite (feq_sym (vx v0)), (feq_sym (vy v0)), (feq_sym (vz v0)), (feq_sym (vw v0)). auto.
Qed.
Lemma same_trans : forall a b c, same a b -> same b c -> same a c.
Proof.
  induction a using value_ind1; intros b c S T.
  - destruct b; try contradiction. destruct c; try contradiction. apply same_arr in S, T. apply same_arr.
    revert l1 T. induction S; intros l1 T; inversion T; subst; constructor; inversion H; subst; eauto.
  - destruct b; try contradiction. destruct c; try contradiction. apply same_obj in S, T. apply same_obj.
    destruct S as [K S], T as [K2 T]. split; [intros k; rewrite K; auto|].
    intros k x Hx. destruct (S _ _ Hx) as (y & Hy & Sx). destruct (T _ _ Hy) as (z & Hz & Sy). exists z. split; auto.
    rewrite Forall_forall in H. apply (H _ Hx) with (b := y); auto.
  - destruct b; try contradiction. destruct c; try contradiction. simpl in *. eauto.
  - destruct a; try contradiction; destruct b; try contradiction; destruct c; try contradiction; simpl in *; try congruence; auto.
    + eapply feq_trans; eauto.
    + unfold same_vec in *. intuition (eapply feq_trans; eauto).
Qed.
Lemma same_refl : forall a, data a -> (same a a <-> nan_free a).
Proof.
  induction a using value_ind1; intros Da.
  - rewrite same_arr, nan_arr. apply data_arr in Da. induction l as [|x l IH]; [split; constructor|].
    inversion H; inversion Da; subst. split; intros S; inversion S; subst; constructor; try apply IH; auto; apply H2; auto.
  - rewrite same_obj, nan_obj. apply data_obj in Da. destruct Da as [Na Da]. rewrite Forall_forall in *. split.
    + intros [_ S] (k & x) Hx. destruct (S _ _ Hx) as (y & Hy & Q). assert (y = x) as ->.
      { apply (assoc_nodup k l y Na) in Hy. apply (assoc_nodup k l x Na) in Hx. congruence. }
      exact (proj1 (H _ Hx (Da _ Hx)) Q).
    + intros S. split; [tauto|]. intros k x Hx. exists x. split; auto. exact (proj2 (H _ Hx (Da _ Hx)) (S _ Hx)).
  - simpl in *. auto.
  - destruct a; try contradiction; simpl in *; try tauto.
    + apply feq_refl.
    + unfold same_vec. rewrite !feq_refl. tauto.
Qed.

Theorem C06_symmetric : forall a b, data a -> data b -> is_true (equal a b) = is_true (equal b a).
Proof.
  intros a b Da Db. apply eq_true_iff_eq. rewrite !C06_equal by auto. split; apply same_sym; auto.
Qed.
Print Assumptions C06_symmetric.
Theorem C06_transitive : forall a b c, data a -> data b -> data c ->
  is_true (equal a b) = true -> is_true (equal b c) = true -> is_true (equal a c) = true.
Proof. intros a b c Da Db Dc. rewrite !C06_equal by auto. apply same_trans. Qed.
Print Assumptions C06_transitive.
Theorem C06_reflexive : forall a, data a -> (is_true (equal a a) = true <-> nan_free a).
Proof. intros a Da. rewrite C06_equal by auto. apply same_refl. auto. Qed.
Print Assumptions C06_reflexive.

(** Secrets play no part in whether it succeeds and in the answer. *)
Definition plain_result (r : pres) : pres :=
  match r with POk v => POk (bare v) | r => r end.
Lemma assoc_bare : forall k (l : list (string * value)),
  assoc k (map (fun kx => (fst kx, bare (snd kx))) l) = option_map bare (assoc k l).
Proof. induction l as [|[k' x] l IH]; simpl; auto. destruct (String.eqb k' k); auto. Qed.
Lemma is_true_plain : forall r, is_true (plain_result r) = is_true r.
Proof. intros [v|e|w]; auto. destruct v; auto. Qed.
Theorem C06_secrets : forall a b, plain_result (equal a b) = plain_result (equal (bare a) (bare b)).
Proof.
  induction a using value_ind1; intros b.
  - destruct b; try reflexivity. cbn. rewrite !map_length. do 3 f_equal. revert l0.
    induction l as [|x l IH]; intros [|y l0]; simpl; auto. inversion H; subst.
    rewrite <- (is_true_plain (equal x y)), (H2 y), is_true_plain. f_equal. auto.
  - destruct b; try reflexivity. cbn. rewrite !map_length. do 3 f_equal.
    induction l as [|[k x] l IH]; simpl; auto. inversion H; subst. rewrite assoc_bare. f_equal; [|auto].
    destruct (assoc k l0) as [y|]; simpl; auto. rewrite <- (is_true_plain (equal x y)). simpl in H2. rewrite (H2 y), is_true_plain. auto.
  - destruct b; try reflexivity. simpl. apply IHa.
  - destruct a; try contradiction; destruct b; reflexivity.
Qed.
Print Assumptions C06_secrets.

(** [==] always answers with a boolean or an error; [!=] is its negation, with the same errors. *)
Lemma equal_bool : forall a b, (exists r sec, equal a b = POk (VBool r sec)) \/ exists e, equal a b = PErr e.
Proof.
  induction a using value_ind1; intros b.
  - destruct b; try (right; eexists; reflexivity); left; eexists _, _; reflexivity.
  - destruct b; try (right; eexists; reflexivity); left; eexists _, _; reflexivity.
  - destruct b; try (right; eexists; reflexivity); try (left; eexists _, _; reflexivity). apply IHa.
  - destruct a; try contradiction; destruct b; try (right; eexists; reflexivity); left; eexists _, _; reflexivity.
Qed.
Theorem C06_not_equal : forall a b,
  (exists r sec, equal a b = POk (VBool r sec) /\ not_equal a b = POk (VBool (negb r) sec)) \/
  (exists e, equal a b = PErr e /\ not_equal a b = PErr e).
Proof.
  intros a b. unfold not_equal. destruct (equal_bool a b) as [(r & sec & ->)|(e & ->)]; [left; exists r, sec|right; exists e]; auto.
Qed.
Print Assumptions C06_not_equal.

(** Values of different kinds are an error; so are two values of a kind that has no equality. *)
Theorem C06_kinds : forall a b, (exists e, equal a b = PErr e) <->
  match a, b with
  | VSome x, VSome y => exists e, equal x y = PErr e
  | _, _ => kind_of a <> kind_of b \/ kind_of a = TMat \/ kind_of a = TLink \/ kind_of a = TOther
  end.
Proof.
  intros a b. destruct a, b; cbn; split; intros H; try (destruct H as (e & H); discriminate); try tauto;
    try (right; tauto); try (left; discriminate); try (right; right; right; reflexivity); try (eexists; reflexivity);
    try (destruct H as [H|[H|[H|H]]]; try congruence; try discriminate).
Qed.
Print Assumptions C06_kinds.

(** The error is lost inside arrays and objects: two equal matrices are not comparable, but arrays
    of them are different; even from themselves. *)
Theorem C06_nested_error_refuted : forall m e,
  equal (VMat4 m) (VMat4 m) = e -> is_true e = false /\ equal (VArray [VMat4 m]) (VArray [VMat4 m]) = POk (vbool false).
Proof. intros m e <-. split; reflexivity. Qed.

(** The derived [PartialEq] of the embedding API (lib.rs 323-338) is no equivalence. *)
Theorem C06_api_refuted : veq (VSome (VStr "a")) (VSome (VStr "a")) = false /\
  veq (VVec4 (V4 f0 f0 f0 f0)) (VVec4 (V4 f0 f0 f0 f0)) = false.
Proof. split; reflexivity. Qed.
Example C06_example :
  let a := VObject [("x", VArray [VF64 (S754_zero false) (Some [VStr "s"]); VNone]); ("y", VSome (VStr "q"))] in
  let b := VObject [("y", VSome (VStr "q")); ("x", VArray [VF64 (S754_zero true) None; VNone])] in
  data a /\ data b /\ is_true (equal a b) = true /\ nan_free a.
Proof.
  cbn. repeat split; try (repeat constructor; simpl; intuition discriminate).
Qed.

(** ** C07 *)

Lemma cmp_some : forall x y, num_ok x -> num_ok y -> exists c, SFcompare x y = Some c.
Proof. intros x y. unfold num_ok. destruct x, y; simpl; try discriminate; eexists; reflexivity. Qed.

Theorem C07_numbers : forall x y s t, num_ok x -> num_ok y ->
  let a := VF64 x s in let b := VF64 y t in
  is_true (greater a b) = is_true (less b a) /\
  is_true (greater_or_equal a b) = is_true (less_or_equal b a) /\
  is_true (less_or_equal a b) = is_true (less a b) || is_true (equal a b) /\
  (* exactly one of the three *)
  (is_true (less a b) = true /\ is_true (equal a b) = false /\ is_true (less b a) = false \/
   is_true (less a b) = false /\ is_true (equal a b) = true /\ is_true (less b a) = false \/
   is_true (less a b) = false /\ is_true (equal a b) = false /\ is_true (less b a) = true).
Proof.
  intros x y s t Hx Hy. cbn. unfold flt, fle, feq, SFltb, SFleb, SFeqb.
  rewrite (cmp_sym x y). destruct (cmp_some x y Hx Hy) as (c & ->). destruct c; cbn; intuition.
Qed.
Print Assumptions C07_numbers.
Theorem C07_strings : forall x y,
  let a := VStr x in let b := VStr y in
  is_true (greater a b) = is_true (less b a) /\
  is_true (greater_or_equal a b) = is_true (less_or_equal b a) /\
  is_true (less_or_equal a b) = is_true (less a b) || is_true (equal a b) /\
  (is_true (less a b) = true /\ is_true (equal a b) = false /\ is_true (less b a) = false \/
   is_true (less a b) = false /\ is_true (equal a b) = true /\ is_true (less b a) = false \/
   is_true (less a b) = false /\ is_true (equal a b) = false /\ is_true (less b a) = true).
Proof.
  intros x y. cbn. unfold str_lt, str_le. rewrite (String.compare_antisym y x).
  destruct (String.compare x y) eqn:C; cbn.
  - apply String.compare_eq_iff in C. subst. rewrite String.eqb_refl. cbn. intuition.
  - destruct (String.eqb x y) eqn:Q; [|cbn; intuition]. apply String.eqb_eq in Q. subst.
    pose proof (String.compare_antisym y y) as R. rewrite C in R. discriminate.
  - destruct (String.eqb x y) eqn:Q; [|cbn; intuition]. apply String.eqb_eq in Q. subst.
    pose proof (String.compare_antisym y y) as R. rewrite C in R. discriminate.
Qed.
Print Assumptions C07_strings.
(** [<] is transitive, so with the above a total order on non-NaN numbers up to [==]. *)
Theorem C07_transitive : forall x y z r s t,
  is_true (less (VF64 x r) (VF64 y s)) = true -> is_true (less (VF64 y s) (VF64 z t)) = true ->
  is_true (less (VF64 x r) (VF64 z t)) = true.
Proof.
  intros x y z r s t. cbn. destruct (flt x y) eqn:A; [|discriminate]. destruct (flt y z) eqn:B; [|discriminate].
  rewrite (flt_trans x y z A B). auto.
Qed.
Print Assumptions C07_transitive.
(** With NaN, [<], [<=] and [==] are false... *)
Theorem C07_nan : forall x y s t, (num_ok x -> num_ok y -> False) ->
  let a := VF64 x s in let b := VF64 y t in
  is_true (less a b) = false /\ is_true (less_or_equal a b) = false /\ is_true (equal a b) = false.
Proof.
  intros x y s t H. cbn. unfold flt, fle, feq, SFltb, SFleb, SFeqb.
  assert (SFcompare x y = None) as ->; [|auto].
  unfold num_ok in H. destruct x, y; simpl in *; try reflexivity; exfalso; auto.
Qed.
Print Assumptions C07_nan.
(** ... but [>] and [>=] are their negations and true. *)
Theorem C07_nan_refuted : forall x y s t, (num_ok x -> num_ok y -> False) ->
  is_true (greater (VF64 x s) (VF64 y t)) = true /\ is_true (greater_or_equal (VF64 x s) (VF64 y t)) = true.
Proof.
  intros x y s t H. destruct (C07_nan x y s t H) as (A & B & _). unfold greater, greater_or_equal. cbn in *.
  destruct (flt x y), (fle x y); try discriminate. auto.
Qed.
Print Assumptions C07_nan_refuted.
(** Every other pair of kinds is an error, for all four. *)
Theorem C07_other : forall a b, ~ (kind_of a = TNum /\ kind_of b = TNum) -> ~ (kind_of a = TStr /\ kind_of b = TStr) ->
  exists e, less a b = PErr e /\ less_or_equal a b = PErr e /\ greater a b = PErr e /\ greater_or_equal a b = PErr e.
Proof.
  intros a b H1 H2. destruct a, b; try (eexists; repeat split; reflexivity); exfalso; [apply H1|apply H2]; auto.
Qed.
Print Assumptions C07_other.
Example C07_example : num_ok (f_of_Z 3) /\ num_ok (S754_infinity true) /\
  is_true (greater (vf64 (f_of_Z 3)) (vf64 (S754_infinity true))) = true.
Proof. repeat split. Qed.

(** ** C48 *)

Definition arith (O : math) (op : aop) : value -> value -> pres :=
  match op with AAdd => add | ASub => sub | AMul => mul O | ADiv => div | ARem => rem O | APow => pow O end.
Definition op64 (O : math) (op : aop) : f64 -> f64 -> f64 :=
  match op with AAdd => fadd | ASub => fsub | AMul => fmul | ADiv => fdiv | ARem => o_frem O | APow => o_fpow O end.
Definition op32 (O : math) (op : aop) : f32 -> f32 -> f32 :=
  match op with AAdd => gadd | ASub => gsub | AMul => gmul | ADiv => gdiv | ARem => o_grem O | APow => o_gpow O end.
Definition op_bool (op : aop) (x y : bool) : bool :=
  match op with AAdd => x || y | ASub => x && negb y | AMul => x && y | _ => xorb x y end.

(** Supported pairs succeed with a result of the listed kind, all others are errors; none panics. *)
Theorem C48_table : forall O op a b,
  match supported op (kind_of a) (kind_of b) with
  | Some k => exists r, arith O op a b = POk r /\ kind_of r = k
  | None => exists e, arith O op a b = PErr e
  end.
Proof. intros O op a b. destruct op, a, b; cbn; eauto. Qed.
Print Assumptions C48_table.

Lemma gadd_comm : forall x y, gadd x y = gadd y x.
Proof.
  intros x y. unfold gadd, SFadd. destruct x as [[]|[]| |s m e], y as [[]|[]| |s' m' e']; auto.
  rewrite (Z.min_comm e' e), Z.add_comm. reflexivity.
Qed.
Lemma gmul_comm : forall x y, gmul x y = gmul y x.
Proof.
  intros x y. unfold gmul, SFmul. destruct x as [[]|[]| |[] m e], y as [[]|[]| |[] m' e']; auto; cbn;
    rewrite (Pos.mul_comm m' m), (Z.add_comm e' e); reflexivity.
Qed.
(** Numbers, booleans, strings and links. *)
Theorem C48_values : forall O op a b r, arith O op a b = POk r ->
  match a, b with
  | VF64 x sec, VF64 y _ => r = VF64 (op64 O op x y) sec
  | VBool x sec, VBool y _ => r = VBool (op_bool op x y) sec
  | VStr x, VStr y => r = VStr (x ++ y)
  | VLink x, VLink y => r = VLink (x ++ y)%list
  | _, _ => True
  end.
Proof. intros O op a b r H. destruct op, a, b; cbn in *; auto; inversion H; subst; auto. Qed.
Print Assumptions C48_values.
(** Vectors and matrices: component by component, a number taking part in each; the exception is
    the product with a matrix on the left, which is the matrix product. *)
Theorem C48_components : forall O op a b r, arith O op a b = POk r ->
  kind_of r = TVec \/ kind_of r = TMat ->
  (op = AMul -> kind_of a = TMat -> kind_of b = TNum) ->
  forall i j, exists x y, lane a i j = Some x /\ lane b i j = Some y /\ lane r i j = Some (op32 O op x y).
Proof.
  intros O op a b r H K M i j.
  destruct op, a, b; cbn in H; try discriminate; inversion H; subst; clear H;
    try (destruct K as [K|K]; discriminate); try (specialize (M eq_refl eq_refl); discriminate);
    (eexists; eexists; split; [reflexivity|split; [reflexivity|]]);
    cbn; destruct i as [|[|[|i]]]; cbn; try destruct j as [|[|[|j]]]; cbn; try reflexivity;
    f_equal; try apply gadd_comm; apply gmul_comm.
Qed.
Print Assumptions C48_components.
Theorem C48_matrix : forall O x y z,
  arith O AMul (VMat4 x) (VMat4 y) = POk (VMat4 (o_matmul O x y)) /\
  arith O AMul (VMat4 x) (VVec4 z) = POk (VVec4 (o_mattrans O x z)).
Proof. intros. split; reflexivity. Qed.
(** Negation and [!]. *)
Theorem C48_unary : forall a,
  match kind_of a with
  | TBool => exists b sec, a = VBool b sec /\ not a = POk (VBool (negb b) sec)
  | _ => exists e, not a = PErr e
  end /\
  match kind_of a with
  | TNum => exists x sec, a = VF64 x sec /\ neg a = POk (VF64 (fneg x) sec)
  | TVec | TMat => exists r, neg a = POk r /\ kind_of r = kind_of a /\
      forall i j x, lane a i j = Some x -> lane r i j = Some (fneg x)
  | _ => exists e, neg a = PErr e
  end.
Proof.
  intros a. split; destruct a; cbn; eauto.
  - eexists. split; [reflexivity|split; [reflexivity|]]. intros i j x Q. inversion Q; subst. destruct i as [|[|[|i]]]; reflexivity.
  - eexists. split; [reflexivity|split; [reflexivity|]]. intros i j x Q. inversion Q; subst.
    destruct i as [|[|[|i]]], j as [|[|[|j]]]; reflexivity.
Qed.
Print Assumptions C48_unary.
Example C48_example : exists r, arith (Math (fun a _ => a) (fun a _ => a) (fun a _ => a) (fun a _ => a) (fun a _ => a) (fun _ a => a))
  ASub (VF64 (f_of_Z 5) None) (VVec4 (V4 (g_of_Z 1) (g_of_Z 2) (g_of_Z 3) (g_of_Z 4))) = POk r /\
  lane r 1 0 = Some (g_of_Z 3).
Proof. eexists. split; reflexivity. Qed.

(** ** C46 *)

(** The result of an operator carries the secret of its left operand, if result and operand can
    carry one; results of other kinds have none to carry. *)
Theorem C46_left : forall O op a b r, arith O op a b = POk r -> carries_secret r -> secret_of r = secret_of a.
Proof. intros O op a b r H C. destruct op, a, b; cbn in *; try discriminate; inversion H; subst; cbn in *; auto; contradiction. Qed.
Print Assumptions C46_left.
Theorem C46_compare : forall a b r,
  (less a b = POk r \/ less_or_equal a b = POk r \/ greater a b = POk r \/ greater_or_equal a b = POk r \/
   ((equal a b = POk r \/ not_equal a b = POk r) /\ carries_secret a)) ->
  secret_of r = secret_of a.
Proof.
  intros a b r H. destruct H as [H|[H|[H|[H|[[H|H] C]]]]]; destruct a, b; cbn in *; try discriminate;
    inversion H; subst; cbn; auto; contradiction.
Qed.
Print Assumptions C46_compare.
Theorem C46_unary : forall a r, (not a = POk r \/ neg a = POk r) -> secret_of r = secret_of a.
Proof. intros a r [H|H]; destruct a; cbn in *; try discriminate; inversion H; subst; auto. Qed.
Print Assumptions C46_unary.
(** [opt]s compare with the secret of the value inside. *)
Theorem C46_option : forall x y, equal (VSome x) (VSome y) = equal x y.
Proof. reflexivity. Qed.
