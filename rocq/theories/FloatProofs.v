(** * Facts about the numbers of Float64.v. *)
From Coq Require Import ZArith Bool Lia Floats.SpecFloat.
From Verif Require Import Float64.
Local Open Scope Z_scope.

(** ** Order *)

Inductive SL : f64 -> f64 -> Prop :=
| SL_mi : forall x, fis_nan x = false -> x <> S754_infinity true -> SL (S754_infinity true) x
| SL_pi : forall x, fis_nan x = false -> x <> S754_infinity false -> SL x (S754_infinity false)
| SL_nz : forall m e b, SL (S754_finite true m e) (S754_zero b)
| SL_zp : forall m e b, SL (S754_zero b) (S754_finite false m e)
| SL_np : forall m e m' e', SL (S754_finite true m e) (S754_finite false m' e')
| SL_pp : forall m e m' e', e < e' \/ (e = e' /\ Z.pos m < Z.pos m') -> SL (S754_finite false m e) (S754_finite false m' e')
| SL_nn : forall m e m' e', e' < e \/ (e = e' /\ Z.pos m' < Z.pos m) -> SL (S754_finite true m e) (S754_finite true m' e').

Lemma flt_iff : forall a b, flt a b = true <-> SL a b.
Proof.
  intros a b. unfold flt, SFltb. split.
  - destruct a as [sa|sa| |sa ma ea], b as [sb|sb| |sb mb eb]; simpl; try discriminate;
      try destruct sa; try destruct sb; simpl; try discriminate; intros H;
      try (constructor; simpl; auto; discriminate).
    + apply SL_nn. destruct (ea ?= eb) eqn:C; try discriminate.
      * apply Z.compare_eq in C. right. split; auto. change (Pos.compare_cont Eq ma mb) with (ma ?= mb)%positive in H.
        destruct (ma ?= mb)%positive eqn:D; try discriminate. apply Pos.compare_gt_iff in D. lia.
      * apply Z.compare_gt_iff in C. lia.
    + apply SL_pp. destruct (ea ?= eb) eqn:C; try discriminate.
      * apply Z.compare_eq in C. right. split; auto. change (Pos.compare_cont Eq ma mb) with (ma ?= mb)%positive in H.
        destruct (ma ?= mb)%positive eqn:D; try discriminate. apply (proj1 (Pos.compare_lt_iff _ _)) in D. lia.
      * apply (proj1 (Z.compare_lt_iff _ _)) in C. lia.
  - intros H. destruct H; simpl; auto.
    + destruct x as [s|[|]| |s m e]; simpl in *; try discriminate; try congruence; auto. 
    + destruct x as [s|[|]| |[|] m e]; simpl in *; try discriminate; try congruence; auto.
    + destruct H as [H|[-> H]]; [apply Z.compare_lt_iff in H; rewrite H; auto|].
      rewrite Z.compare_refl. change (Pos.compare_cont Eq m m') with (m ?= m')%positive.
      assert (m ?= m' = Lt)%positive as -> by (apply Pos.compare_lt_iff; lia). auto.
    + destruct H as [H|[-> H]]; [apply Z.compare_gt_iff in H; rewrite H; auto|].
      rewrite Z.compare_refl. change (Pos.compare_cont Eq m m') with (m ?= m')%positive.
      assert (m ?= m' = Gt)%positive as -> by (apply Pos.compare_gt_iff; lia). auto.
Qed.
Lemma flt_irrefl : forall a, flt a a = false.
Proof.
  intros a. destruct (flt a a) eqn:H; auto. apply flt_iff in H. inversion H; subst; try congruence; lia.
Qed.
Lemma flt_nan_l : forall a b, flt a b = true -> fis_nan a = false.
Proof. intros a b H. apply flt_iff in H. inversion H; subst; auto. Qed.
Lemma flt_nan_r : forall a b, flt a b = true -> fis_nan b = false.
Proof. intros a b H. apply flt_iff in H. inversion H; subst; auto. Qed.
Lemma SL_trans : forall a b c, SL a b -> SL b c -> SL a c.
Proof.
  intros a b c H1 H2. inversion H1; subst; inversion H2; subst; try congruence;
    try (constructor; auto; try discriminate; lia).
Qed.
Lemma SL_cmp : forall a b c, SL a b -> fis_nan c = false -> SL a c \/ SL c b.
Proof.
  intros a b c H Hc. destruct c as [sc|[|]| |[|] mc ec]; try discriminate; inversion H; subst;
    try (left; constructor; auto; discriminate); try (right; constructor; auto; discriminate).
  all: try (destruct x as [s|[|]| |[|] mx ex]; try discriminate; try congruence; 
    try (left; constructor; auto; discriminate); try (right; constructor; auto; discriminate)).
  all: try (destruct (Z.lt_total e ec) as [|[|]]; [| subst; destruct (Z.lt_total (Z.pos m) (Z.pos mc)) as [|[|]] |];
    ((left; constructor; lia) || (right; constructor; lia))).
Qed.
Lemma flt_trans : forall a b c, flt a b = true -> flt b c = true -> flt a c = true.
Proof. intros a b c H1 H2. apply flt_iff in H1, H2. apply flt_iff. eapply SL_trans; eauto. Qed.
Lemma flt_cmp : forall a b c, flt a b = true -> fis_nan c = false -> flt a c = true \/ flt c b = true.
Proof. intros a b c H1 H2. apply flt_iff in H1. rewrite !flt_iff. apply SL_cmp; auto. Qed.

(** ** Exact results: a value that has a representation is not rounded. *)
Section Exact.
Context (prec emax : Z) (Hp : 0 < prec) (Hpe : prec < emax).

Lemma digits_spec : forall p, 2 ^ (Z.pos (digits2_pos p) - 1) <= Z.pos p < 2 ^ Z.pos (digits2_pos p).
Proof.
  induction p as [p IH|p IH|]; [| |simpl; lia]; cbn [digits2_pos].
  - rewrite Pos2Z.inj_succ. replace (Z.succ (Z.pos (digits2_pos p)) - 1) with (Z.succ (Z.pos (digits2_pos p) - 1)) by lia.
    rewrite !Z.pow_succ_r by lia. lia.
  - rewrite Pos2Z.inj_succ. replace (Z.succ (Z.pos (digits2_pos p)) - 1) with (Z.succ (Z.pos (digits2_pos p) - 1)) by lia.
    rewrite !Z.pow_succ_r by lia. lia.
Qed.
Lemma pow_lt_inv : forall a b, 0 <= a -> 0 <= b -> 2 ^ a < 2 ^ b -> a < b.
Proof. intros. apply (Z.pow_lt_mono_r_iff 2); lia. Qed.
Lemma digits_unique : forall p d, 2 ^ (d - 1) <= Z.pos p < 2 ^ d -> 0 < d -> Z.pos (digits2_pos p) = d.
Proof.
  intros p d [H1 H2] H. pose proof (digits_spec p) as [H3 H4].
  pose proof (Pos2Z.is_pos (digits2_pos p)).
  assert (Z.pos (digits2_pos p) - 1 < d) by (apply pow_lt_inv; lia).
  assert (d - 1 < Z.pos (digits2_pos p)) by (apply pow_lt_inv; lia).
  lia.
Qed.
Lemma shr_iter : forall n m, iter_pos shr_1 n (Build_shr_record (m * 2 ^ Z.pos n) false false) = Build_shr_record m false false.
Proof.
  assert (forall m, shr_1 (Build_shr_record (m * 2) false false) = Build_shr_record m false false) as H1.
  { intros [|m|m]; auto; simpl; rewrite Pos.mul_comm; reflexivity. }
  induction n as [n IH|n IH|]; intros m; cbn [iter_pos].
  - replace (m * 2 ^ Z.pos n~1) with (m * 2 ^ Z.pos n * 2 ^ Z.pos n * 2).
    2: { replace (Z.pos n~1) with (Z.pos n + Z.pos n + 1) by lia. rewrite (Z.pow_add_r 2 (Z.pos n + Z.pos n)), (Z.pow_add_r 2 (Z.pos n)) by lia. lia. }
    rewrite H1, IH, IH. reflexivity.
  - replace (m * 2 ^ Z.pos n~0) with (m * 2 ^ Z.pos n * 2 ^ Z.pos n).
    2: { replace (Z.pos n~0) with (Z.pos n + Z.pos n) by lia. rewrite (Z.pow_add_r 2 (Z.pos n)) by lia. lia. }
    rewrite IH, IH. reflexivity.
  - apply H1.
Qed.

(** [q * 2^e] is a normalised number. *)
Definition norm (q : positive) (e : Z) : Prop :=
  Z.pos (digits2_pos q) = prec /\ emin prec emax <= e <= emax - prec.

Lemma shr_fexp_exact : forall q e j, 0 <= j -> norm q (e + j) ->
  shr_fexp prec emax (Z.pos q * 2 ^ j) e loc_Exact = (Build_shr_record (Z.pos q) false false, e + j).
Proof.
  intros q e j Hj [Hd He]. unfold shr_fexp. cbn [shr_record_of_loc].
  assert (Zdigits2 (Z.pos q * 2 ^ j) = prec + j) as ->.
  { pose proof (digits_spec q) as [H1 H2]. rewrite Hd in *.
    assert (0 < 2 ^ j) by lia.
    destruct (Z.pos q * 2 ^ j) as [|p|p] eqn:Hq; try lia. simpl. apply digits_unique; [|lia].
    rewrite <- Hq. replace (prec + j - 1) with (prec - 1 + j) by lia. rewrite !Z.pow_add_r by lia. nia. }
  unfold fexp. replace (Z.max (prec + j + e - prec) (emin prec emax) - e) with j by lia.
  unfold shr. destruct j as [|j|j]; try lia.
  - f_equal; [f_equal|]; lia.
  - rewrite shr_iter. reflexivity.
Qed.
Lemma round_aux_exact : forall s q e j, 0 <= j -> norm q (e + j) ->
  binary_round_aux prec emax s (Z.pos q * 2 ^ j) e loc_Exact = S754_finite s q (e + j).
Proof.
  intros s q e j Hj H. unfold binary_round_aux. rewrite shr_fexp_exact; auto. simpl.
  pose proof (shr_fexp_exact q (e + j) 0 ltac:(lia)) as H2. rewrite Z.pow_0_r, Z.mul_1_r, Z.add_0_r in H2.
  rewrite H2; auto. simpl. destruct H as [_ H]. destruct (Z.leb_spec (e + j) (emax - prec)); auto; lia.
Qed.
Lemma shift_pos_spec : forall n m, Z.pos (shift_pos n m) = Z.pos m * 2 ^ Z.pos n.
Proof.
  intros n m. unfold shift_pos. rewrite Z.mul_comm. 
  revert m. induction n as [|n IH] using Pos.peano_ind; intros m.
  - simpl. lia.
  - rewrite Pos.iter_succ. rewrite Pos2Z.inj_succ, Z.pow_succ_r by lia. 
    rewrite Pos2Z.inj_xO. rewrite IH. lia.
Qed.
Lemma round_exact : forall s p k q ex, norm q ex ->
  (exists j, 0 <= j /\ (Z.pos p = Z.pos q * 2 ^ j /\ k + j = ex \/ Z.pos p * 2 ^ j = Z.pos q /\ k - j = ex)) ->
  binary_round prec emax s p k = S754_finite s q ex.
Proof.
  intros s p k q ex Hn (j & Hj & H). pose proof Hn as [Hd He]. unfold binary_round.
  destruct H as [[Hp1 Hk]|[Hp1 Hk]].
  - assert (Z.pos (digits2_pos p) = prec + j) as Hdp.
    { pose proof (digits_spec q) as [H1 H2]. rewrite Hd in *. assert (0 < 2 ^ j) by lia.
      apply digits_unique; [|lia]. rewrite Hp1. replace (prec + j - 1) with (prec - 1 + j) by lia.
      rewrite !Z.pow_add_r by lia. nia. }
    unfold shl_align, fexp. replace (Z.max (Z.pos (digits2_pos p) + k - prec) (emin prec emax) - k) with j by lia.
    assert (match j with Z.neg d => (shift_pos d p, Z.max (Z.pos (digits2_pos p) + k - prec) (emin prec emax)) | _ => (p, k) end = (p, k)) as ->
      by (destruct j; auto; lia).
    rewrite Hp1, round_aux_exact; auto; [f_equal; lia|]. rewrite Hk. auto.
  - assert (Z.pos (digits2_pos p) = prec - j) as Hdp.
    { pose proof (digits_spec q) as [H1 H2]. rewrite Hd in *. rewrite <- Hp1 in H1, H2.
      assert (j < prec) by (apply pow_lt_inv; [lia|lia|]; nia).
      replace prec with (prec - j + j) in H1, H2 at 1 by lia.
      replace (prec - j + j - 1) with (prec - j - 1 + j) in H1 by lia.
      rewrite Z.pow_add_r in H1, H2 by lia.
      assert (0 < 2 ^ j) by lia. apply digits_unique; [|lia]. split; nia. }
    unfold shl_align, fexp. replace (Z.max (Z.pos (digits2_pos p) + k - prec) (emin prec emax)) with ex by lia.
    replace (ex - k) with (- j) by lia. destruct j as [|j|j]; simpl; try lia.
    + rewrite Z.pow_0_r, Z.mul_1_r in Hp1. inversion Hp1; subst p.
      pose proof (round_aux_exact s q k 0 ltac:(lia)) as H2. rewrite Z.pow_0_r, Z.mul_1_r, Z.add_0_r in H2.
      rewrite H2; [f_equal; lia|]. replace k with ex by lia. auto.
    + rewrite shift_pos_spec, Hp1.
      pose proof (round_aux_exact s q ex 0 ltac:(lia)) as H2. rewrite Z.pow_0_r, Z.mul_1_r, Z.add_0_r in H2. auto.
Qed.

(** ** Integers *)
Context (Hm : emin prec emax <= 1 - prec) (Hmx : 2 <= emax - prec).

(** The representation of a positive integer up to [2^prec]. *)
Lemma int_norm : forall p, Z.pos p <= 2 ^ prec -> exists q ex, norm q ex /\
  (exists j, 0 <= j /\ (Z.pos p = Z.pos q * 2 ^ j /\ j = ex \/ Z.pos p * 2 ^ j = Z.pos q /\ - j = ex)).
Proof.
  intros p H. pose proof (digits_spec p) as [H1 H2]. set (d := Z.pos (digits2_pos p)) in *.
  assert (0 < d) by (unfold d; lia).
  destruct (Z.le_gt_cases d prec) as [L|L].
  - exists (Z.to_pos (Z.pos p * 2 ^ (prec - d))), (d - prec). 
    assert (0 < 2 ^ (prec - d)) by (apply Z.pow_pos_nonneg; lia).
    split; [split; [|lia]|].
    + apply digits_unique; [|lia]. rewrite Z2Pos.id by lia.
      assert (2 ^ prec = 2 ^ d * 2 ^ (prec - d)) as -> by (rewrite <- Z.pow_add_r by lia; f_equal; lia).
      assert (2 ^ (prec - 1) = 2 ^ (d - 1) * 2 ^ (prec - d)) as -> by (rewrite <- Z.pow_add_r by lia; f_equal; lia).
      nia.
    + exists (prec - d). split; [lia|]. right. rewrite Z2Pos.id by lia. split; auto. lia.
  - assert (prec <= d - 1) by lia.
    assert (2 ^ prec <= 2 ^ (d - 1)) by (apply Z.pow_le_mono_r; lia).
    assert (Z.pos p = 2 ^ prec) as Ep by lia.
    exists (Z.to_pos (2 ^ (prec - 1))), 1. assert (0 < 2 ^ (prec - 1)) by (apply Z.pow_pos_nonneg; lia).
    assert (2 ^ prec = 2 * 2 ^ (prec - 1)) as E2.
    { replace prec with (Z.succ (prec - 1)) at 1 by lia. rewrite Z.pow_succ_r by lia. auto. }
    split; [split; [|lia]|].
    + apply digits_unique; [|lia]. rewrite Z2Pos.id by lia. lia.
    + exists 1. split; [lia|]. left. rewrite Z2Pos.id by lia. split; auto. lia.
Qed.

Definition of_Z (z : Z) : spec_float := binary_normalize prec emax z 0 false.
(** Any way of writing an integer as [m * 2^k] normalises to the same number. *)
Lemma round_int : forall s p m k, Z.pos p <= 2 ^ prec -> 0 <= k -> Z.pos m = Z.pos p * 2 ^ k ->
  binary_round prec emax s m (- k) = binary_round prec emax s p 0.
Proof.
  intros s p m k Hb Hk He. destruct (int_norm p Hb) as (q & ex & Hn & j & Hj & H).
  rewrite (round_exact s p 0 q ex); auto.
  2: { exists j. split; [assumption|]. destruct H as [[H1 H2]|[H1 H2]]; [left|right]; split; auto. }
  apply round_exact; auto. destruct H as [[H1 H2]|[H1 H2]].
  - exists (j + k). split; [lia|]. left. split; [|lia]. rewrite He, H1, Z.pow_add_r by lia. lia.
  - destruct (Z.le_gt_cases k j) as [L|L].
    + exists (j - k). split; [lia|]. right. split; [|lia]. rewrite He, <- H1.
      replace j with (k + (j - k)) at 2 by lia. rewrite Z.pow_add_r by lia. lia.
    + exists (k - j). split; [lia|]. left. split; [|lia]. rewrite He, <- H1.
      replace k with (j + (k - j)) at 1 by lia. rewrite Z.pow_add_r by lia. lia.
Qed.
Lemma normalize_int : forall z k, - 2 ^ prec <= z <= 2 ^ prec -> 0 <= k ->
  binary_normalize prec emax (z * 2 ^ k) (- k) false = of_Z z.
Proof.
  intros z k Hz Hk. assert (0 < 2 ^ k) by lia. unfold of_Z, binary_normalize. destruct z as [|p|p].
  - reflexivity.
  - destruct (Z.pos p * 2 ^ k) as [|m|m] eqn:E; try lia. apply round_int; auto; lia.
  - destruct (Z.neg p * 2 ^ k) as [|m|m] eqn:E; try lia. apply round_int; auto; lia.
Qed.

(** Every non-zero integer up to [2^prec] is [m * 2^e] with [m] of full length. *)
Lemma of_Z_repr : forall z, - 2 ^ prec <= z <= 2 ^ prec ->
  (z = 0 /\ of_Z z = S754_zero false) \/
  (exists q ex, z <> 0 /\ of_Z z = S754_finite (z <? 0) q ex /\ norm q ex /\
    (0 <= ex /\ Z.abs z = Z.pos q * 2 ^ ex \/ ex < 0 /\ Z.abs z * 2 ^ (- ex) = Z.pos q)).
Proof.
  intros z Hz. destruct z as [|p|p]; [left; auto| |]; right.
  - destruct (int_norm p ltac:(lia)) as (q & ex & Hn & j & Hj & H). exists q, ex. split; [lia|]. split; [|split; auto].
    + simpl. apply round_exact; auto. exists j. split; [assumption|]. destruct H as [[H1 H2]|[H1 H2]]; [left|right]; split; auto.
    + simpl Z.abs. destruct H as [[H1 H2]|[H1 H2]]; [left; subst; auto|]. subst ex.
      destruct (Z.eq_dec j 0); [left; subst; rewrite Z.pow_0_r in *; simpl; lia|right]. rewrite Z.opp_involutive. split; lia.
  - destruct (int_norm p ltac:(lia)) as (q & ex & Hn & j & Hj & H). exists q, ex. split; [lia|]. split; [|split; auto].
    + simpl. apply round_exact; auto. exists j. split; [assumption|]. destruct H as [[H1 H2]|[H1 H2]]; [left|right]; split; auto.
    + simpl Z.abs. destruct H as [[H1 H2]|[H1 H2]]; [left; subst; auto|]. subst ex.
      destruct (Z.eq_dec j 0); [left; subst; rewrite Z.pow_0_r in *; simpl; lia|right]. rewrite Z.opp_involutive. split; lia.
Qed.

(** Aligning an integer to an exponent [- k]. *)
Lemma align_int : forall z q ex k, z <> 0 -> 0 <= k -> - k <= ex ->
  (0 <= ex /\ Z.abs z = Z.pos q * 2 ^ ex \/ ex < 0 /\ Z.abs z * 2 ^ (- ex) = Z.pos q) ->
  cond_Zopp (z <? 0) (Z.pos (fst (shl_align q ex (- k)))) = z * 2 ^ k.
Proof.
  intros z q ex k Hz Hk Hl H.
  assert (Z.pos (fst (shl_align q ex (- k))) = Z.abs z * 2 ^ k) as E.
  { assert (Z.pos (fst (shl_align q ex (- k))) = Z.pos q * 2 ^ (ex + k)) as ->.
    { unfold shl_align. destruct (- k - ex) as [|d|d] eqn:D; try lia.
      - simpl. replace (ex + k) with 0 by lia. rewrite Z.pow_0_r. lia.
      - cbn [fst]. rewrite shift_pos_spec. f_equal; f_equal; lia. }
    destruct H as [[H1 H2]|[H1 H2]].
    - rewrite H2, Z.pow_add_r by lia. lia.
    - rewrite <- H2. replace k with (- ex + (ex + k)) at 2 by lia. rewrite (Z.pow_add_r 2 (- ex)) by lia. lia. }
  rewrite E. unfold cond_Zopp. destruct (Z.ltb_spec z 0); lia.
Qed.

Lemma add_int : forall x y, - 2 ^ prec <= x <= 2 ^ prec -> - 2 ^ prec <= y <= 2 ^ prec ->
  - 2 ^ prec <= x + y <= 2 ^ prec -> SFadd prec emax (of_Z x) (of_Z y) = of_Z (x + y).
Proof.
  intros x y Hx Hy Hs.
  destruct (of_Z_repr x Hx) as [[-> ->]|(q & ex & Nx & -> & Hq & Ex)];
  destruct (of_Z_repr y Hy) as [[-> Ey0]|(r & ey & Ny & Ey0 & Hr & Ey)]; rewrite Ey0.
  - reflexivity.
  - simpl. rewrite <- Ey0. reflexivity.
  - simpl. rewrite Z.add_0_r. destruct (of_Z_repr x Hx) as [[-> _]|(q' & ex' & _ & E' & Hq' & Ex')]; [congruence|].
    rewrite E'. destruct Hq as [Dq _], Hq' as [Dq' _].
    (* same integer, same length: same representation *)
    pose proof (digits_spec q) as [A1 A2]. pose proof (digits_spec q') as [B1 B2]. rewrite Dq, Dq' in *.
    assert (ex = ex' /\ q = q') as [-> ->]; [|reflexivity].
    assert (forall u v eu ev, 0 < Z.abs x -> 
       2 ^ (prec - 1) <= Z.pos u < 2 ^ prec -> 2 ^ (prec - 1) <= Z.pos v < 2 ^ prec ->
       (0 <= eu /\ Z.abs x = Z.pos u * 2 ^ eu \/ eu < 0 /\ Z.abs x * 2 ^ (- eu) = Z.pos u) ->
       (0 <= ev /\ Z.abs x = Z.pos v * 2 ^ ev \/ ev < 0 /\ Z.abs x * 2 ^ (- ev) = Z.pos v) -> eu <= ev) as HH.
    { clear -Hp. intros u v eu ev Hx Hu Hv Eu Ev. destruct (Z.le_gt_cases eu ev) as [|L]; auto. exfalso.
      assert (2 ^ prec = 2 * 2 ^ (prec - 1)) as E2.
      { replace prec with (Z.succ (prec - 1)) at 1 by lia. rewrite Z.pow_succ_r by lia. auto. }
      assert (Z.pos v = Z.pos u * 2 ^ (eu - ev)) as E.
      { destruct Eu as [[L1 E1]|[L1 E1]], Ev as [[L3 E3]|[L3 E3]].
        - rewrite E1 in E3. replace eu with (eu - ev + ev) in E3 by lia. rewrite Z.pow_add_r in E3 by lia.
          assert (0 < 2 ^ ev) by lia. nia.
        - rewrite E1 in E3. rewrite <- Z.mul_assoc, <- Z.pow_add_r in E3 by lia. rewrite <- E3. f_equal; f_equal; lia.
        - lia.
        - rewrite <- E1, <- E3. replace (- ev) with (- eu + (eu - ev)) by lia. rewrite Z.pow_add_r by lia. lia. }
      assert (2 * 2 ^ (eu - ev - 1) = 2 ^ (eu - ev)) as E3.
      { replace (eu - ev) with (Z.succ (eu - ev - 1)) at 2 by lia. rewrite Z.pow_succ_r by lia. auto. }
      assert (0 < 2 ^ (eu - ev - 1)) by (apply Z.pow_pos_nonneg; lia). nia. }
    assert (ex = ex').
    { apply Z.le_antisymm; [apply (HH q q' ex ex')|apply (HH q' q ex' ex)]; auto; lia. }
    subst. split; auto. destruct Ex as [[L1 E1]|[L1 E1]], Ex' as [[L3 E3]|[L3 E3]]; try lia.
    assert (0 < 2 ^ ex') by lia. assert (Z.pos q = Z.pos q') by nia. congruence.
  - cbn [SFadd]. set (k := - Z.min (Z.min ex ey) 0).
    destruct (Z.le_gt_cases (Z.min ex ey) 0) as [L|L].
    + replace (Z.min ex ey) with (- k) by lia. rewrite !align_int by (auto; lia).
      rewrite <- Z.mul_add_distr_r. apply normalize_int; auto. lia.
    + (* both exponents positive: still integers, align to 0 through a larger exponent *)
      assert (forall z m e, 0 <= e -> z = m * 2 ^ e -> - 2 ^ prec <= z <= 2 ^ prec ->
        binary_normalize prec emax m e false = of_Z z) as HN.
      { clear -Hp Hpe Hm Hmx. intros z m e He Hz Hb. subst z. unfold of_Z, binary_normalize.
        assert (0 < 2 ^ e) by lia. destruct m as [|m|m].
        - reflexivity.
        - destruct (Z.pos m * 2 ^ e) as [|p|p] eqn:E; try lia.
          destruct (int_norm p ltac:(lia)) as (q & ex & Hn & j & Hj & HH).
          rewrite (round_exact false p 0 q ex); auto.
          2: { exists j. split; [assumption|]. destruct HH as [[H1 H2]|[H1 H2]]; [left|right]; split; auto. }
          apply round_exact; auto. destruct HH as [[H1 H2]|[H1 H2]].
          + destruct (Z.le_gt_cases e j).
            * exists (j - e). split; [lia|]. left. split; [|lia]. rewrite H1 in E.
              replace j with (j - e + e) in E by lia. rewrite Z.pow_add_r in E by lia. nia.
            * exists (e - j). split; [lia|]. right. split; [|lia]. rewrite H1 in E.
              replace e with (e - j + j) in E at 1 by lia. rewrite Z.pow_add_r in E by lia. assert (0 < 2 ^ j) by lia. nia.
          + exists (j + e). split; [lia|]. right. split; [|lia]. rewrite <- H1, <- E, Z.pow_add_r by lia. lia.
        - destruct (Z.neg m * 2 ^ e) as [|p|p] eqn:E; try lia.
          assert (Z.pos m * 2 ^ e = Z.pos p) as E' by lia. clear E. rename E' into E.
          destruct (int_norm p ltac:(lia)) as (q & ex & Hn & j & Hj & HH).
          rewrite (round_exact true p 0 q ex); auto.
          2: { exists j. split; [assumption|]. destruct HH as [[H1 H2]|[H1 H2]]; [left|right]; split; auto. }
          apply round_exact; auto. destruct HH as [[H1 H2]|[H1 H2]].
          + destruct (Z.le_gt_cases e j).
            * exists (j - e). split; [lia|]. left. split; [|lia]. rewrite H1 in E.
              replace j with (j - e + e) in E by lia. rewrite Z.pow_add_r in E by lia. nia.
            * exists (e - j). split; [lia|]. right. split; [|lia]. rewrite H1 in E.
              replace e with (e - j + j) in E at 1 by lia. rewrite Z.pow_add_r in E by lia. assert (0 < 2 ^ j) by lia. nia.
          + exists (j + e). split; [lia|]. right. split; [|lia]. rewrite <- H1, <- E, Z.pow_add_r by lia. lia. }
      destruct Ex as [[L1 E1]|[L1 E1]]; [|lia]. destruct Ey as [[L2 E2]|[L2 E2]]; [|lia].
      apply HN; auto; [lia|].
      assert (forall z u eu m, 0 <= m -> m <= eu -> Z.abs z = Z.pos u * 2 ^ eu ->
        z = cond_Zopp (z <? 0) (Z.pos (fst (shl_align u eu m))) * 2 ^ m) as HA.
      { clear. intros z u eu m Hm Hl E.
        assert (Z.pos (fst (shl_align u eu m)) = Z.pos u * 2 ^ (eu - m)) as ->.
        { unfold shl_align. destruct (m - eu) as [|d|d] eqn:D; try lia.
          - simpl. replace (eu - m) with 0 by lia. rewrite Z.pow_0_r. lia.
          - cbn [fst]. rewrite shift_pos_spec. f_equal; f_equal; lia. }
        assert (Z.abs z = Z.pos u * 2 ^ (eu - m) * 2 ^ m).
        { rewrite E, <- Z.mul_assoc, <- Z.pow_add_r by lia. f_equal; f_equal; lia. }
        unfold cond_Zopp. destruct (Z.ltb_spec z 0); lia. }
      rewrite Z.mul_add_distr_r. f_equal; apply HA; auto; lia.
Qed.
End Exact.

Definition small_int (z : Z) : Prop := - 2 ^ 53 <= z <= 2 ^ 53.
Lemma fadd_int : forall x y, small_int x -> small_int y -> small_int (x + y) ->
  fadd (f_of_Z x) (f_of_Z y) = f_of_Z (x + y).
Proof. intros. apply (add_int 53 1024); auto; try reflexivity; unfold emin; lia. Qed.

Lemma repr_lt : forall prec u v a b eu ev, 0 < prec -> 0 < a -> 0 < b ->
  2 ^ (prec - 1) <= Z.pos u < 2 ^ prec -> 2 ^ (prec - 1) <= Z.pos v < 2 ^ prec ->
  (0 <= eu /\ a = Z.pos u * 2 ^ eu \/ eu < 0 /\ a * 2 ^ (- eu) = Z.pos u) ->
  (0 <= ev /\ b = Z.pos v * 2 ^ ev \/ ev < 0 /\ b * 2 ^ (- ev) = Z.pos v) ->
  (eu < ev \/ eu = ev /\ Z.pos u < Z.pos v) -> a < b.
Proof.
  intros prec u v a b eu ev Hp Ha Hb Hu Hv Eu Ev H.
  assert (2 ^ prec = 2 * 2 ^ (prec - 1)) as E2.
  { replace prec with (Z.succ (prec - 1)) at 1 by lia. rewrite Z.pow_succ_r by lia. auto. }
  (* scale both by 2^k *)
  set (k := Z.max 0 (Z.max (- eu) (- ev))).
  assert (forall w c ew, ew = eu \/ ew = ev -> (0 <= ew /\ c = Z.pos w * 2 ^ ew \/ ew < 0 /\ c * 2 ^ (- ew) = Z.pos w) ->
    c * 2 ^ k = Z.pos w * 2 ^ (ew + k)) as SC.
  { intros w c ew Hw [[L E]|[L E]].
    - rewrite E, Z.pow_add_r by lia. lia.
    - rewrite <- E. replace k with (- ew + (ew + k)) at 1 by lia. rewrite Z.pow_add_r by lia. lia. }
  pose proof (SC u a eu ltac:(auto) Eu) as A. pose proof (SC v b ev ltac:(auto) Ev) as B.
  assert (0 < 2 ^ k) by lia.
  assert (a * 2 ^ k < b * 2 ^ k); [|nia]. rewrite A, B.
  destruct H as [H|[-> H]].
  - replace (ev + k) with (eu + k + (ev - eu - 1) + 1) by lia.
    rewrite (Z.pow_add_r 2 (eu + k + (ev - eu - 1))), (Z.pow_add_r 2 (eu + k)) by lia.
    assert (0 < 2 ^ (eu + k)) by lia. assert (0 < 2 ^ (ev - eu - 1)) by (apply Z.pow_pos_nonneg; lia).
    change (2 ^ 1) with 2. set (X := 2 ^ (eu + k)) in *. set (Y := 2 ^ (ev - eu - 1)) in *.
    apply Z.lt_le_trans with (2 * Z.pos v * X); [apply Z.mul_lt_mono_pos_r; lia|].
    replace (Z.pos v * (X * Y * 2)) with (2 * Z.pos v * X * Y) by ring. nia.
  - assert (0 < 2 ^ (ev + k)) by lia. nia.
Qed.
Lemma of_Z_repr64 : forall z, small_int z ->
  (z = 0 /\ f_of_Z z = S754_zero false) \/
  (exists q ex, z <> 0 /\ f_of_Z z = S754_finite (z <? 0) q ex /\ 2 ^ (53 - 1) <= Z.pos q < 2 ^ 53 /\
    (0 <= ex /\ Z.abs z = Z.pos q * 2 ^ ex \/ ex < 0 /\ Z.abs z * 2 ^ (- ex) = Z.pos q)).
Proof.
  intros z Hz.
  destruct (of_Z_repr 53 1024 eq_refl eq_refl ltac:(unfold emin; lia) ltac:(lia) z Hz) as [H|(q & ex & H1 & H2 & [H3 _] & H4)]; [left; exact H|].
  right. exists q, ex. split; auto. split; auto. split; auto. pose proof (digits_spec q) as D. rewrite H3 in D. exact D.
Qed.
Lemma flt_int : forall x y, small_int x -> small_int y -> flt (f_of_Z x) (f_of_Z y) = (x <? y).
Proof.
  intros x y Hx Hy. apply eq_true_iff_eq. rewrite flt_iff, Z.ltb_lt. 
  assert (forall x y, small_int x -> small_int y -> SL (f_of_Z x) (f_of_Z y) -> x < y) as HH.
  { clear. intros x y Hx Hy H.
    destruct (of_Z_repr64 x Hx) as [[-> E0]|(q & ex & Nx & E0 & Hq & Ex)];
    destruct (of_Z_repr64 y Hy) as [[-> E1]|(r & ey & Ny & E1 & Hr & Ey)]; rewrite ?E0, ?E1 in H.
    - inversion H.
    - destruct (Z.ltb_spec y 0); inversion H; lia.
    - destruct (Z.ltb_spec x 0); inversion H; lia.
    - destruct (Z.ltb_spec x 0), (Z.ltb_spec y 0); inversion H; subst; try lia.
      + enough (Z.abs y < Z.abs x) by lia. apply (repr_lt 53 r q _ _ ey ex); auto; lia.
      + enough (Z.abs x < Z.abs y) by lia. apply (repr_lt 53 q r _ _ ex ey); auto; lia. }
  split; [apply HH; auto|]. intros L.
  (* the other direction from totality *)
  destruct (of_Z_repr64 x Hx) as [[-> E0]|(q & ex & Nx & E0 & Hq & Ex)];
    destruct (of_Z_repr64 y Hy) as [[-> E1]|(r & ey & Ny & E1 & Hr & Ey)].
  - lia.
  - rewrite E0, E1. assert (y <? 0 = false) as -> by (apply Z.ltb_ge; lia). constructor.
  - rewrite E0, E1. assert (x <? 0 = true) as -> by (apply Z.ltb_lt; lia). constructor.
  - assert (f_of_Z x <> f_of_Z y /\ (SL (f_of_Z x) (f_of_Z y) \/ SL (f_of_Z y) (f_of_Z x) \/ f_of_Z x = f_of_Z y)) as [Hne HT].
    { split.
      - intros E. rewrite E0, E1 in E. inversion E; subst.
        assert (Z.abs x = Z.abs y).
        { destruct Ex as [[A B]|[A B]], Ey as [[C D]|[C D]]; try lia. assert (0 < 2 ^ (- ey)) by lia. nia. }
        destruct (Z.ltb_spec x 0), (Z.ltb_spec y 0); try discriminate; lia.
      - rewrite E0, E1. destruct (x <? 0), (y <? 0).
        + destruct (Z.lt_total ex ey) as [|[|]]; [right; left; constructor; lia| |left; constructor; lia].
          destruct (Z.lt_total (Z.pos q) (Z.pos r)) as [|[|]]; [right; left; constructor; lia| |left; constructor; lia].
          right; right. congruence.
        + left; constructor.
        + right; left; constructor.
        + destruct (Z.lt_total ex ey) as [|[|]]; [left; constructor; lia| |right; left; constructor; lia].
          destruct (Z.lt_total (Z.pos q) (Z.pos r)) as [|[|]]; [left; constructor; lia| |right; left; constructor; lia].
          right; right. congruence. }
    destruct HT as [HT|[HT|HT]]; auto; [|contradiction]. apply HH in HT; auto. lia.
Qed.
