(** * C45: colours. *)
From Coq Require Import List ZArith NArith Bool Lia Floats.SpecFloat.
From Verif Require Import Float64 Syntax FloatProofs ColorModel.
Import ListNotations.
Local Open Scope Z_scope.
Local Open Scope list_scope.

(** What is meant: a colour is three channels and alpha, bytes. *)
Definition is_byte (n : Z) : Prop := 0 <= n < 256.
(** The text of a colour, by division: digits 0-9 and a-f. *)
Definition letter (d : Z) : N := Z.to_N (if d <? 10 then 48 + d else 87 + d).
Definition two (n : Z) : list N := [letter (n / 16); letter (n mod 16)].

Definition bytes : list Z := map Z.of_nat (seq 0 256).
Lemma in_bytes : forall n, is_byte n -> In n bytes.
Proof. intros n H. unfold is_byte in H. apply in_map_iff. exists (Z.to_nat n). split; [lia|]. apply in_seq. lia. Qed.
Lemma for_bytes : forall f : Z -> bool, forallb f bytes = true -> forall n, is_byte n -> f n = true.
Proof. intros f H n B. rewrite forallb_forall in H. apply H, in_bytes, B. Qed.

Lemma byte_part : forall n, is_byte n -> byte (part n) = n.
Proof. intros n B. apply Z.eqb_eq. revert n B. apply for_bytes. vm_compute. reflexivity. Qed.
Definition same (a b : list N) : bool := if list_eq_dec N.eq_dec a b then true else false.
Lemma same_eq : forall a b, same a b = true -> a = b.
Proof. intros a b. unfold same. destruct (list_eq_dec N.eq_dec a b); [auto|discriminate]. Qed.
Lemma hex_two : forall n, is_byte n -> hex n = Some (two n).
Proof.
  intros n B. assert (match hex n with Some t => same t (two n) | None => false end = true).
  { revert n B. apply for_bytes. vm_compute. reflexivity. }
  destruct (hex n); [|discriminate]. f_equal. apply same_eq. assumption.
Qed.
Lemma channel_two : forall n r, is_byte n -> channel (two n ++ r) = Some (n, r).
Proof.
  intros n r B. cbn [channel two app].
  assert (match digit (letter (n / 16)), digit (letter (n mod 16)) with Some x, Some y => 16 * x + y =? n | _, _ => false end = true) as H.
  { revert n B. apply for_bytes. vm_compute. reflexivity. }
  destruct (digit (letter (n / 16))), (digit (letter (n mod 16))); try discriminate. apply Z.eqb_eq in H. rewrite H. reflexivity.
Qed.

(** ** Numbers between 0 and 1 give bytes *)
Lemma shr1_floor : forall r, 0 <= shr_m r -> shr_m (shr_1 r) = shr_m r / 2.
Proof.
  intros [m rr s] H. cbn in *. destruct m as [|p|p]; [reflexivity| |lia]. destruct p as [p|p|]; cbn [shr_m shr_1].
  - apply Z.div_unique with 1; lia.
  - apply Z.div_unique with 0; lia.
  - reflexivity.
Qed.
Lemma shr_floor : forall p r, 0 <= shr_m r -> shr_m (iter_pos shr_1 p r) = shr_m r / 2 ^ Z.pos p /\ 0 <= shr_m (iter_pos shr_1 p r).
Proof.
  assert (H : forall p r, 0 <= shr_m r -> shr_m (iter_pos shr_1 p r) = shr_m r / 2 ^ Z.pos p).
  { induction p as [p IH|p IH|]; intros r H.
    - cbn [iter_pos]. assert (0 <= shr_m (shr_1 r)) by (rewrite shr1_floor; [apply Z.div_pos; lia|exact H]).
      assert (0 <= shr_m (iter_pos shr_1 p (shr_1 r))) by (rewrite IH; [apply Z.div_pos; lia|assumption]).
      rewrite IH, IH, shr1_floor by assumption. rewrite !Zdiv_Zdiv by lia. f_equal.
      replace (Z.pos p~1) with (1 + Z.pos p + Z.pos p) by lia. rewrite !Z.pow_add_r by lia. change (2 ^ 1) with 2. ring.
    - cbn [iter_pos]. assert (0 <= shr_m (iter_pos shr_1 p r)) by (rewrite IH; [apply Z.div_pos; lia|assumption]).
      rewrite IH, IH by assumption. rewrite Zdiv_Zdiv by lia. f_equal. rewrite <- Z.pow_add_r by lia. f_equal. lia.
    - cbn [iter_pos]. rewrite shr1_floor by assumption. reflexivity. }
  intros p r G. rewrite H by assumption. split; [reflexivity|]. apply Z.div_pos; [assumption|lia].
Qed.
(** Shifting only makes mantissas smaller. *)
Lemma fexp_shift : forall prec emax m e l r e', 0 <= m -> shr_fexp prec emax m e l = (r, e') ->
  e <= e' /\ 0 <= shr_m r /\ shr_m r * 2 ^ (e' - e) <= m /\ e' = Z.max e (fexp prec emax (Zdigits2 m + e)).
Proof.
  intros prec emax m e l r e' M H. unfold shr_fexp, shr in H.
  assert (shr_m (shr_record_of_loc m l) = m) as S by (destruct l as [|[]]; reflexivity).
  destruct (fexp prec emax (Zdigits2 m + e) - e) as [|p|p] eqn:F; injection H as <- <-.
  - rewrite S, Z.sub_diag. change (2 ^ 0) with 1. repeat split; lia.
  - destruct (shr_floor p (shr_record_of_loc m l)) as [A B]; [lia|]. repeat split; try lia.
    replace (e + Z.pos p - e) with (Z.pos p) by lia. rewrite A, S, Z.mul_comm. apply Z.mul_div_le. lia.
  - rewrite S, Z.sub_diag. change (2 ^ 0) with 1. repeat split; lia.
Qed.
Lemma nearest_bound : forall r, shr_m r <= round_nearest_even (shr_m r) (loc_of_shr_record r) <= shr_m r + 1.
Proof.
  intros [m [|] [|]]; cbn; try lia. destruct (Z.even m); lia.
Qed.
Lemma digits_Z : forall p, 2 ^ (Zdigits2 (Z.pos p) - 1) <= Z.pos p < 2 ^ Zdigits2 (Z.pos p).
Proof. intro p. apply digits_spec. Qed.
(** A product below 255 is still below 256 when it is rounded. *)
Lemma round_small : forall p e, e <= -40 -> Z.pos p <= 255 * 2 ^ (- e) - 1 ->
  0 <= f64_to_usize (binary_round_aux 24 128 false (Z.pos p) e loc_Exact) <= 255.
Proof.
  intros p e E P. unfold binary_round_aux.
  destruct (shr_fexp 24 128 (Z.pos p) e loc_Exact) as [r1 e1] eqn:S1.
  apply fexp_shift in S1; [|lia]. destruct S1 as (E1 & N1 & M1 & F1).
  assert (D : Zdigits2 (Z.pos p) + e <= 8).
  { destruct (digits_Z p) as [A _]. destruct (Z_le_gt_dec (Zdigits2 (Z.pos p) + e) 8); [assumption|exfalso].
    assert (2 ^ (8 - e) <= 2 ^ (Zdigits2 (Z.pos p) - 1)) by (apply Z.pow_le_mono_r; lia).
    replace (8 - e) with (8 + - e) in * by lia. rewrite Z.pow_add_r in * by lia. change (2 ^ 8) with 256 in *. lia. }
  assert (L1 : e1 <= -16) by (unfold fexp, emin in F1; lia).
  assert (M2 : shr_m r1 + 1 <= 255 * 2 ^ (- e1)).
  { assert (shr_m r1 * 2 ^ (e1 - e) < 255 * 2 ^ (- e1) * 2 ^ (e1 - e)).
    { rewrite <- Z.mul_assoc, <- Z.pow_add_r by lia. replace (- e1 + (e1 - e)) with (- e) by lia. lia. }
    apply Z.mul_lt_mono_pos_r in H; lia. }
  pose proof (nearest_bound r1) as NB. set (q := round_nearest_even (shr_m r1) (loc_of_shr_record r1)) in *.
  destruct (shr_fexp 24 128 q e1 loc_Exact) as [r2 e2] eqn:S2. apply fexp_shift in S2; [|lia].
  destruct S2 as (E2 & N2 & M3 & _). destruct (shr_m r2) as [|m|m]; [cbn; lia| |lia].
  assert (K : Z.pos m * 2 ^ (e2 - e1) <= 255 * 2 ^ (- e1)) by lia.
  assert (S : e2 < 8).
  { destruct (Z_lt_ge_dec e2 8); [assumption|exfalso].
    assert (2 ^ (8 - e1) <= 2 ^ (e2 - e1)) by (apply Z.pow_le_mono_r; lia).
    replace (8 - e1) with (8 + - e1) in * by lia. rewrite Z.pow_add_r in * by lia. change (2 ^ 8) with 256 in *. nia. }
  destruct (Z.leb_spec e2 (128 - 24)); [|lia]. cbn [f64_to_usize].
  match goal with |- 0 <= Z.min ?t _ <= _ => assert (T : 0 <= t <= 255); [|assert (255 <= USIZE_MAX) by (vm_compute; congruence); revert T; generalize t; intros t' T; lia] end.
  destruct (Z.leb_spec 0 e2).
  - destruct (Z.ltb_spec 1024 e2); [lia|]. rewrite Z.shiftl_mul_pow2 by lia.
    replace (e2 - e1) with (e2 + - e1) in K by lia. rewrite Z.pow_add_r, Z.mul_assoc in K by lia.
    apply Z.mul_le_mono_pos_r in K; [|lia]. split; [|exact K]. apply Z.mul_nonneg_nonneg; lia.
  - rewrite Z.shiftr_div_pow2 by lia. split; [apply Z.div_pos; lia|]. apply Z.div_le_upper_bound; [lia|].
    replace (- e1) with ((e2 - e1) + - e2) in K by lia. rewrite (Z.pow_add_r 2 (e2 - e1)) in K by lia.
    rewrite (Z.mul_comm (2 ^ (e2 - e1))), Z.mul_assoc in K. apply Z.mul_le_mono_pos_r in K; lia.
Qed.
(** A number that [f32] has. *)
Definition is_f32 (x : f32) : Prop := valid_binary 24 128 x = true.
Theorem C45_byte : forall x, is_f32 x -> is_byte (byte x).
Proof.
  intros x V. unfold byte, clamp. destruct (SFltb x (S754_zero false)) eqn:N; [vm_compute; split; congruence|].
  destruct (SFltb (g_of_Z 1) x) eqn:O; [vm_compute; split; congruence|].
  unfold is_byte. assert (0 <= f64_to_usize (gmul x (g_of_Z 255)) <= 255); [|lia].
  destruct x as [s|s| |s m e]; [destruct s; cbn; lia|destruct s; [discriminate N|discriminate O]|cbn; lia|].
  destruct s; [discriminate N|].
  assert (g_of_Z 255 = S754_finite false 16711680 (-16)) as -> by reflexivity.
  assert (g_of_Z 1 = S754_finite false 8388608 (-23)) as X by reflexivity. rewrite X in O. clear X.
  unfold SFltb, SFcompare in O. unfold is_f32, valid_binary, bounded, canonical_mantissa in V.
  apply andb_prop in V. destruct V as [V B]. apply Zeq_bool_eq in V. pose proof (digits_spec m) as DG.
  unfold fexp, emin in V. assert (D : Z.pos (digits2_pos m) <= 24) by lia.
  assert (Z.pos m < 2 ^ 24).
  { destruct DG as [_ DG]. eapply Z.lt_le_trans; [exact DG|]. apply Z.pow_le_mono_r; lia. }
  unfold gmul, SFmul. cbn [xorb].
  destruct (Z.compare_spec (-23) e) as [<-|C|C]; [|discriminate O|].
  - change (Pos.compare_cont Eq 8388608 m) with (Pos.compare 8388608 m) in O. destruct (Pos.compare_spec 8388608 m) as [<-|C|C]; [vm_compute; split; congruence|discriminate O|].
    apply Pos2Z.pos_lt_pos in C. clear - C DG V D. exfalso.
    assert (Z.pos (digits2_pos m) < 24); [|lia].
    destruct (Z_lt_ge_dec (Z.pos (digits2_pos m)) 24); [assumption|exfalso].
    assert (2 ^ 23 <= 2 ^ (Z.pos (digits2_pos m) - 1)) by (apply Z.pow_le_mono_r; lia). lia.
  - apply round_small; [lia|]. rewrite Pos2Z.inj_mul.
    assert (2 ^ 40 <= 2 ^ (- (e + -16))) by (apply Z.pow_le_mono_r; lia).
    assert (2 ^ 40 = 2 ^ 24 * 65536) by reflexivity. nia.
Qed.
Print Assumptions C45_byte.

(** ** C45 *)
Lemma read_text : forall r g b a, is_byte r -> is_byte g -> is_byte b -> is_byte a ->
  rgb_maybe_a (two r ++ two g ++ two b ++ two a) = Some (r, g, b, Some a).
Proof.
  intros r g b a R G B A. unfold rgb_maybe_a. rewrite (channel_two r _ R), (channel_two g _ G), (channel_two b _ B).
  rewrite <- (app_nil_r (two a)), channel_two by assumption. reflexivity.
Qed.
Lemma read_text3 : forall r g b, is_byte r -> is_byte g -> is_byte b ->
  rgb_maybe_a (two r ++ two g ++ two b) = Some (r, g, b, None).
Proof.
  intros r g b R G B. unfold rgb_maybe_a. rewrite (channel_two r _ R), (channel_two g _ G).
  rewrite <- (app_nil_r (two b)), channel_two by assumption. reflexivity.
Qed.
(** The text that is printed for a vector, never a panic. *)
Theorem C45_print : forall v, is_f32 (vx v) -> is_f32 (vy v) -> is_f32 (vz v) -> is_f32 (vw v) ->
  str_color v = Some (35%N :: two (byte (vx v)) ++ two (byte (vy v)) ++ two (byte (vz v)) ++
                      if byte (vw v) =? 255 then [] else two (byte (vw v))).
Proof.
  intros v X Y Z W. apply C45_byte in X, Y, Z, W. unfold str_color. rewrite !hex_two by assumption.
  destruct (byte (vw v) =? 255); rewrite ?app_nil_r; reflexivity.
Qed.
Print Assumptions C45_print.
(** Printing and parsing gives the same channels. *)
Theorem C45_print_parse : forall v, is_f32 (vx v) -> is_f32 (vy v) -> is_f32 (vz v) -> is_f32 (vw v) ->
  exists t a, str_color v = Some (35%N :: t) /\ rgb_maybe_a t = Some (byte (vx v), byte (vy v), byte (vz v), a) /\
    match a with Some a => a = byte (vw v) | None => byte (vw v) = 255 end.
Proof.
  intros v X Y Z W. pose proof (C45_print v X Y Z W) as P. apply C45_byte in X, Y, Z, W.
  destruct (Z.eqb_spec (byte (vw v)) 255) as [E|E]; rewrite P.
  - rewrite app_nil_r. exists (two (byte (vx v)) ++ two (byte (vy v)) ++ two (byte (vz v))), None.
    rewrite read_text3 by assumption. auto.
  - exists (two (byte (vx v)) ++ two (byte (vy v)) ++ two (byte (vz v)) ++ two (byte (vw v))), (Some (byte (vw v))).
    rewrite read_text by assumption. auto.
Qed.
Print Assumptions C45_print_parse.
(** The literal of any colour has its four channels over 255, and is printed as that colour. *)
Theorem C45_literal : forall r g b a, is_byte r -> is_byte g -> is_byte b -> is_byte a ->
  exists v, color_lit (two r ++ two g ++ two b ++ two a) = Some v /\
    byte (vx v) = r /\ byte (vy v) = g /\ byte (vz v) = b /\ byte (vw v) = a /\
    str_color v = Some (35%N :: two r ++ two g ++ two b ++ if a =? 255 then [] else two a).
Proof.
  intros r g b a R G B A. unfold color_lit. rewrite read_text by assumption. eexists. split; [reflexivity|]. cbn [vx vy vz vw].
  rewrite !byte_part by assumption. repeat (split; [reflexivity|]). unfold str_color. cbn [vx vy vz vw].
  rewrite !byte_part, !hex_two by assumption. destruct (a =? 255); rewrite ?app_nil_r; reflexivity.
Qed.
Print Assumptions C45_literal.
(** Without alpha it is opaque. *)
Theorem C45_opaque : forall r g b, is_byte r -> is_byte g -> is_byte b ->
  color_lit (two r ++ two g ++ two b) = color_lit (two r ++ two g ++ two b ++ two 255) /\
  exists v, color_lit (two r ++ two g ++ two b) = Some v /\ str_color v = Some (35%N :: two r ++ two g ++ two b).
Proof.
  intros r g b R G B. destruct (C45_literal r g b 255) as (v & L & _ & _ & _ & _ & P); try assumption; [unfold is_byte; lia|].
  assert (color_lit (two r ++ two g ++ two b) = color_lit (two r ++ two g ++ two b ++ two 255)) as E.
  { unfold color_lit. rewrite read_text3, read_text by (assumption || (unfold is_byte; lia)). reflexivity. }
  split; [exact E|]. exists v. rewrite E. split; [exact L|]. rewrite P, Z.eqb_refl, app_nil_r. reflexivity.
Qed.
Print Assumptions C45_opaque.
(** Upper and lower case digits mean the same. *)
Theorem C45_case : forall d, 10 <= d < 16 -> digit (Z.to_N (55 + d)) = Some d /\ digit (letter d) = Some d.
Proof.
  intros d D. assert (d = 10 \/ d = 11 \/ d = 12 \/ d = 13 \/ d = 14 \/ d = 15) as X by lia.
  repeat destruct X as [-> | X]; [..|subst d]; split; reflexivity.
Qed.
Print Assumptions C45_case.
(** The conversions between colour spaces keep alpha, and dark channels come back exactly, whatever the
    power function. Nothing is said about brighter channels, which depend on it. *)
Theorem C45_alpha : forall powf v, vw (srgb_to_linear powf v) = vw v /\ vw (linear_to_srgb powf v) = vw v.
Proof. intros. split; reflexivity. Qed.
Print Assumptions C45_alpha.
Theorem C45_dark : forall powf r g b a, 0 <= r <= 10 -> 0 <= g <= 10 -> 0 <= b <= 10 -> is_byte a ->
  str_color (linear_to_srgb powf (srgb_to_linear powf (V4 (part r) (part g) (part b) (part a)))) = str_color (V4 (part r) (part g) (part b) (part a)).
Proof.
  intros powf.
  assert (H : forall n, 0 <= n <= 10 -> byte (to_srgb powf (to_linear powf (part n))) = byte (part n)).
  { intros n H. assert (to_srgb powf (to_linear powf (part n)) = gmul (gdiv (part n) (lit 1292 2)) (lit 1292 2)) as ->.
    - assert (forallb (fun n => SFleb (part n) (lit 4045 5) && SFleb (gdiv (part n) (lit 1292 2)) (lit 31308 7)) (map Z.of_nat (seq 0 11)) = true) as F by (vm_compute; reflexivity).
      rewrite forallb_forall in F. specialize (F n). rewrite andb_true_iff in F. destruct F as [A B].
      { apply in_map_iff. exists (Z.to_nat n). split; [lia|]. apply in_seq. lia. }
      unfold to_linear. rewrite A. unfold to_srgb. rewrite B. reflexivity.
    - assert (forallb (fun n => byte (gmul (gdiv (part n) (lit 1292 2)) (lit 1292 2)) =? byte (part n)) (map Z.of_nat (seq 0 11)) = true) as F by (vm_compute; reflexivity).
      rewrite forallb_forall in F. apply Z.eqb_eq. apply F. apply in_map_iff. exists (Z.to_nat n). split; [lia|]. apply in_seq. lia. }
  intros r g b a R G B A. unfold str_color. cbn [srgb_to_linear linear_to_srgb vx vy vz vw]. rewrite !H by assumption. reflexivity.
Qed.
Print Assumptions C45_dark.

(** #1e90ff80, and a vector that is no colour: (1.5, -1, NaN, 0.5) *)
Definition dodger : list N := [49; 101; 57; 48; 102; 102; 56; 48]%N.
Example C45_example : two 30 ++ two 144 ++ two 255 ++ two 128 = dodger /\
  match color_lit dodger with Some v => str_color v | None => None end = Some (35%N :: dodger).
Proof. split; vm_compute; reflexivity. Qed.
Example C45_outside : str_color (V4 (lit 15 1) (g_of_Z (-1)) S754_nan (lit 5 1)) = Some (35%N :: two 255 ++ two 0 ++ two 0 ++ two 127).
Proof. vm_compute. reflexivity. Qed.
