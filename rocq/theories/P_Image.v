(** * C77: images of the interactive library.

    Setting a pixel changes that pixel and nothing else; getting gives the colour of its bytes; copying is exact. *)
From Coq Require Import String List ZArith Bool Arith Lia Floats.SpecFloat.
From Verif Require Import Float64 Syntax InterpModel EmbedModel ColorModel P_Color ImageModel ImageSpec.
From Verif Require P_Array.
Import ListNotations.
Local Open Scope string_scope.
Local Open Scope nat_scope.
Local Open Scope list_scope.

(** ** Rows *)
Lemma put_some : forall A (l : list A) n v, n < length l -> exists l', put l n v = Some l' /\ length l' = length l /\ nth_error l' n = Some v /\ forall m, m <> n -> nth_error l' m = nth_error l m.
Proof.
  intros A l. induction l as [|x l IH]; intros n v L; [cbn in L; lia|]. destruct n as [|n]; cbn [put].
  - exists (v :: l). repeat split. intros [|m] H; [lia|reflexivity].
  - cbn in L. destruct (IH n v) as (l' & -> & E1 & E2 & E3); [lia|]. exists (x :: l'). repeat split; cbn; auto. intros [|m] H; auto. apply E3. lia.
Qed.
Lemma put_same : forall A (l : list A) n v, nth_error l n = Some v -> put l n v = Some l.
Proof. intros A l. induction l as [|x l IH]; intros [|n] v H; cbn in *; try congruence. now rewrite (IH _ _ H). Qed.
Lemma concat_length : forall A w (rows : list (list A)), Forall (fun r => length r = w) rows -> length (concat rows) = length rows * w.
Proof. intros A w rows F. induction F as [|r rows L F IH]; cbn; [reflexivity|]. rewrite app_length. lia. Qed.
Lemma nth_concat : forall A w (rows : list (list A)), Forall (fun r => length r = w) rows -> forall x y row, nth_error rows y = Some row -> x < w -> nth_error (concat rows) (y * w + x) = nth_error row x.
Proof.
  intros A w rows F. induction F as [|r rows L F IH]; intros x y row E X; [destruct y; discriminate|]. destruct y as [|y]; cbn in E |- *.
  - injection E as ->. apply nth_error_app1. lia.
  - rewrite nth_error_app2 by lia. replace (w + y * w + x - length r) with (y * w + x) by lia. now apply IH.
Qed.
Lemma chunks : forall A w h (l : list A), length l = h * w -> exists rows, l = concat rows /\ length rows = h /\ Forall (fun r => length r = w) rows.
Proof.
  intros A w h. induction h as [|h IH]; intros l L.
  - destruct l; [|discriminate]. exists []. repeat split. constructor.
  - destruct (IH (skipn w l)) as (rows & E & L1 & F); [rewrite skipn_length; cbn in L; lia|]. exists (firstn w l :: rows). split; [cbn; rewrite <- E; symmetry; apply firstn_skipn|].
    split; [cbn; lia|]. constructor; auto. apply firstn_length_le. cbn in L. lia.
Qed.
Lemma of_nat_width : forall (rows : list (list pixel)) w, (0 <= w)%Z -> Forall (fun r => Z.of_nat (length r) = w) rows <-> Forall (fun r => length r = Z.to_nat w) rows.
Proof. intros rows w W. rewrite !Forall_forall. split; intros H r I; specialize (H r I); lia. Qed.
(** An image with as many pixels as its size says is rows, and each place is the one of [index_of]. *)
Definition full (i : image) : Prop := (0 <= i_width i)%Z /\ (0 <= i_height i)%Z /\ length (i_data i) = Z.to_nat (i_height i) * Z.to_nat (i_width i).
Lemma full_sound : forall i, full i -> sound i.
Proof.
  intros i (W & H & L). destruct (chunks _ _ _ _ L) as (rows & E & L1 & F). exists rows. split; [exact E|]. split; [lia|]. now apply of_nat_width.
Qed.
Lemma shows_index : forall i x y p, full i -> shows i x y p <-> ((Z.of_nat x < i_width i)%Z /\ (Z.of_nat y < i_height i)%Z /\ nth_error (i_data i) (index_of i (Z.of_nat x) (Z.of_nat y)) = Some p).
Proof.
  intros i x y p (W & H & L). assert (index_of i (Z.of_nat x) (Z.of_nat y) = y * Z.to_nat (i_width i) + x) as IX by (unfold index_of; nia). rewrite IX. split.
  - intros (rows & row & (E & L1 & F) & R & P). assert (nth_error row x <> None) as X by congruence. apply nth_error_Some in X. assert (nth_error rows y <> None) as Y by congruence. apply nth_error_Some in Y.
    pose proof (nth_error_In _ _ R) as I. rewrite Forall_forall in F. pose proof (F _ I) as FL. split; [lia|]. split; [lia|]. rewrite E. rewrite (nth_concat _ (Z.to_nat (i_width i)) rows) with (row := row); auto; [|lia].
    apply of_nat_width; auto. now apply Forall_forall.
  - intros (X & Y & P). destruct (chunks _ _ _ _ L) as (rows & E & L1 & F). destruct (nth_error rows y) as [row|] eqn:R; [|apply nth_error_None in R; lia].
    exists rows, row. split; [split; [exact E|split; [lia|now apply of_nat_width]]|]. split; [exact R|]. rewrite E, (nth_concat _ _ _ F x y row R) in P; [exact P|lia].
Qed.
Lemma sound_full : forall i, sound i -> (0 <= i_width i)%Z -> full i.
Proof.
  intros i (rows & E & L & F) W. split; [exact W|]. split; [lia|]. rewrite E. apply of_nat_width in F; auto. rewrite (concat_length _ _ _ F). f_equal. lia.
Qed.
(** the width of an image without rows can be anything, but then nothing is shown *)
Lemma shows_width : forall i x y p, shows i x y p -> sound i /\ (0 <= i_width i)%Z.
Proof.
  intros i x y p (rows & row & R & N & _). split; [now exists rows|]. destruct R as (_ & _ & F). rewrite Forall_forall in F. pose proof (F _ (nth_error_In _ _ N)). lia.
Qed.

(** ** Arguments *)
Lemma look_arg : forall stk v w, arg stk v w -> look stk v = Got w.
Proof. intros stk v w A. destruct A as [v N|i v E]; cbn; [destruct v; auto; now destruct (N i)|now rewrite E]. Qed.
Lemma pops_vec : forall stk v x, arg stk v (VVec4 x) -> pops TVec4 (stk ++ [v]) = Got (RVec4 x, stk).
Proof. intros stk v x A. unfold pops, pop. rewrite rev_app_distr. cbn [rev app fst snd]. rewrite removelast_last, (look_arg _ _ _ A). reflexivity. Qed.
Lemma pops_str : forall stk v x, arg stk v (VStr x) -> pops TStr (stk ++ [v]) = Got (RStr x, stk).
Proof. intros stk v x A. unfold pops, pop. rewrite rev_app_distr. cbn [rev app fst snd]. rewrite removelast_last, (look_arg _ _ _ A). reflexivity. Qed.
Lemma pops_usize : forall stk v x s, arg stk v (VF64 x s) -> pops TUsize (stk ++ [v]) = Got (RInt (f64_to_usize x), stk).
Proof. intros stk v x s A. unfold pops, pop. rewrite rev_app_distr. cbn [rev app fst snd]. rewrite removelast_last, (look_arg _ _ _ A). reflexivity. Qed.
Lemma pop_any_arg : forall stk v w, arg stk v w -> ImageModel.pop_any (stk ++ [v]) = Got (w, stk).
Proof. intros stk v w A. unfold ImageModel.pop_any. rewrite rev_app_distr. cbn [rev app]. rewrite removelast_last, (look_arg _ _ _ A). reflexivity. Qed.
Lemma app2 : forall A (l : list A) a b, l ++ [a; b] = (l ++ [a]) ++ [b].
Proof. intros. now rewrite <- app_assoc. Qed.
Lemma app3 : forall A (l : list A) a b c, l ++ [a; b; c] = ((l ++ [a]) ++ [b]) ++ [c].
Proof. intros. now rewrite <- !app_assoc. Qed.
Definition key (v : value) : which := match v with VF64 id _ => WImage (Z.to_nat (f64_to_usize id)) | VRust o => WObject o | _ => WImage 0 end.
Lemma found_stands : forall w v i, stands w v i -> found w v = Got (key v, i).
Proof. intros w v i S. destruct S as [id sec i E|o i E]; cbn; now rewrite E. Qed.

(** ** Pixels *)
Lemma usize_nonneg : forall p, (0 <= f64_to_usize p)%Z.
Proof.
  intros p. unfold f64_to_usize. destruct p as [b|[]| |[] m e]; try lia; try (unfold USIZE_MAX; lia).
  apply Z.min_glb; [|unfold USIZE_MAX; lia]. destruct (0 <=? e)%Z; [destruct (1024 <? e)%Z; [unfold USIZE_MAX; lia|]|].
  - apply Z.shiftl_nonneg. lia.
  - apply Z.shiftr_nonneg. lia.
Qed.
Theorem C77_bytes : forall c p, painted c p <-> p = pixel_of c.
Proof.
  intros c [r g b a]. unfold painted, pixel_of. cbn [px_r px_g px_b px_a]. split.
  - intros F. repeat match goal with H : Forall2 _ (_ :: _) (_ :: _) |- _ => inversion H; clear H; subst end. reflexivity.
  - intros E. injection E as -> -> -> ->. repeat constructor.
Qed.
Lemma quant_byte : forall x, ImageSpec.is_byte (quant x).
Proof. intros x. unfold ImageSpec.is_byte, quant. pose proof (usize_nonneg (gmul x (g_of_Z 255))). lia. Qed.
Lemma pixel_byte : forall c, is_pixel (pixel_of c).
Proof. intros c. repeat split; apply quant_byte. Qed.
(** What is not a number, or negative, is 0; 0 is 0 and 1 is 255. *)
Theorem C77_clamped : forall x, match x with S754_nan | S754_finite true _ _ | S754_infinity true | S754_zero _ => quant x = 0%Z | S754_infinity false => quant x = 255%Z | _ => True end.
Proof.
  intros [s|s| |s m e]; [destruct s; vm_compute; reflexivity|destruct s; vm_compute; reflexivity|vm_compute; reflexivity|]. destruct s; [|exact Logic.I].
  unfold quant, gmul. change (g_of_Z 255) with (S754_finite false 16711680 (-16)). cbn [SFmul xorb]. unfold binary_round_aux.
  destruct (shr_fexp 24 128 (Z.pos (m * 16711680)) (e + -16) loc_Exact) as [mrs' e']. destruct (shr_fexp 24 128 (round_nearest_even (shr_m mrs') (loc_of_shr_record mrs')) e' loc_Exact) as [mrs'' e''].
  destruct (shr_m mrs''); try reflexivity. destruct (e'' <=? 128 - 24)%Z; reflexivity.
Qed.
Lemma quant_part : forall z, ImageSpec.is_byte z -> quant (part z) = z.
Proof.
  intros z B. apply Z.eqb_eq. assert (P_Color.is_byte z) as B' by (unfold P_Color.is_byte, ImageSpec.is_byte in *; lia). revert z B' B.
  assert (forall n, P_Color.is_byte n -> Z.eqb (quant (part n)) n = true) as H by (apply for_bytes; vm_compute; reflexivity). intros z B _. now apply H.
Qed.
Lemma color_back : forall p, is_pixel p -> pixel_of (color_of p) = p.
Proof. intros [r g b a] (R & G & B & A). unfold pixel_of, color_of. cbn in *. now rewrite !quant_part. Qed.
Lemma color_coloured : forall p, coloured p (color_of p).
Proof. intros p. repeat constructor. Qed.
Lemma coloured_color : forall p c, coloured p c -> c = color_of p.
Proof.
  intros [r g b a] [x y z w] F. unfold coloured in F. cbn in F. repeat match goal with H : Forall2 _ (_ :: _) (_ :: _) |- _ => inversion H; clear H; subst end. reflexivity.
Qed.

Lemma at_coord : forall pos x y, at_ pos x y -> coord (vx pos) = Z.of_nat x /\ coord (vy pos) = Z.of_nat y.
Proof. intros pos x y (X & Y). unfold coord. auto. Qed.
Lemma inside : forall i x y, outside i (Z.of_nat x) (Z.of_nat y) = false <-> (Z.of_nat x < i_width i)%Z /\ (Z.of_nat y < i_height i)%Z.
Proof. intros i x y. unfold outside. rewrite orb_false_iff, !Z.leb_gt. tauto. Qed.

(** The colour of a pixel, for every place of the image; an error for every other place. *)
Theorem C77_get : forall w stk iv pv v i pos x y, arg stk iv v -> arg (stk ++ [iv]) pv (VVec4 pos) -> stands w v i -> good_image i -> at_ pos x y ->
  (forall p, shows i x y p -> exists c, coloured p c /\ pixel_color w (stk ++ [iv; pv]) = Got (VVec4 c, w, stk)) /\
  ((forall p, ~ shows i x y p) -> pixel_color w (stk ++ [iv; pv]) = Wrong).
Proof.
  intros w stk iv pv v i pos x y A1 A2 S G AT. destruct (at_coord _ _ _ AT) as (CX & CY). unfold pixel_color. rewrite app2, (pops_vec _ _ _ A2). cbn [and_then]. rewrite (pop_any_arg _ _ _ A1). cbn [and_then].
  rewrite (found_stands _ _ _ S). cbn [and_then]. rewrite CX, CY. split.
  - intros p P. destruct (shows_width _ _ _ _ P) as (SO & W). apply shows_index in P; [|now apply sound_full]. destruct P as (X & Y & N). rewrite (proj2 (inside i x y)) by auto. unfold get_pixel. rewrite N. cbn [and_then].
    exists (color_of p). split; [apply color_coloured|reflexivity].
  - intros NP. destruct (outside i (Z.of_nat x) (Z.of_nat y)) eqn:O; [reflexivity|]. exfalso. apply inside in O. destruct O as (X & Y). assert (full i) as F by (apply sound_full; [apply G|lia]).
    destruct (nth_error (i_data i) (index_of i (Z.of_nat x) (Z.of_nat y))) as [p|] eqn:N.
    + apply (NP p). apply shows_index; auto.
    + apply nth_error_None in N. destruct F as (W & H & L). unfold index_of in N. nia.
Qed.

Lemma stands_store : forall w v i i', stands w v i -> stands (store w (key v) i') v i' /\ w_names (store w (key v) i') = w_names w /\ length (w_images (store w (key v) i')) = length (w_images w) /\ length (w_objects (store w (key v) i')) = length (w_objects w) /\
  (forall u j, ~ same v u -> stands w u j <-> stands (store w (key v) i') u j).
Proof.
  intros w v i i' S. destruct S as [id sec i E|o i E]; cbn [key store w_names w_images w_objects].
  - assert (nth_error (w_images w) (Z.to_nat (f64_to_usize id)) <> None) as L by congruence. apply nth_error_Some in L. destruct (put_some _ _ _ i' L) as (l & -> & L1 & N1 & N2).
    split; [now constructor|]. split; [reflexivity|]. split; [exact L1|]. split; [reflexivity|]. intros u j NS. split; intros S; inversion S as [id' sec' i0 E'|o i0 E']; subst; cbn in *; constructor; cbn; auto.
    + rewrite N2; auto. intros Q. apply NS. constructor. pose proof (usize_nonneg id). pose proof (usize_nonneg id'). lia.
    + rewrite N2 in E'; auto. intros Q. apply NS. constructor. pose proof (usize_nonneg id). pose proof (usize_nonneg id'). lia.
  - assert (nth_error (w_objects w) o <> None) as L by congruence. apply nth_error_Some in L. destruct (put_some _ _ _ (OImage i') L) as (l & -> & L1 & N1 & N2).
    split; [now constructor|]. split; [reflexivity|]. split; [reflexivity|]. split; [exact L1|]. intros u j NS. split; intros S; inversion S as [id' sec' i0 E'|o' i0 E']; subst; cbn in *; constructor; cbn; auto.
    + rewrite N2; auto. intros ->. apply NS. constructor.
    + rewrite N2 in E'; auto. intros ->. apply NS. constructor.
Qed.
Lemma set_run : forall w stk iv pv cv v i pos c x y, arg stk iv v -> arg (stk ++ [iv]) pv (VVec4 pos) -> arg ((stk ++ [iv]) ++ [pv]) cv (VVec4 c) -> stands w v i -> at_ pos x y ->
  set_pixel w (stk ++ [iv; pv; cv]) = if outside i (Z.of_nat x) (Z.of_nat y) then Wrong else and_then (put_pixel i (Z.of_nat x) (Z.of_nat y) (pixel_of c)) (fun i => Got (store w (key v) i, stk)).
Proof.
  intros w stk iv pv cv v i pos c x y A1 A2 A3 S AT. destruct (at_coord _ _ _ AT) as (CX & CY). unfold set_pixel. rewrite app3, (pops_vec _ _ _ A3). cbn [and_then]. rewrite (pops_vec _ _ _ A2). cbn [and_then].
  rewrite (pop_any_arg _ _ _ A1). cbn [and_then]. rewrite (found_stands _ _ _ S). cbn [and_then]. now rewrite CX, CY.
Qed.
(** Setting a pixel: the image has the same size, shows the colour at that place, and at all other places what it showed before.
    Every other image is the same. For a place that is not in the image, there is an error. *)
Theorem C77_set : forall w stk iv pv cv v i pos c x y, arg stk iv v -> arg (stk ++ [iv]) pv (VVec4 pos) -> arg ((stk ++ [iv]) ++ [pv]) cv (VVec4 c) -> stands w v i -> good w -> at_ pos x y ->
  (forall p, shows i x y p -> exists w' i', set_pixel w (stk ++ [iv; pv; cv]) = Got (w', stk) /\ good w' /\ w_names w' = w_names w /\ stands w' v i' /\ i_width i' = i_width i /\ i_height i' = i_height i /\
    (forall q, shows i' x y q <-> painted c q) /\ (forall x' y' q, (x', y') <> (x, y) -> shows i' x' y' q <-> shows i x' y' q) /\ (forall u j, ~ same v u -> stands w u j <-> stands w' u j)) /\
  ((forall p, ~ shows i x y p) -> set_pixel w (stk ++ [iv; pv; cv]) = Wrong).
Proof.
  intros w stk iv pv cv v i pos c x y A1 A2 A3 S G AT. rewrite (set_run w stk iv pv cv v i pos c x y A1 A2 A3 S AT).
  assert (good_image i) as GI by (destruct S as [id sec i E|o i E]; [now apply (g_images _ G) in E|now apply (g_objects _ G) in E]). split.
  - intros p P. destruct (shows_width _ _ _ _ P) as (SO & W). pose proof (sound_full i SO W) as F. pose proof P as P'. apply shows_index in P'; auto. destruct P' as (X & Y & N). rewrite (proj2 (inside i x y)) by auto.
    assert (nth_error (i_data i) (index_of i (Z.of_nat x) (Z.of_nat y)) <> None) as L by congruence. apply nth_error_Some in L. unfold put_pixel. destruct (put_some _ _ _ (pixel_of c) L) as (l & -> & L1 & N1 & N2). cbn [and_then].
    set (i' := Image (i_width i) (i_height i) l). assert (full i') as F' by (destruct F as (FW & FH & FL); split; [exact FW|split; [exact FH|cbn; congruence]]).
    destruct (stands_store w v i i' S) as (S1 & S2 & S3 & S4 & S5). exists (store w (key v) i'), i'.
    assert (forall q, shows i' x y q <-> painted c q) as HQ.
    { intros q. rewrite (shows_index i'); auto. cbn [i' i_width i_height i_data]. change (index_of i' (Z.of_nat x) (Z.of_nat y)) with (index_of i (Z.of_nat x) (Z.of_nat y)). rewrite N1, C77_bytes. split; [intros (_ & _ & Q); congruence|intros ->; auto]. }
    assert (forall x' y' q, (x', y') <> (x, y) -> shows i' x' y' q <-> shows i x' y' q) as HO.
    { intros x' y' q NE. rewrite (shows_index i'), (shows_index i); auto. cbn [i' i_width i_height i_data]. change (index_of i' (Z.of_nat x') (Z.of_nat y')) with (index_of i (Z.of_nat x') (Z.of_nat y')).
      assert ((Z.of_nat x' < i_width i)%Z -> index_of i (Z.of_nat x') (Z.of_nat y') <> index_of i (Z.of_nat x) (Z.of_nat y)) as D.
      { intros X' Q. apply NE. unfold index_of in Q. assert (Z.of_nat y' * i_width i + Z.of_nat x' = Z.of_nat y * i_width i + Z.of_nat x)%Z as Q' by (apply Z2Nat.inj in Q; nia). assert (y' = y) by nia. subst y'. f_equal; lia. }
      split; intros (X' & Y' & Q); (split; [exact X'|split; [exact Y'|]]); [rewrite N2 in Q by auto; exact Q|rewrite N2 by auto; exact Q]. }
    assert (good_image i') as GI'.
    { split; [now apply full_sound|]. intros x' y' q Q. destruct (Nat.eq_dec x' x) as [->|NX]; [destruct (Nat.eq_dec y' y) as [->|NY]|].
      - apply HQ, C77_bytes in Q. subst q. apply pixel_byte.
      - apply HO in Q; [|congruence]. now apply (proj2 GI) in Q.
      - apply HO in Q; [|congruence]. now apply (proj2 GI) in Q. }
    split; [reflexivity|]. split; [|split; [exact S2|split; [exact S1|split; [reflexivity|split; [reflexivity|split; [exact HQ|split; [exact HO|exact S5]]]]]]]. split.
    + intros n j E. destruct S as [id sec i E0|o i E0]; cbn [key store w_images] in E; [|now apply (g_images _ G) in E].
      assert (nth_error (w_images w) (Z.to_nat (f64_to_usize id)) <> None) as L0 by congruence. apply nth_error_Some in L0. destruct (put_some _ _ _ i' L0) as (k & P1 & _ & P2 & P3). rewrite P1 in E.
      destruct (Nat.eq_dec n (Z.to_nat (f64_to_usize id))) as [->|NN]; [congruence|]. rewrite P3 in E by auto. now apply (g_images _ G) in E.
    + intros n j E. destruct S as [id sec i E0|o i E0]; cbn [key store w_objects] in E; [now apply (g_objects _ G) in E|].
      assert (nth_error (w_objects w) o <> None) as L0 by congruence. apply nth_error_Some in L0. destruct (put_some _ _ _ (OImage i') L0) as (k & P1 & _ & P2 & P3). rewrite P1 in E.
      destruct (Nat.eq_dec n o) as [->|NN]; [congruence|]. rewrite P3 in E by auto. now apply (g_objects _ G) in E.
    + rewrite S2, S3. apply G.
  - intros NP. destruct (outside i (Z.of_nat x) (Z.of_nat y)) eqn:O; [reflexivity|]. exfalso. apply inside in O. destruct O as (X & Y). assert (full i) as F by (apply sound_full; [apply GI|lia]).
    destruct (nth_error (i_data i) (index_of i (Z.of_nat x) (Z.of_nat y))) as [p|] eqn:N.
    + apply (NP p). apply shows_index; auto.
    + apply nth_error_None in N. destruct F as (W & H & L). unfold index_of in N. nia.
Qed.
(** Setting the colour that was got there changes nothing at all. *)
Theorem C77_copy : forall w stk iv pv cv v i pos c x y p, arg stk iv v -> arg (stk ++ [iv]) pv (VVec4 pos) -> arg ((stk ++ [iv]) ++ [pv]) cv (VVec4 c) -> stands w v i -> good_image i -> at_ pos x y ->
  shows i x y p -> coloured p c -> set_pixel w (stk ++ [iv; pv; cv]) = Got (w, stk).
Proof.
  intros w stk iv pv cv v i pos c x y p A1 A2 A3 S G AT P C. rewrite (set_run w stk iv pv cv v i pos c x y A1 A2 A3 S AT). apply coloured_color in C. subst c. rewrite color_back by (apply (proj2 G _ _ _ P)).
  destruct (shows_width _ _ _ _ P) as (SO & W). apply shows_index in P; [|now apply sound_full]. destruct P as (X & Y & N). rewrite (proj2 (inside i x y)) by auto. unfold put_pixel. rewrite (put_same _ _ _ _ N). cbn [and_then].
  f_equal. f_equal. replace (Image (i_width i) (i_height i) (i_data i)) with i by (destruct i; reflexivity). destruct w as [im nm ob]. destruct S as [id sec i E|o i E]; cbn [key store w_images w_names w_objects] in *; rewrite (put_same _ _ _ _ E); reflexivity.
Qed.
Theorem C77_size : forall w stk iv v i, arg stk iv v -> stands w v i -> image_size w (stk ++ [iv]) = Got (VVec4 (V4 (g_of_Z (i_width i)) (g_of_Z (i_height i)) (g_of_Z 0) (g_of_Z 0)), w, stk).
Proof. intros w stk iv v i A S. unfold image_size. rewrite (pop_any_arg _ _ _ A). cbn [and_then]. rewrite (found_stands _ _ _ S). reflexivity. Qed.
(** A value that stands for no image is an error for all of them. *)
Theorem C77_no_image : forall w stk iv pv cv v pos c, arg stk iv v -> arg (stk ++ [iv]) pv (VVec4 pos) -> arg ((stk ++ [iv]) ++ [pv]) cv (VVec4 c) ->
  (forall i, ~ stands w v i) -> (forall o, v = VRust o -> o < length (w_objects w)) ->
  image_size w (stk ++ [iv]) = Wrong /\ pixel_color w (stk ++ [iv; pv]) = Wrong /\ set_pixel w (stk ++ [iv; pv; cv]) = Wrong.
Proof.
  intros w stk iv pv cv v pos c A1 A2 A3 NS OB. assert (found w v = Wrong) as F.
  { destruct v; cbn; auto.
    - match goal with |- context [nth_error (w_images w) ?n] => destruct (nth_error (w_images w) n) as [i|] eqn:E; auto end. destruct (NS i). now constructor.
    - specialize (OB _ eq_refl). match goal with |- context [nth_error (w_objects w) ?n] => destruct (nth_error (w_objects w) n) as [[i|]|] eqn:E; auto end; [destruct (NS i); now constructor|apply nth_error_None in E; lia]. }
  unfold image_size, pixel_color, set_pixel. rewrite (app2 _ stk iv pv), (app3 _ stk iv pv cv), (pops_vec _ _ _ A3). cbn [and_then]. rewrite (pops_vec _ _ _ A2). cbn [and_then]. rewrite (pop_any_arg _ _ _ A1). cbn [and_then]. rewrite F. auto.
Qed.

(** ** New images *)
Lemma blank : forall w h i, (0 <= w)%Z -> (0 <= h)%Z -> new_image w h = Got i -> full i /\ i_width i = w /\ i_height i = h /\ (forall x y p, shows i x y p <-> (Z.of_nat x < w)%Z /\ (Z.of_nat y < h)%Z /\ p = Px 0 0 0 0).
Proof.
  intros w h i W H N. unfold new_image in N. destruct (ISIZE_MAX <? 4 * w * h)%Z; [discriminate|]. injection N as <-.
  assert (full (Image w h (repeat (Px 0 0 0 0) (Z.to_nat (w * h))))) as F by (split; [exact W|split; [exact H|]]; cbn [i_data i_width i_height]; rewrite repeat_length; nia).
  split; [exact F|]. split; [reflexivity|]. split; [reflexivity|]. intros x y p. rewrite shows_index by exact F. cbn [i_data i_width i_height]. split; intros (X & Y & Q); (split; [exact X|split; [exact Y|]]).
  - apply nth_error_In in Q. now apply repeat_spec in Q.
  - subst p. apply nth_error_repeat. unfold index_of. cbn [i_width]. nia.
Qed.
Lemma good_app : forall w i n, good w -> good_image i -> good (World (w_images w ++ [i]) (w_names w ++ [n]) (w_objects w)).
Proof.
  intros w i n G GI. split; cbn [w_images w_names w_objects].
  - intros k j E. destruct (Nat.lt_ge_cases k (length (w_images w))) as [L|L]; [rewrite nth_error_app1 in E by exact L; now apply (g_images _ G) in E|].
    rewrite nth_error_app2 in E by exact L. destruct (k - length (w_images w)) as [|m]; [injection E as <-; exact GI|destruct m; discriminate].
  - apply (g_objects _ G).
  - rewrite !app_length. cbn. now rewrite (g_names _ G).
Qed.
Lemma good_object : forall w i, good w -> good_image i -> good (World (w_images w) (w_names w) (w_objects w ++ [OImage i])).
Proof.
  intros w i G GI. split; cbn [w_images w_names w_objects]; try apply G.
  intros k j E. destruct (Nat.lt_ge_cases k (length (w_objects w))) as [L|L]; [rewrite nth_error_app1 in E by exact L; now apply (g_objects _ G) in E|].
  rewrite nth_error_app2 in E by exact L. destruct (k - length (w_objects w)) as [|m]; [injection E as <-; exact GI|destruct m; discriminate].
Qed.
Lemma u32_nonneg : forall x, (0 <= f64_to_u32 x)%Z.
Proof. intros x. unfold f64_to_u32. pose proof (usize_nonneg x). lia. Qed.
Lemma last_stands : forall w i n, (Z.of_nat (length (w_images w)) <= 2 ^ 53)%Z -> stands (World (w_images w ++ [i]) n (w_objects w)) (VF64 (f_of_Z (Z.of_nat (length (w_images w)))) None) i.
Proof. intros w i n L. constructor. cbn [w_images]. rewrite P_Array.C09_position by lia. rewrite Nat2Z.id, nth_error_app2, Nat.sub_diag; auto. Qed.
(** the images that were there stay the same *)
Definition keeps (w w' : world) : Prop := forall v i, stands w v i -> stands w' v i.
Lemma keeps_image : forall w i n, keeps w (World (w_images w ++ [i]) n (w_objects w)).
Proof.
  intros w i n v j S. destruct S as [id sec j E|o j E]; constructor; cbn [w_images w_objects]; auto. rewrite nth_error_app1; auto. apply nth_error_Some. congruence.
Qed.
Lemma keeps_object : forall w i n, keeps w (World (w_images w) n (w_objects w ++ [OImage i])).
Proof.
  intros w i n v j S. destruct S as [id sec j E|o j E]; constructor; cbn [w_images w_objects]; auto. rewrite nth_error_app1; auto. apply nth_error_Some. congruence.
Qed.
(** A new image is empty and has the size that was asked for; the result stands for it; all other images stay. If it needs too
    much memory, the process stops. *)
Theorem C77_create : forall w stk nv sv s v, arg stk nv (VStr s) -> arg (stk ++ [nv]) sv (VVec4 v) -> good w -> (Z.of_nat (length (w_images w)) <= 2 ^ 53)%Z ->
  let width := f64_to_u32 (f64_of_f32 (vx v)) in let height := f64_to_u32 (f64_of_f32 (vy v)) in
  ((4 * width * height < 2 ^ 63)%Z -> exists w' r i, create_image_name_size w (stk ++ [nv; sv]) = Got (r, w', stk) /\ good w' /\ keeps w w' /\ w_names w' = w_names w ++ [s] /\ stands w' r i /\
    i_width i = width /\ i_height i = height /\ (forall x y p, shows i x y p <-> (Z.of_nat x < width)%Z /\ (Z.of_nat y < height)%Z /\ p = Px 0 0 0 0)) /\
  ((2 ^ 63 <= 4 * width * height)%Z -> create_image_name_size w (stk ++ [nv; sv]) = Crash).
Proof.
  intros w stk nv sv s v A1 A2 G L width height. unfold create_image_name_size. rewrite app2, (pops_vec _ _ _ A2). cbn [and_then]. rewrite (pops_str _ _ _ A1). cbn [and_then extent fst snd]. fold width. fold height.
  pose proof (u32_nonneg (f64_of_f32 (vx v))) as W. pose proof (u32_nonneg (f64_of_f32 (vy v))) as H. fold width in W. fold height in H. split.
  - intros M. destruct (new_image width height) as [i| |] eqn:N.
    + destruct (blank _ _ _ W H N) as (F & E1 & E2 & SH). cbn [and_then]. do 3 eexists. split; [reflexivity|]. split; [|split; [apply keeps_image|split; [reflexivity|split; [now apply last_stands|auto]]]].
      apply good_app; auto. split; [now apply full_sound|]. intros x y p P. apply SH in P. destruct P as (_ & _ & ->). repeat split; cbn; lia.
    + unfold new_image in N. destruct (ISIZE_MAX <? 4 * width * height)%Z; discriminate.
    + unfold new_image in N. destruct (Z.ltb_spec ISIZE_MAX (4 * width * height)) as [Q|Q]; [unfold ISIZE_MAX in Q; lia|discriminate].
  - intros M. unfold new_image. rewrite (proj2 (Z.ltb_lt _ _)); [reflexivity|]. unfold ISIZE_MAX. lia.
Qed.
Theorem C77_create_object : forall w stk sv v, arg stk sv (VVec4 v) -> good w ->
  let width := f64_to_u32 (f64_of_f32 (vx v)) in let height := f64_to_u32 (f64_of_f32 (vy v)) in
  ((4 * width * height < 2 ^ 63)%Z -> exists w' r i, create_image_size w (stk ++ [sv]) = Got (r, w', stk) /\ good w' /\ keeps w w' /\ w_names w' = w_names w /\ stands w' r i /\ (forall u j, stands w u j -> ~ same u r) /\
    i_width i = width /\ i_height i = height /\ (forall x y p, shows i x y p <-> (Z.of_nat x < width)%Z /\ (Z.of_nat y < height)%Z /\ p = Px 0 0 0 0)) /\
  ((2 ^ 63 <= 4 * width * height)%Z -> create_image_size w (stk ++ [sv]) = Crash).
Proof.
  intros w stk sv v A2 G width height. unfold create_image_size. rewrite (pops_vec _ _ _ A2). cbn [and_then extent fst snd]. fold width. fold height.
  pose proof (u32_nonneg (f64_of_f32 (vx v))) as W. pose proof (u32_nonneg (f64_of_f32 (vy v))) as H. fold width in W. fold height in H. split.
  - intros M. destruct (new_image width height) as [i| |] eqn:N.
    + destruct (blank _ _ _ W H N) as (F & E1 & E2 & SH). cbn [and_then]. exists (World (w_images w) (w_names w) (w_objects w ++ [OImage i])), (VRust (length (w_objects w))), i. split; [reflexivity|]. split; [|split; [apply keeps_object|split; [reflexivity|split; [|split; [|auto]]]]].
      * apply good_object; auto. split; [now apply full_sound|]. intros x y p P. apply SH in P. destruct P as (_ & _ & ->). repeat split; cbn; lia.
      * constructor. cbn [w_objects]. rewrite nth_error_app2, Nat.sub_diag; auto.
      * intros u j S SA. inversion SA; subst. inversion S as [|o j' E]; subst. assert (nth_error (w_objects w) (length (w_objects w)) <> None) as Q by congruence. apply nth_error_Some in Q. lia.
    + unfold new_image in N. destruct (ISIZE_MAX <? 4 * width * height)%Z; discriminate.
    + unfold new_image in N. destruct (Z.ltb_spec ISIZE_MAX (4 * width * height)) as [Q|Q]; [unfold ISIZE_MAX in Q; lia|discriminate].
  - intros M. unfold new_image. rewrite (proj2 (Z.ltb_lt _ _)); [reflexivity|]. unfold ISIZE_MAX. lia.
Qed.
(** A file that can be opened is a new image; otherwise the result is an error value. *)
Theorem C77_load : forall open w stk fv f, arg stk fv (VStr f) -> good w -> (Z.of_nat (length (w_images w)) <= 2 ^ 53)%Z ->
  match open f with
  | Some i => good_image i ->
      (exists w' r, load_image open w (stk ++ [fv]) = Got (VOk r, w', stk) /\ good w' /\ keeps w w' /\ w_names w' = w_names w ++ [f] /\ stands w' r i) /\
      (exists w' r, load_image_obj open w (stk ++ [fv]) = Got (VOk r, w', stk) /\ good w' /\ keeps w w' /\ w_names w' = w_names w /\ stands w' r i)
  | None => (exists e, load_image open w (stk ++ [fv]) = Got (VErr e [], w, stk)) /\ (exists e, load_image_obj open w (stk ++ [fv]) = Got (VErr e [], w, stk))
  end.
Proof.
  intros open w stk fv f A G L. unfold load_image, load_image_obj. rewrite (pops_str _ _ _ A). cbn [and_then]. destruct (open f) as [i|]; [|split; eexists; reflexivity]. intros GI. split; do 2 eexists; (split; [reflexivity|]).
  - split; [now apply good_app|]. split; [apply keeps_image|]. split; [reflexivity|]. now apply last_stands.
  - split; [now apply good_object|]. split; [apply keeps_object|]. split; [reflexivity|]. constructor. cbn [w_objects]. rewrite nth_error_app2, Nat.sub_diag; auto.
Qed.
(** Names are those of the images, in order. Saving is of the image with that number; without one, the process stops. *)
Theorem C77_names : forall w stk, good w -> exists l, image_names w stk = Got (VArray (map VStr l), w, stk) /\ l = w_names w /\ length l = length (w_images w).
Proof. intros w stk G. exists (w_names w). split; [reflexivity|]. split; [reflexivity|]. apply G. Qed.
Theorem C77_save : forall save w stk iv fv id sec f, arg stk iv (VF64 id sec) -> arg (stk ++ [iv]) fv (VStr f) ->
  (forall i, stands w (VF64 id sec) i -> exists r, save_image_file save w (stk ++ [iv; fv]) = Got (r, w, stk) /\ (save i f = true -> r = VOk (VStr f)) /\ (save i f = false -> exists e, r = VErr e [])) /\
  ((forall i, ~ stands w (VF64 id sec) i) -> save_image_file save w (stk ++ [iv; fv]) = Crash).
Proof.
  intros save w stk iv fv id sec f A1 A2. unfold save_image_file. rewrite app2, (pops_str _ _ _ A2). cbn [and_then]. rewrite (pops_usize _ _ _ _ A1). cbn [and_then]. split.
  - intros i S. inversion S as [id' sec' i' E|]; subst. rewrite E. eexists. split; [reflexivity|]. split; intros ->; eauto.
  - intros NS. destruct (nth_error (w_images w) (Z.to_nat (f64_to_usize id))) as [i|] eqn:E; [|reflexivity]. destruct (NS i). now constructor.
Qed.
Print Assumptions C77_bytes. Print Assumptions C77_clamped. Print Assumptions C77_get. Print Assumptions C77_set. Print Assumptions C77_copy. Print Assumptions C77_size.
Print Assumptions C77_no_image. Print Assumptions C77_create. Print Assumptions C77_create_object. Print Assumptions C77_load. Print Assumptions C77_names. Print Assumptions C77_save.

(** ** Examples *)
Definition white : pixel := Px 255 255 255 255.
Definition two_rows : image := Image 3 2 [white; Px 1 2 3 4; white; white; white; Px 9 8 7 6].
Definition w1 : world := World [Image 1 1 [white]; two_rows] ["a"; "b"] [OOther; OImage (Image 0 5 [])].
Lemma two_rows_full : full two_rows.
Proof. vm_compute. repeat split; congruence. Qed.
Lemma pixels_ok : forall i, full i -> Forall is_pixel (i_data i) -> good_image i.
Proof.
  intros i F A. split; [now apply full_sound|]. intros x y p P. apply shows_index in P; auto. destruct P as (_ & _ & N). rewrite Forall_forall in A. apply A. eapply nth_error_In; eauto.
Qed.
Example C77_example_good : good w1.
Proof.
  split; [| |reflexivity].
  - intros [|[|[|n]]] i E; cbn in E; try discriminate; injection E as <-; apply pixels_ok; try (vm_compute; repeat split; congruence); repeat constructor; cbn; lia.
  - intros [|[|[|n]]] i E; cbn in E; try discriminate; injection E as <-. apply pixels_ok; [vm_compute; repeat split; congruence|constructor].
Qed.
Definition half : f32 := gdiv (g_of_Z 1) (g_of_Z 2).
Example C77_example_set : exists w', at_ (V4 (g_of_Z 2) (g_of_Z 1) g0 g0) 2 1 /\ shows two_rows 2 1 (Px 9 8 7 6) /\ stands w1 (VF64 (f_of_Z 1) None) two_rows /\
  set_pixel w1 [VF64 (f_of_Z 1) None; VRef 0; VVec4 (V4 (g_of_Z 2) (g_of_Z 1) g0 g0); VVec4 (V4 half (g_of_Z 2) (SFopp half) (g_of_Z 1))] = Got (w', [VF64 (f_of_Z 1) None]) /\
  w_images w' = [Image 1 1 [white]; Image 3 2 [white; Px 1 2 3 4; white; white; white; Px 127 255 0 255]] /\
  pixel_color w' [VF64 (f_of_Z 1) None; VVec4 (V4 (g_of_Z 3) (g_of_Z 1) g0 g0)] = Wrong.
Proof.
  eexists. split; [vm_compute; auto|]. split; [apply shows_index; [exact two_rows_full|vm_compute; auto]|]. split; [constructor; reflexivity|]. split; [vm_compute; reflexivity|]. split; vm_compute; reflexivity.
Qed.

(** ** What does not hold *)
(** The functions are declared for any number; saving stops the process for one without an image. *)
Theorem C77_save_refuted : ~ forall save w stk id f, good w -> save_image_file save w (stk ++ [VF64 id None; VStr f]) <> Crash.
Proof. intros H. apply (H (fun _ _ => true) w1 [] (f_of_Z 2) "x" C77_example_good). vm_compute. reflexivity. Qed.
(** The size of an image that is more than 2^24 wide is not told exactly. *)
Theorem C77_size_refuted : ~ forall i j n stk r, image_size (World [i] n []) (stk ++ [VF64 f0 None]) = Got (r, World [i] n [], stk) ->
  image_size (World [j] n []) (stk ++ [VF64 f0 None]) = Got (r, World [j] n [], stk) -> i_width i = i_width j.
Proof.
  intros H. specialize (H (Image (2 ^ 24) 0 []) (Image (2 ^ 24 + 1) 0 []) ["a"] [] (VVec4 (V4 (g_of_Z (2 ^ 24)) g0 g0 g0))).
  assert (2 ^ 24 = 2 ^ 24 + 1)%Z as Q; [apply H; vm_compute; reflexivity|]. discriminate.
Qed.
Print Assumptions C77_save_refuted. Print Assumptions C77_size_refuted.
