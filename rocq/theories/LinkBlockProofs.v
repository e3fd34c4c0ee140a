(** Lemmas about blocks: tag words and slots. *)
From Coq Require Import String List Arith NArith Bool Lia.
From Verif Require Import LinkModel.
Import ListNotations.
Local Open Scope list_scope.

Lemma upd_length {A} n (x : A) l : length (upd n x l) = length l.
Proof. revert n; induction l; destruct n; simpl; auto. Qed.
Lemma nth_upd_same {A} n (x d : A) l : n < length l -> nth n (upd n x l) d = x.
Proof. revert n; induction l; destruct n; simpl; intros; try lia; auto. apply IHl; lia. Qed.
Lemma nth_upd_other {A} n k (x d : A) l : n <> k -> nth k (upd n x l) d = nth k l d.
Proof. revert n k; induction l; destruct n, k; simpl; intros; try lia; auto. Qed.
Lemma nth_error_upd_same {A} n (x : A) l : n < length l -> nth_error (upd n x l) n = Some x.
Proof. revert n; induction l; destruct n; simpl; intros; try lia; auto. apply IHl; lia. Qed.
Lemma nth_error_upd_other {A} n k (x : A) l : n <> k -> nth_error (upd n x l) k = nth_error l k.
Proof. revert n k; induction l; destruct n, k; simpl; intros; try lia; auto. Qed.

Lemma testbit_ones64 n : N.testbit ones64 n = (n <? 64)%N.
Proof.
  change ones64 with (N.ones 64).
  destruct (N.ltb_spec n 64).
  - apply N.ones_spec_low; lia.
  - apply N.ones_spec_high; lia.
Qed.

Lemma testbit_3 n : N.testbit 3 n = (n <? 2)%N.
Proof. change 3%N with (N.ones 2). destruct (N.ltb_spec n 2).
  - apply N.ones_spec_low; lia.
  - apply N.ones_spec_high; lia. Qed.

Lemma tagbits w sh i : N.testbit (N.land (N.shiftr w sh) 3) i = N.testbit w (i + sh) && (i <? 2)%N.
Proof. now rewrite N.land_spec, N.shiftr_spec', testbit_3. Qed.

Lemma testbit_small t i : (t < 4)%N -> (2 <= i)%N -> N.testbit t i = false.
Proof.
  intros Ht Hi. destruct (N.eq_dec t 0) as [->|]. apply N.bits_0.
  apply N.bits_above_log2. enough (N.log2 t < 2)%N by lia.
  apply N.log2_lt_pow2; simpl; lia.
Qed.

Lemma set_tag_bits w sh t n : (sh <= 62)%N -> (t < 4)%N ->
  N.testbit (set_tag w sh t) n =
  if (sh <=? n)%N && (n <? sh + 2)%N then N.testbit t (n - sh)
  else N.testbit w n && (n <? 64)%N.
Proof.
  intros Hs Ht. unfold set_tag, not64.
  rewrite N.lor_spec, N.land_spec, N.lxor_spec, testbit_ones64.
  destruct (N.leb_spec sh n).
  - rewrite !N.shiftl_spec_high' by lia. rewrite testbit_3.
    destruct (N.ltb_spec n (sh + 2)); simpl.
    + replace (n - sh <? 2)%N with true by (symmetry; apply N.ltb_lt; lia).
      replace (n <? 64)%N with true by (symmetry; apply N.ltb_lt; lia).
      simpl. now rewrite andb_false_r.
    + replace (n - sh <? 2)%N with false by (symmetry; apply N.ltb_ge; lia).
      rewrite (testbit_small t) by lia. simpl. rewrite orb_false_r. now destruct (n <? 64)%N.
  - rewrite !N.shiftl_spec_low by lia. simpl. rewrite orb_false_r. now destruct (n <? 64)%N.
Qed.

Lemma get_set_tag_same w sh t : (sh <= 62)%N -> (t < 4)%N ->
  N.land (N.shiftr (set_tag w sh t) sh) 3 = t.
Proof.
  intros. apply N.bits_inj; intro i. rewrite tagbits, set_tag_bits by auto.
  replace (sh <=? i + sh)%N with true by (symmetry; apply N.leb_le; lia).
  destruct (N.ltb_spec i 2).
  - replace (i + sh <? sh + 2)%N with true by (symmetry; apply N.ltb_lt; lia). simpl.
    rewrite andb_true_r. f_equal; lia.
  - rewrite andb_false_r. symmetry; apply testbit_small; lia.
Qed.

Lemma get_set_tag_other w sh sh' t : (sh <= 62)%N -> (sh' <= 62)%N -> (t < 4)%N ->
  (sh + 2 <= sh' \/ sh' + 2 <= sh)%N ->
  N.land (N.shiftr (set_tag w sh t) sh') 3 = N.land (N.shiftr w sh') 3.
Proof.
  intros. apply N.bits_inj; intro i. rewrite !tagbits, set_tag_bits by auto.
  destruct (N.ltb_spec i 2); [|now rewrite !andb_false_r].
  rewrite !andb_true_r.
  replace ((sh <=? i + sh')%N && (i + sh' <? sh + 2)%N) with false.
  - replace (i + sh' <? 64)%N with true by (symmetry; apply N.ltb_lt; lia).
    now rewrite andb_true_r.
  - symmetry. apply andb_false_iff. destruct (N.leb_spec sh (i+sh')), (N.ltb_spec (i+sh') (sh+2)); auto; lia.
Qed.

(** well-formed block: array sizes *)
Definition wfb (c : block) := length (data c) = BLOCK_SIZE /\ length (tys c) = 4.

Lemma wfb_new : wfb block_new.
Proof. split; reflexivity. Qed.

Lemma word_lt k : k < BLOCK_SIZE -> word_of k < 4.
Proof. unfold BLOCK_SIZE, word_of. intros. apply Nat.div_lt_upper_bound; lia. Qed.
Lemma shift_le k : (shift_of k <= 62)%N.
Proof.
  unfold shift_of, word_of. pose proof (Nat.div_mod k 32 ltac:(lia)).
  pose proof (Nat.mod_upper_bound k 32 ltac:(lia)). lia.
Qed.
Lemma shift_diff k k' : word_of k = word_of k' -> k <> k' ->
  (shift_of k + 2 <= shift_of k' \/ shift_of k' + 2 <= shift_of k)%N.
Proof.
  unfold shift_of. intros E NE. rewrite E.
  assert (word_of k' * 32 <= k' /\ word_of k' * 32 <= k).
  { split. unfold word_of. pose proof (Nat.div_mod k' 32 ltac:(lia)); lia.
    rewrite <- E. unfold word_of. pose proof (Nat.div_mod k 32 ltac:(lia)); lia. }
  lia.
Qed.

Lemma raw_tag_lt r : (raw_tag r < 4)%N.
Proof. destruct r; reflexivity. Qed.
Lemma raw_tag_nz r : raw_tag r <> 0%N.
Proof. destruct r; discriminate. Qed.

Lemma block_push_ok c r pos : pos < BLOCK_SIZE -> exists c', block_push c r pos = Ok c'.
Proof.
  intros H. unfold block_push. apply Nat.ltb_lt in H. rewrite H. simpl. eauto.
Qed.

Lemma block_push_inv c r pos c' : block_push c r pos = Ok c' ->
  pos < BLOCK_SIZE /\
  c' = mkBlock (upd pos (raw_word r) (data c))
     (upd (word_of pos) (set_tag (nth (word_of pos) (tys c) 0%N) (shift_of pos) (raw_tag r)) (tys c)).
Proof.
  unfold block_push. destruct (Nat.ltb_spec pos BLOCK_SIZE); simpl; intros E; [|discriminate].
  inversion E; auto.
Qed.

Lemma push_wfb c r pos c' : wfb c -> block_push c r pos = Ok c' -> wfb c'.
Proof.
  intros [A B] E. apply block_push_inv in E as [_ ->]. split; simpl; rewrite upd_length; auto.
Qed.

Lemma push_tag_same c r pos c' : wfb c -> block_push c r pos = Ok c' -> tag c' pos = raw_tag r.
Proof.
  intros [A B] E. apply block_push_inv in E as [L ->]. unfold tag; simpl.
  rewrite nth_upd_same by (rewrite B; apply word_lt; auto).
  apply get_set_tag_same. apply shift_le. apply raw_tag_lt.
Qed.
Lemma push_tag_other c r pos c' k : wfb c -> block_push c r pos = Ok c' -> k <> pos ->
  tag c' k = tag c k.
Proof.
  intros [A B] E NE. apply block_push_inv in E as [L ->]. unfold tag; simpl.
  destruct (Nat.eq_dec (word_of pos) (word_of k)) as [W|W].
  - rewrite <- W. rewrite nth_upd_same by (rewrite B; apply word_lt; auto).
    apply get_set_tag_other; auto using shift_le, raw_tag_lt.
    apply shift_diff; auto.
  - now rewrite nth_upd_other by auto.
Qed.
Lemma push_data_same c r pos c' : wfb c -> block_push c r pos = Ok c' ->
  nth pos (data c') 0%N = raw_word r.
Proof.
  intros [A B] E. apply block_push_inv in E as [L ->]. simpl. apply nth_upd_same. lia.
Qed.
Lemma push_data_other c r pos c' k : wfb c -> block_push c r pos = Ok c' -> k <> pos ->
  nth k (data c') 0%N = nth k (data c) 0%N.
Proof.
  intros [A B] E NE. apply block_push_inv in E as [L ->]. simpl. apply nth_upd_other; auto.
Qed.

(** reading back what was pushed *)
Lemma push_var_same c r pos c' : wfb c -> block_push c r pos = Ok c' -> block_var c' pos = Ok r.
Proof.
  intros W E. unfold block_var.
  rewrite (push_tag_same _ _ _ _ W E), (push_data_same _ _ _ _ W E).
  apply block_push_inv in E as [L _]. apply Nat.ltb_lt in L. rewrite L. simpl.
  destruct r; simpl; auto.
  - destruct b; reflexivity.
  - now rewrite Nnat.Nat2N.id.
Qed.
Lemma push_var_other c r pos c' k : wfb c -> block_push c r pos = Ok c' -> k <> pos ->
  block_var c' k = block_var c k.
Proof.
  intros W E NE. unfold block_var.
  now rewrite (push_tag_other _ _ _ _ _ W E), (push_data_other _ _ _ _ _ W E) by auto.
Qed.

(** the first [n] slots are in use and the others are EMPTY *)
Definition fill (c : block) (n : nat) :=
  n <= BLOCK_SIZE /\ (forall k, k < n -> tag c k <> 0%N) /\
  (forall k, n <= k < BLOCK_SIZE -> tag c k = 0%N).

Lemma tag_new k : tag block_new k = 0%N.
Proof.
  unfold tag, block_new. cbn [tys].
  assert (E : nth (word_of k) (repeat 0%N 4) 0%N = 0%N) by apply nth_repeat.
  rewrite E. now rewrite N.shiftr_0_l.
Qed.
Lemma fill_new : fill block_new 0.
Proof. repeat split; intros. apply Nat.le_0_l. lia. apply tag_new. Qed.

Lemma tag_cases c k : tag c k = 0%N \/ tag c k = 1%N \/ tag c k = 2%N \/ tag c k = 3%N.
Proof.
  unfold tag. set (x := N.land _ 3).
  assert (x < 4)%N. { unfold x. change 3%N with (N.ones 2). rewrite N.land_ones. apply N.mod_lt. discriminate. }
  lia.
Qed.

Lemma fill_var c n k : fill c n -> k < n -> exists r, block_var c k = Ok r.
Proof.
  intros (A & B & _) L. unfold block_var.
  replace (k <? BLOCK_SIZE) with true by (symmetry; apply Nat.ltb_lt; lia). simpl.
  specialize (B k L). destruct (tag_cases c k) as [E|[E|[E|E]]]; rewrite E in *; simpl; eauto. congruence.
Qed.

Lemma fill_push c n r pos c' : wfb c -> fill c n -> pos <= n -> block_push c r pos = Ok c' ->
  fill c' (max n (S pos)).
Proof.
  intros W (A & B & C) L E. pose proof (block_push_inv _ _ _ _ E) as [P _].
  split; [lia|]. split; intros k K.
  - destruct (Nat.eq_dec k pos) as [->|NE].
    + rewrite (push_tag_same _ _ _ _ W E). apply raw_tag_nz.
    + rewrite (push_tag_other _ _ _ _ _ W E NE). apply B. lia.
  - rewrite (push_tag_other _ _ _ _ _ W E) by lia. apply C; lia.
Qed.

(** strings stored in a slot *)
Definition str_at (c : block) (k : nat) : list nat :=
  if N.eqb (tag c k) STR then [N.to_nat (nth k (data c) 0%N)] else [].

Lemma str_ptrs_fill c n : fill c n -> forall m k, k <= n -> k + m = BLOCK_SIZE ->
  str_ptrs c m k = flat_map (str_at c) (seq k (n - k)).
Proof.
  intros (A & B & C). induction m; intros k L E.
  - replace (n - k) with 0 by lia. reflexivity.
  - cbn [str_ptrs]. destruct (Nat.eq_dec k n) as [->|NE].
    + rewrite (C n) by lia. rewrite Nat.sub_diag. reflexivity.
    + replace (n - k) with (S (n - S k)) by lia. cbn [seq flat_map]. unfold str_at at 1.
      specialize (B k ltac:(lia)). apply N.eqb_neq in B. unfold EMPTY. rewrite B.
      rewrite IHm by lia.
      destruct (N.eqb (tag c k) STR); reflexivity.
Qed.
Lemma block_strs_fill c n : fill c n -> block_strs c = flat_map (str_at c) (seq 0 n).
Proof.
  intros F. unfold block_strs. rewrite (str_ptrs_fill c n F) by (destruct F; lia).
  now rewrite Nat.sub_0_r.
Qed.

Definition cnt (l : list nat) (p : nat) : nat := count_occ Nat.eq_dec l p.
Lemma cnt_app l1 l2 p : cnt (l1 ++ l2) p = cnt l1 p + cnt l2 p.
Proof. apply count_occ_app. Qed.
Lemma cnt_cons x l p : cnt (x :: l) p = (if Nat.eq_dec x p then 1 else 0) + cnt l p.
Proof. unfold cnt; simpl. destruct Nat.eq_dec; reflexivity. Qed.
Lemma cnt_nil p : cnt [] p = 0. Proof. reflexivity. Qed.
Lemma cnt_In l p : In p l <-> cnt l p > 0.
Proof. apply count_occ_In. Qed.

Definition raw_strs (r : raw) : list nat := match r with RStr p => [p] | _ => [] end.

Lemma str_at_var c k r : block_var c k = Ok r -> str_at c k = raw_strs r.
Proof.
  unfold block_var, str_at. destruct (k <? BLOCK_SIZE); simpl; [|discriminate].
  destruct (tag_cases c k) as [E|[E|[E|E]]]; rewrite E; simpl; intros X; inversion X; reflexivity.
Qed.

Lemma flat_map_ext_in {A B} (f g : A -> list B) l :
  (forall x, In x l -> f x = g x) -> flat_map f l = flat_map g l.
Proof. induction l; simpl; intros H; auto. rewrite H by auto. rewrite IHl; auto. Qed.

Lemma block_strs_push c n r pos c' p : wfb c -> fill c n -> pos <= n -> block_push c r pos = Ok c' ->
  cnt (block_strs c') p <= cnt (block_strs c) p + cnt (raw_strs r) p /\
  (pos = n -> cnt (block_strs c') p = cnt (block_strs c) p + cnt (raw_strs r) p).
Proof.
  intros W F L E. rewrite (block_strs_fill c n F).
  rewrite (block_strs_fill c' _ (fill_push _ _ _ _ _ W F L E)).
  assert (O : forall k, k <> pos -> str_at c' k = str_at c k).
  { intros k NE. unfold str_at. now rewrite (push_tag_other _ _ _ _ _ W E), (push_data_other _ _ _ _ _ W E). }
  assert (S0 : str_at c' pos = raw_strs r).
  { apply str_at_var. eapply push_var_same; eauto. }
  replace (max n (S pos)) with (pos + (1 + (max n (S pos) - S pos))) by lia.
  rewrite !seq_app, !flat_map_app, !cnt_app.
  replace n with (pos + (n - pos)) at 2 by lia. rewrite seq_app, flat_map_app, cnt_app.
  rewrite (flat_map_ext_in (str_at c') (str_at c) (seq 0 pos))
    by (intros x X; apply in_seq in X; apply O; lia).
  rewrite (flat_map_ext_in (str_at c') (str_at c) (seq (0 + pos + 1) _))
    by (intros x X; apply in_seq in X; apply O; lia).
  cbn [seq flat_map]. rewrite app_nil_r. replace (0 + pos) with pos by lia. rewrite S0.
  destruct (Nat.eq_dec n pos) as [->|NE].
  - replace (max pos (S pos) - S pos) with 0 by lia. rewrite Nat.sub_diag. cbn. lia.
  - replace (max n (S pos) - S pos) with (n - S pos) by lia.
    replace (n - pos) with (1 + (n - S pos)) by lia. rewrite seq_app, flat_map_app, cnt_app.
    cbn [seq flat_map]. lia.
Qed.

Lemma block_strs_In c n k p : fill c n -> k < n -> block_var c k = Ok (RStr p) -> In p (block_strs c).
Proof.
  intros F L E. rewrite (block_strs_fill c n F). apply in_flat_map. exists k.
  split. apply in_seq; lia. rewrite (str_at_var _ _ _ E). left; reflexivity.
Qed.
