(** Memory invariant of links and its preservation by every operation. *)
From Coq Require Import String List Arith NArith Bool Lia ZifyBool.
From Verif Require Import LinkModel LinkBlockProofs.
Import ListNotations.
Local Open Scope list_scope.
Local Opaque block_strs BLOCK_SIZE.

Ltac cnts := repeat progress (rewrite ?map_app, ?cnt_cons, ?cnt_app, ?cnt_nil; cbn [map blk]); lia.

Definition ocnt (p : nat) (o : option (block * nat)) : nat :=
  match o with Some (c, _) => cnt (block_strs c) p | None => 0 end.
Definition bcount (m : mem) (p : nat) : nat := list_sum (map (ocnt p) (blocks m)).

(** When [e] holds the counts of strings are exact and every slice ends at the last used slot
    of its block (true as long as [neck] is not used); otherwise counts may be too high. *)
Section Exact.
Context {e : bool}.

(** [R]: block references held by live handles; [H]: string references held outside blocks *)
Definition Inv (m : mem) (R H : list nat) : Prop :=
  (forall b, match nth_error (blocks m) b with
             | Some (Some (c, rc)) => wfb c /\ (exists n, fill c n) /\ rc = cnt R b /\ rc > 0
             | _ => cnt R b = 0 end) /\
  (forall p, match nth_error (strs m) p with
             | Some (Some (s, rc)) => rc > 0 /\ cnt H p + bcount m p <= rc /\ (e = true -> cnt H p + bcount m p = rc)
             | _ => cnt H p + bcount m p = 0 end).

Lemma Inv_ext m R R' H H' : (forall b, cnt R b = cnt R' b) -> (forall p, cnt H p = cnt H' p) ->
  Inv m R H -> Inv m R' H'.
Proof.
  intros E1 E2 [A B]. split; intros x.
  - rewrite <- E1. apply A.
  - rewrite <- E2. apply B.
Qed.

(** fewer held strings *)
Definition sget (m : mem) (p : nat) : option string :=
  match nth_error (strs m) p with Some (Some (s, _)) => Some s | _ => None end.

Lemma list_sum_upd {A} (f : A -> nat) i x l old : nth_error l i = Some old ->
  list_sum (map f (upd i x l)) + f old = list_sum (map f l) + f x.
Proof.
  revert i; induction l; destruct i; simpl; intros E; try discriminate.
  - inversion E; subst. change (list_sum (f x :: map f l) + f old = list_sum (f old :: map f l) + f x).
    simpl. lia.
  - specialize (IHl _ E). unfold list_sum in *. simpl. lia.
Qed.

Lemma nth_error_lt {A} (l : list A) i x : nth_error l i = Some x -> i < length l.
Proof. intros E. apply nth_error_Some. congruence. Qed.

Lemma list_sum_ge {A} (f : A -> nat) l i x : nth_error l i = Some x -> f x <= list_sum (map f l).
Proof.
  revert i; induction l; destruct i; simpl; intros E; try discriminate.
  - inversion E; subst. unfold list_sum; simpl. lia.
  - apply IHl in E. unfold list_sum in *; simpl. lia.
Qed.

Lemma get_block_inv m b c rc : get_block m b = Ok (c, rc) -> nth_error (blocks m) b = Some (Some (c, rc)).
Proof. unfold get_block. destruct nth_error as [[|]|]; intros E; inversion E; auto. Qed.
Lemma get_block_eq m b c rc : nth_error (blocks m) b = Some (Some (c, rc)) -> get_block m b = Ok (c, rc).
Proof. unfold get_block. now intros ->. Qed.
Lemma get_str_eq m p s rc : nth_error (strs m) p = Some (Some (s, rc)) -> get_str m p = Ok (s, rc).
Proof. unfold get_str. now intros ->. Qed.

Lemma Inv_block m R H b : Inv m R H -> cnt R b > 0 ->
  exists c n, get_block m b = Ok (c, cnt R b) /\ wfb c /\ fill c n.
Proof.
  intros [A _] G. specialize (A b). unfold get_block.
  destruct (nth_error (blocks m) b) as [[[c rc]|]|]; try lia.
  destruct A as (W & (n & F) & -> & _). eauto.
Qed.
Lemma Inv_live m R H b c rc : Inv m R H -> get_block m b = Ok (c, rc) ->
  wfb c /\ (exists n, fill c n) /\ rc = cnt R b /\ rc > 0.
Proof. intros [A _] G. apply get_block_inv in G. specialize (A b). now rewrite G in A. Qed.

Lemma Inv_str m R H p : Inv m R H -> cnt H p + bcount m p > 0 ->
  exists s rc, nth_error (strs m) p = Some (Some (s, rc)) /\ cnt H p + bcount m p <= rc.
Proof.
  intros [_ B] G. specialize (B p).
  destruct (nth_error (strs m) p) as [[[s rc]|]|]; try lia. eexists _, _; split; eauto; lia.
Qed.

Lemma bcount_ge m b c rc p : get_block m b = Ok (c, rc) -> cnt (block_strs c) p <= bcount m p.
Proof.
  intros G. apply get_block_inv in G. unfold bcount.
  exact (list_sum_ge (ocnt p) _ _ _ G).
Qed.

(** ** Denotation of slices and links *)
Definition raw_val (m : mem) (r : raw) : val :=
  match r with
  | RBool b => VBool b | RF64 d => VF64 d
  | RStr p => VStr (match sget m p with Some s => s | None => EmptyString end)
  end.
Definition slot_val (m : mem) (b k : nat) : val :=
  match get_block m b with
  | Ok (c, _) => match block_var c k with Ok r => raw_val m r | Fault _ => VBool false end
  | Fault _ => VBool false
  end.
Definition sval (m : mem) (s : slice) : list val :=
  map (slot_val m (blk s)) (seq (start s) (stop s - start s)).
Definition lval (m : mem) (l : link) : list val := flat_map (sval m) l.

Definition slice_ok (m : mem) (s : slice) : Prop :=
  exists c rc n, get_block m (blk s) = Ok (c, rc) /\ fill c n /\ start s < stop s <= n /\ (e = true -> stop s = n).
Definition link_ok (m : mem) (l : link) := Forall (slice_ok m) l.

Definition keep (m m' : mem) (s : slice) : Prop :=
  slice_ok m s -> slice_ok m' s /\ sval m' s = sval m s.

Lemma keep_refl m s : keep m m s.
Proof. intros H; auto. Qed.
Lemma keep_trans m1 m2 m3 s : keep m1 m2 s -> keep m2 m3 s -> keep m1 m3 s.
Proof. intros A B H. apply A in H as [H E]. apply B in H as [H E']. split; congruence. Qed.

Lemma keep_intro m m' s :
  (forall c rc, get_block m (blk s) = Ok (c, rc) ->
     (exists rc', get_block m' (blk s) = Ok (c, rc')) /\
     (forall p, In p (block_strs c) -> sget m' p = sget m p)) ->
  keep m m' s.
Proof.
  intros K (c & rc & n & G & F & L). destruct (K _ _ G) as [(rc' & G') S]. split.
  - exists c, rc', n. auto.
  - unfold sval. apply map_ext_in. intros k Hk. apply in_seq in Hk.
    unfold slot_val. rewrite G, G'. destruct (block_var c k) as [r|] eqn:E; auto.
    destruct r; simpl; auto. rewrite S; auto. eapply block_strs_In; eauto. lia.
Qed.

Lemma keep_link m m' l : (forall s, In s l -> keep m m' s) -> link_ok m l ->
  link_ok m' l /\ lval m' l = lval m l.
Proof.
  intros K O. unfold link_ok in *. induction l; simpl; [auto|].
  inversion O; subst. destruct IHl as [A B]; auto. intros; apply K; right; auto.
  destruct (K a) as [A' B']; auto. left; auto.
  split; [constructor; auto|]. unfold lval in *; simpl. congruence.
Qed.

(** ** Strings *)
Lemma str_clone_spec m R H p : Inv m R H -> cnt H p + bcount m p > 0 ->
  exists m', str_clone m p = Ok m' /\ Inv m' R (p :: H) /\ blocks m' = blocks m /\
             (forall q, sget m' q = sget m q).
Proof.
  intros I G. destruct (Inv_str _ _ _ _ I G) as (s & rc & E & L).
  unfold str_clone. rewrite (get_str_eq _ _ _ _ E). cbn [bind].
  eexists; split; [reflexivity|]. split; [|split; [reflexivity|]].
  - destruct I as [A B]. split; [exact A|]. intros q. specialize (B q).
    cbn [set_str strs]. rewrite cnt_cons. change (bcount (set_str m p (Some (s, S rc))) q) with (bcount m q).
    destruct (Nat.eq_dec p q) as [->|NE].
    + rewrite nth_error_upd_same by (eapply nth_error_lt; eauto). rewrite E in B. lia.
    + rewrite nth_error_upd_other by auto. exact B.
  - intros q. unfold sget; simpl. destruct (Nat.eq_dec p q) as [->|NE].
    + rewrite nth_error_upd_same by (eapply nth_error_lt; eauto). now rewrite E.
    + now rewrite nth_error_upd_other by auto.
Qed.

Lemma str_drop_spec m R H p : Inv m R (p :: H) ->
  exists m', str_drop m p = Ok m' /\ Inv m' R H /\ blocks m' = blocks m /\
             (forall q, cnt H q + bcount m q > 0 -> sget m' q = sget m q).
Proof.
  intros I. destruct (Inv_str _ _ _ p I) as (s & rc & E & L).
  { rewrite cnt_cons. destruct Nat.eq_dec; lia. }
  rewrite cnt_cons in L. destruct (Nat.eq_dec p p); [|congruence].
  unfold str_drop. rewrite (get_str_eq _ _ _ _ E). cbn [bind].
  assert (LT : p < length (strs m)) by (eapply nth_error_lt; eauto).
  destruct rc as [|[|rc]]; [lia| |].
  - eexists; split; [reflexivity|]. split; [|split; [reflexivity|]].
    + destruct I as [A B]. split; [exact A|]. intros q. specialize (B q).
      cbn [set_str strs]. change (bcount (set_str m p None) q) with (bcount m q).
      rewrite cnt_cons in B. destruct (Nat.eq_dec p q) as [->|NE].
      * rewrite nth_error_upd_same by auto. lia.
      * rewrite nth_error_upd_other by auto. exact B.
    + intros q G. unfold sget; simpl. destruct (Nat.eq_dec p q) as [->|NE]; [lia|].
      now rewrite nth_error_upd_other by auto.
  - eexists; split; [reflexivity|]. split; [|split; [reflexivity|]].
    + destruct I as [A B]. split; [exact A|]. intros q. specialize (B q).
      cbn [set_str strs]. change (bcount (set_str m p (Some (s, S rc))) q) with (bcount m q).
      rewrite cnt_cons in B. destruct (Nat.eq_dec p q) as [->|NE].
      * rewrite nth_error_upd_same by auto. rewrite E in B. lia.
      * rewrite nth_error_upd_other by auto. exact B.
    + intros q G. unfold sget; simpl. destruct (Nat.eq_dec p q) as [->|NE].
      * rewrite nth_error_upd_same by auto. now rewrite E.
      * now rewrite nth_error_upd_other by auto.
Qed.

Lemma bcount_eq m m' p : blocks m' = blocks m -> bcount m' p = bcount m p.
Proof. unfold bcount. now intros ->. Qed.

Lemma fold_clone_spec L : forall m R H, Inv m R H -> (forall p, In p L -> bcount m p > 0) ->
  exists m', fold_mem str_clone m L = Ok m' /\ Inv m' R (L ++ H) /\ blocks m' = blocks m /\
             (forall q, sget m' q = sget m q).
Proof.
  induction L as [|p L IH]; intros m R H I G; simpl.
  - eexists; repeat split; auto; apply I.
  - destruct (str_clone_spec m R H p I) as (m1 & E & I1 & B1 & S1).
    { specialize (G p (or_introl eq_refl)). lia. }
    rewrite E. cbn [bind].
    destruct (IH m1 R (p :: H) I1) as (m2 & E2 & I2 & B2 & S2).
    { intros q Q. rewrite (bcount_eq m m1) by auto. apply G. now right. }
    exists m2. split; auto. split; [|split].
    + eapply Inv_ext; [reflexivity| |exact I2]. intros q. rewrite !cnt_app, !cnt_cons, cnt_app. lia.
    + congruence.
    + intros q. rewrite S2. apply S1.
Qed.

Lemma fold_drop_spec L : forall m R H, Inv m R (L ++ H) ->
  exists m', fold_mem str_drop m L = Ok m' /\ Inv m' R H /\ blocks m' = blocks m /\
             (forall q, cnt H q + bcount m q > 0 -> sget m' q = sget m q).
Proof.
  induction L as [|p L IH]; intros m R H I; simpl.
  - eexists; repeat split; auto; apply I.
  - destruct (str_drop_spec m R (L ++ H) p I) as (m1 & E & I1 & B1 & S1).
    rewrite E. cbn [bind].
    destruct (IH m1 R H I1) as (m2 & E2 & I2 & B2 & S2).
    exists m2. split; auto. split; [|split]; auto.
    + congruence.
    + intros q Q. rewrite S2. apply S1. rewrite cnt_app. lia.
      rewrite (bcount_eq m m1) by auto. auto.
Qed.

(** string operations commute with block updates *)
Lemma str_drop_set_block m b x p :
  str_drop (set_block m b x) p =
  match str_drop m p with Ok m' => Ok (set_block m' b x) | Fault f => Fault f end.
Proof.
  unfold str_drop, get_str; simpl. destruct nth_error as [[[s rc]|]|]; cbn [bind]; auto.
  destruct rc as [|[|]]; reflexivity.
Qed.
Lemma fold_drop_set_block L : forall m b x,
  fold_mem str_drop (set_block m b x) L =
  match fold_mem str_drop m L with Ok m' => Ok (set_block m' b x) | Fault f => Fault f end.
Proof.
  induction L; intros; simpl; auto. rewrite str_drop_set_block.
  destruct (str_drop m a); cbn [bind]; auto.
Qed.

(** ** Blocks *)
Lemma block_clone_spec m R H b : Inv m R H -> cnt R b > 0 ->
  exists m', block_clone_arc m b = Ok m' /\ Inv m' (b :: R) H /\
             (forall q, sget m' q = sget m q) /\ (forall s, keep m m' s).
Proof.
  intros I G. destruct (Inv_block _ _ _ _ I G) as (c & n & E & W & F).
  unfold block_clone_arc. rewrite E. cbn [bind]. apply get_block_inv in E.
  assert (LT : b < length (blocks m)) by (eapply nth_error_lt; eauto).
  eexists; split; [reflexivity|]. split; [|split; [reflexivity|]].
  - destruct I as [A B]. split.
    + intros b'. specialize (A b'). cbn [set_block blocks]. rewrite cnt_cons.
      destruct (Nat.eq_dec b b') as [<-|NE].
      * rewrite nth_error_upd_same by auto. rewrite E in A. destruct A as (? & ? & ? & ?).
        repeat split; eauto; try lia; apply W.
      * now rewrite nth_error_upd_other.
    + intros p. specialize (B p). replace (bcount (set_block m b (Some (c, S (cnt R b)))) p) with (bcount m p); auto.
      unfold bcount. cbn [set_block blocks].
      pose proof (list_sum_upd (ocnt p) b (Some (c, S (cnt R b))) (blocks m) _ E). simpl in *. lia.
  - intros s. apply keep_intro. intros c0 rc0 G0. apply get_block_inv in G0. split; auto.
    unfold get_block. cbn [set_block blocks]. destruct (Nat.eq_dec b (blk s)) as [EQ|NE].
    + rewrite <- EQ in *. rewrite nth_error_upd_same by auto. rewrite E in G0. inversion G0; subst. eauto.
    + rewrite nth_error_upd_other, G0; eauto.
Qed.

Lemma block_drop_spec m R H b : Inv m (b :: R) H ->
  exists m', block_drop_arc m b = Ok m' /\ Inv m' R H /\
             (forall q, cnt H q + bcount m' q > 0 -> sget m' q = sget m q) /\
             (forall b', b' <> b -> get_block m' b' = get_block m b') /\
             (forall s, In (blk s) R -> keep m m' s).
Proof.
  intros I. destruct (Inv_block _ _ _ b I) as (c & n & E & W & F).
  { rewrite cnt_cons. destruct Nat.eq_dec; lia. }
  rewrite cnt_cons in E. destruct (Nat.eq_dec b b); [|congruence]. 
  unfold block_drop_arc. rewrite E. cbn [bind]. pose proof (get_block_inv _ _ _ _ E) as EN.
  assert (LT : b < length (blocks m)) by (eapply nth_error_lt; eauto).
  destruct (cnt R b) as [|rc] eqn:RC.
  - (* last reference: the block is freed *)
    cbn [plus]. set (m0 := set_block m b None).
    assert (I0 : Inv m0 R (block_strs c ++ H)).
    { destruct I as [A B]. split.
      - intros b'. specialize (A b'). unfold m0; cbn [set_block blocks]. rewrite cnt_cons in A.
        destruct (Nat.eq_dec b b') as [<-|NE].
        + rewrite nth_error_upd_same by auto. auto.
        + rewrite nth_error_upd_other by auto. exact A.
      - intros p. specialize (B p). 
        assert (X : bcount m0 p + cnt (block_strs c) p = bcount m p).
        { unfold bcount, m0. cbn [set_block blocks].
          pose proof (list_sum_upd (ocnt p) b None (blocks m) _ EN). simpl in *. lia. }
        unfold m0 at 1; cbn [set_block strs]. rewrite cnt_app.
        destruct (nth_error (strs m) p) as [[[s rc]|]|]; lia. }
    destruct (fold_drop_spec (block_strs c) m0 R H I0) as (m1 & E1 & I1 & B1 & S1).
    unfold m0 in E1. rewrite fold_drop_set_block in E1.
    destruct (fold_mem str_drop m (block_strs c)) as [m2|]; [|discriminate].
    cbn [bind]. inversion E1; subst m1. eexists; split; [reflexivity|]. split; [exact I1|]. split; [|split].
    + intros q Q. rewrite S1. reflexivity. rewrite <- (bcount_eq _ _ q B1). auto.
    + intros b' NB. transitivity (get_block m0 b').
      * unfold get_block. now rewrite B1.
      * unfold m0, get_block; cbn [set_block blocks]. now rewrite nth_error_upd_other by auto.
    + intros s S. apply keep_intro. intros c0 rc0 G0.
      assert (NE : b <> blk s). { intros ->. apply cnt_In in S. lia. }
      assert (G1 : get_block m0 (blk s) = Ok (c0, rc0)).
      { unfold m0, get_block; cbn [set_block blocks]. rewrite nth_error_upd_other by auto. exact G0. }
      split.
      * exists rc0. rewrite <- G1. unfold get_block. now rewrite B1.
      * intros p P. rewrite S1. reflexivity. pose proof (bcount_ge m0 _ _ _ p G1). apply cnt_In in P. lia.
  - cbn [plus]. eexists; split; [reflexivity|]. split; [|split; [reflexivity|split]].
    + destruct I as [A B]. split.
      * intros b'. specialize (A b'). cbn [set_block blocks]. rewrite cnt_cons in A.
        destruct (Nat.eq_dec b b') as [<-|NE].
        -- rewrite nth_error_upd_same by auto. rewrite EN in A. destruct A as (? & ? & ? & ?).
           repeat split; eauto; try lia; apply W.
        -- now rewrite nth_error_upd_other.
      * intros p. specialize (B p). replace (bcount (set_block m b (Some (c, S rc))) p) with (bcount m p); auto.
        unfold bcount. cbn [set_block blocks].
        pose proof (list_sum_upd (ocnt p) b (Some (c, S rc)) (blocks m) _ EN). simpl in *. lia.
    + intros b' NB. unfold get_block. cbn [set_block blocks]. now rewrite nth_error_upd_other by auto.
    + intros s S. apply keep_intro. intros c0 rc0 G0. apply get_block_inv in G0. split; auto.
      unfold get_block. cbn [set_block blocks]. destruct (Nat.eq_dec b (blk s)) as [EQ|NE].
      * rewrite <- EQ in *. rewrite nth_error_upd_same by auto. rewrite EN in G0. inversion G0; subst. eauto.
      * rewrite nth_error_upd_other, G0; eauto.
Qed.

Lemma nth_error_snoc {A} (l : list A) x k :
  nth_error (l ++ [x]) k = if Nat.eq_dec k (length l) then Some x else nth_error l k.
Proof.
  destruct Nat.eq_dec as [->|NE].
  - rewrite nth_error_app2, Nat.sub_diag by lia. reflexivity.
  - destruct (Nat.lt_ge_cases k (length l)).
    + now rewrite nth_error_app1.
    + rewrite nth_error_app2 by lia. destruct (k - length l) as [|j] eqn:E; [lia|].
      simpl. replace (nth_error [] j) with (@None A) by (now destruct j). symmetry. apply nth_error_None. lia.
Qed.

Lemma Inv_fresh m R H : Inv m R H -> cnt R (length (blocks m)) = 0.
Proof.
  intros [A _]. specialize (A (length (blocks m))).
  replace (nth_error (blocks m) (length (blocks m))) with (@None (option (block * nat))) in A; auto.
  symmetry; apply nth_error_None; lia.
Qed.

Lemma block_new_spec m R H c n : Inv m R (block_strs c ++ H) -> wfb c -> fill c n ->
  let m' := fst (block_new_arc m c) in let b := snd (block_new_arc m c) in
  Inv m' (b :: R) H /\ get_block m' b = Ok (c, 1) /\ cnt R b = 0 /\
  (forall q, sget m' q = sget m q) /\ (forall s, keep m m' s).
Proof.
  intros I W F. cbn [block_new_arc fst snd]. cbv zeta. pose proof (Inv_fresh _ _ _ I) as FR.
  split; [|split; [|split; [exact FR|split; [reflexivity|]]]].
  - destruct I as [A B]. split.
    + intros b'. specialize (A b'). cbn [blocks]. rewrite nth_error_snoc, cnt_cons.
      destruct (Nat.eq_dec b' (length (blocks m))) as [->|NE].
      * destruct Nat.eq_dec; [|congruence]. repeat split; eauto; try lia; apply W.
      * destruct Nat.eq_dec; [congruence|]. exact A.
    + intros p. specialize (B p). cbn [strs]. rewrite cnt_app in B.
      assert (X : bcount {| blocks := blocks m ++ [Some (c, 1)]; strs := strs m |} p
                  = bcount m p + cnt (block_strs c) p).
      { unfold bcount. cbn [blocks]. rewrite map_app, list_sum_app. simpl. lia. }
      rewrite X. destruct (nth_error (strs m) p) as [[[s rc]|]|]; lia.
  - apply get_block_eq. cbn [blocks]. rewrite nth_error_snoc. destruct Nat.eq_dec; congruence.
  - intros s. apply keep_intro. intros c0 rc0 G. split; auto. exists rc0.
    apply get_block_inv in G. apply get_block_eq. cbn [blocks]. rewrite nth_error_snoc.
    destruct Nat.eq_dec; auto. apply nth_error_lt in G. lia.
Qed.

Lemma make_mut_spec m R H b : Inv m (b :: R) H ->
  exists m' b' c n, make_mut m b = Ok (m', b') /\ Inv m' (b' :: R) H /\ cnt R b' = 0 /\
     (exists rc, get_block m b = Ok (c, rc)) /\
     get_block m' b' = Ok (c, 1) /\ wfb c /\ fill c n /\
     (forall q, In q (block_strs c ++ H) -> sget m' q = sget m q) /\
     (forall s, In (blk s) R -> keep m m' s).
Proof.
  intros I. destruct (Inv_block _ _ _ b I) as (c & n & E & W & F).
  { rewrite cnt_cons. destruct Nat.eq_dec; lia. }
  rewrite cnt_cons in E. destruct (Nat.eq_dec b b); [|congruence]. cbn [plus] in E.
  unfold make_mut. rewrite E. cbn [bind]. destruct (Nat.eqb_spec (S (cnt R b)) 1) as [EQ|NE].
  - exists m, b, c, n. rewrite E. assert (cnt R b = 0) by lia. rewrite H0.
    repeat match goal with |- _ /\ _ => split end; eauto using keep_refl.
  - destruct (fold_clone_spec (block_strs c) m (b :: R) H I) as (m1 & E1 & I1 & B1 & S1).
    { intros p P. pose proof (bcount_ge m _ _ _ p E). apply cnt_In in P. lia. }
    rewrite E1. cbn [bind].
    destruct (block_new_spec m1 (b :: R) H c n I1 W F) as (I2 & G2 & F2 & S2 & K2).
    destruct (block_new_arc m1 c) as [m2 b'] eqn:EN. cbn [fst snd] in *.
    assert (NB : b' <> b). { intros ->. rewrite cnt_cons in F2. destruct (Nat.eq_dec b b); [lia|congruence]. }
    destruct (block_drop_spec m2 (b' :: R) H b) as (m3 & E3 & I3 & S3 & N3 & K3).
    { eapply Inv_ext; [|reflexivity|exact I2]. intros x. rewrite !cnt_cons. lia. }
    rewrite E3. cbn [bind].
    assert (C0 : cnt R b' = 0). { rewrite cnt_cons in F2. lia. }
    exists m3, b', c, n. 
    assert (KS : forall s, In (blk s) R -> keep m m3 s).
    { intros s S. eapply keep_trans; [|apply K3; right; auto].
      eapply keep_trans; [|apply K2]. apply keep_intro. intros c0 rc0 G0. split.
      - exists rc0. unfold get_block in *. now rewrite B1.
      - intros; apply S1. }
    assert (G3 : get_block m3 b' = Ok (c, 1)).
    { rewrite N3; auto. }
    repeat match goal with |- _ /\ _ => split end; eauto using keep_refl.
    intros q Q. rewrite S3, S2; auto. pose proof (bcount_ge m3 _ _ _ q G3).
    apply in_app_iff in Q as [Q|Q]; apply cnt_In in Q; lia.
Qed.

(** ** Slots *)
Lemma slot_push_spec m R H b r pos st c n : Inv m (b :: R) H -> cnt R b = 0 ->
  get_block m b = Ok (c, 1) -> fill c n -> st <= pos <= n -> (e = true -> pos = n) -> pos < BLOCK_SIZE ->
  (forall p, r = RStr p -> In p H) ->
  exists m', slot_push m b r pos = Ok m' /\ Inv m' (b :: R) H /\
    (forall q, sget m' q = sget m q) /\
    (forall s, In (blk s) R -> keep m m' s) /\
    slice_ok m' (mkSlice b st (pos + 1)) /\
    sval m' (mkSlice b st (pos + 1)) = sval m (mkSlice b st pos) ++ [raw_val m r].
Proof.
  intros I R0 G F L PE PB HR. unfold slot_push.
  assert (X : exists m1, match r with RStr p => str_clone m p | _ => Ok m end = Ok m1 /\
              Inv m1 (b :: R) (raw_strs r ++ H) /\ blocks m1 = blocks m /\ (forall q, sget m1 q = sget m q)).
  { destruct r; try (exists m; auto; fail).
    destruct (str_clone_spec m (b :: R) H ptr I) as (m1 & ? & ? & ? & ?); eauto.
    specialize (HR ptr eq_refl). apply cnt_In in HR. lia. }
  destruct X as (m1 & E1 & I1 & B1 & S1). rewrite E1. cbn [bind].
  assert (G1 : get_block m1 b = Ok (c, 1)) by (unfold get_block in *; now rewrite B1).
  rewrite G1. cbn [bind]. destruct (block_push_ok c r pos PB) as [c' P]. rewrite P. cbn [bind].
  destruct (Inv_live _ _ _ _ _ _ I G) as (W & _).
  assert (LT : b < length (blocks m1)) by (eapply nth_error_lt; apply get_block_inv; eauto).
  set (m2 := set_block m1 b (Some (c', 1))).
  assert (G2 : get_block m2 b = Ok (c', 1)).
  { unfold m2, get_block; cbn [set_block blocks]. now rewrite nth_error_upd_same by auto. }
  assert (F2 : fill c' (max n (S pos))) by (eapply fill_push; eauto; lia).
  assert (SG : forall q, sget m2 q = sget m q) by (intros q; rewrite <- S1; reflexivity).
  exists m2. split; [reflexivity|]. split; [|split; [exact SG|split; [|split]]].
  - destruct I1 as [A B]. split.
    + intros b'. specialize (A b'). unfold m2; cbn [set_block blocks].
      destruct (Nat.eq_dec b b') as [<-|NE].
      * rewrite nth_error_upd_same by auto. rewrite (get_block_inv _ _ _ _ G1) in A.
        destruct A as (_ & _ & A1 & A2). split; [eapply push_wfb; eauto|]. split; eauto.
      * rewrite nth_error_upd_other by auto. exact A.
    + intros p. specialize (B p). unfold m2 at 1; cbn [set_block strs].
      assert (Y : bcount m2 p + cnt (block_strs c) p = bcount m1 p + cnt (block_strs c') p).
      { unfold bcount, m2. cbn [set_block blocks].
        exact (list_sum_upd (ocnt p) b (Some (c', 1)) (blocks m1) _ (get_block_inv _ _ _ _ G1)). }
      pose proof (block_strs_push c n r pos c' p W F ltac:(lia) P).
      rewrite cnt_app in B. destruct (nth_error (strs m1) p) as [[[s rc]|]|]; lia.
  - intros s S. apply keep_intro. intros c0 rc0 G0.
    assert (NE : b <> blk s). { intros E0. apply cnt_In in S. rewrite <- E0 in S. lia. }
    split; [|auto]. exists rc0. unfold m2, get_block in *; cbn [set_block blocks].
    rewrite nth_error_upd_other by auto. rewrite B1. exact G0.
  - exists c', 1, (max n (S pos)). split; auto. split; auto. simpl. lia.
  - unfold sval. cbn [blk start stop]. replace (pos + 1 - st) with ((pos - st) + 1) by lia.
    rewrite seq_app, map_app. f_equal.
    + apply map_ext_in. intros k K. apply in_seq in K. unfold slot_val. rewrite G, G2.
      rewrite (push_var_other c r pos c' k W P) by lia.
      destruct (block_var c k) as [x|]; auto. destruct x; simpl; auto. now rewrite SG.
    + simpl. replace (st + (pos - st)) with pos by lia. unfold slot_val. rewrite G2.
      rewrite (push_var_same c r pos c' W P). destruct r; simpl; auto. now rewrite SG.
Qed.

Lemma slot_var_spec m R H s k : Inv m R H -> slice_ok m s -> start s <= k < stop s ->
  exists m' r, slot_var m (blk s) k = Ok (m', r) /\ Inv m' R (raw_strs r ++ H) /\
     blocks m' = blocks m /\ (forall q, sget m' q = sget m q) /\ raw_val m r = slot_val m (blk s) k /\
     raw_val m' r = raw_val m r /\ (forall p, r = RStr p -> exists x, sget m' p = Some x).
Proof.
  intros I (c & rc & n & G & F & L) K. unfold slot_var. rewrite G. cbn [bind].
  destruct (fill_var c n k F ltac:(lia)) as [r V]. rewrite V. cbn [bind].
  assert (SV : slot_val m (blk s) k = raw_val m r) by (unfold slot_val; now rewrite G, V).
  destruct r as [b|d|p].
  - exists m, (RBool b). cbn [raw_strs app]. repeat match goal with |- _ /\ _ => split end; auto. discriminate.
  - exists m, (RF64 d). cbn [raw_strs app]. repeat match goal with |- _ /\ _ => split end; auto. discriminate.
  - destruct (str_clone_spec m R H p I) as (m1 & E & I1 & B1 & S1).
    { pose proof (bcount_ge m _ _ _ p G). pose proof (block_strs_In c n k p F ltac:(lia) V) as X.
      apply cnt_In in X. lia. }
    rewrite E. cbn [bind]. exists m1, (RStr p). cbn [raw_strs app].
    repeat match goal with |- _ /\ _ => split end; auto.
    + simpl. now rewrite S1.
    + intros p' [= <-]. destruct (Inv_str _ _ _ p I1) as (x & rc' & X & _).
      * rewrite cnt_cons. destruct Nat.eq_dec; lia.
      * exists x. unfold sget. now rewrite X.
Qed.

(** ** Links *)
Lemma last_slice_spec l : match last_slice l with
  | None => l = [] | Some s => l = but_last l ++ [s] end.
Proof.
  induction l as [|a l IH]; [reflexivity|]. destruct l as [|b l]; [reflexivity|].
  change (last_slice (a :: b :: l)) with (last_slice (b :: l)).
  change (but_last (a :: b :: l)) with (a :: but_last (b :: l)).
  destruct (last_slice (b :: l)); [|discriminate]. simpl. f_equal. exact IH.
Qed.

Lemma lval_app m a b : lval m (a ++ b) = lval m a ++ lval m b.
Proof. apply flat_map_app. Qed.

Lemma lval_one m s : lval m [s] = sval m s.
Proof. unfold lval, flat_map. apply app_nil_r. Qed.

Lemma raw_strs_In r p : In p (raw_strs r) <-> r = RStr p.
Proof. destruct r; simpl; split; intros; try contradiction; try discriminate; intuition congruence. Qed.

Lemma link_push1_spec m l R H r : Inv m (map blk l ++ R) H -> link_ok m l ->
  (forall p, r = RStr p -> In p H) ->
  exists m' l', link_push1 m l r = Ok (m', l') /\ Inv m' (map blk l' ++ R) H /\ link_ok m' l' /\
    lval m' l' = lval m l ++ [raw_val m r] /\
    (forall q, In q H -> sget m' q = sget m q) /\
    (forall s, In (blk s) R -> keep m m' s).
Proof.
  intros I O HR. unfold link_push1.
  assert (FRESH : exists m' l',
    (let '(m1, b) := block_new_arc m block_new in
      do (m2, b') <- make_mut m1 b;
      do m3 <- slot_push m2 b' r 0;
      Ok (m3, l ++ [mkSlice b' 0 1])) = Ok (m', l') /\ Inv m' (map blk l' ++ R) H /\ link_ok m' l' /\
      lval m' l' = lval m l ++ [raw_val m r] /\
      (forall q, In q H -> sget m' q = sget m q) /\
      (forall s, In (blk s) R -> keep m m' s)).
  { assert (EN : block_strs block_new = []) by (rewrite (block_strs_fill _ _ fill_new); reflexivity).
    assert (IN : Inv m (map blk l ++ R) (block_strs block_new ++ H)) by (rewrite EN; exact I).
    destruct (block_new_spec m (map blk l ++ R) H block_new 0 IN wfb_new fill_new) as (I1 & G1 & F1 & S1 & K1).
    destruct (block_new_arc m block_new) as [m1 b]. cbn [fst snd] in *.
    destruct (make_mut_spec _ _ _ _ I1) as (m2 & b' & c & n & E2 & I2 & R2 & (rc & G2) & G2' & W2 & F2 & S2 & K2).
    rewrite E2. cbn [bind]. rewrite G1 in G2. inversion G2; subst c rc.
    destruct (slot_push_spec m2 _ H b' r 0 0 block_new 0 I2 R2 G2' fill_new) as (m3 & E3 & I3 & S3 & K3 & O3 & V3); auto.
    { Transparent BLOCK_SIZE. unfold BLOCK_SIZE. lia. Opaque BLOCK_SIZE. }
    rewrite E3. cbn [bind]. eexists _, _. split; [reflexivity|].
    assert (KA : forall s, In (blk s) (map blk l ++ R) -> keep m m3 s).
    { intros s S. eapply keep_trans; [apply K1|]. eapply keep_trans; [apply K2|apply K3]; auto. }
    destruct (keep_link m m3 l) as [OL VL]; auto.
    { intros s S. apply KA. apply in_app_iff; left. now apply in_map. }
    change (0 + 1) with 1 in *.
    split; [|split; [|split; [|split]]].
    - eapply Inv_ext; [|reflexivity|exact I3]. intros x. cnts.
    - apply Forall_app; split; auto.
    - rewrite lval_app, VL. f_equal. rewrite lval_one, V3. cbn.
      f_equal. destruct r; simpl; auto. rewrite S2, S1 by (apply in_app_iff; auto). auto.
    - intros q Q. rewrite S3, S2, S1 by (apply in_app_iff; auto). auto.
    - intros s S. apply KA. apply in_app_iff; auto. }
  pose proof (last_slice_spec l) as LS. destruct (last_slice l) as [s|]; [|exact FRESH].
  destruct (Nat.ltb_spec (stop s) BLOCK_SIZE) as [LT|GE]; [|exact FRESH]. clear FRESH.
  set (l0 := but_last l) in *.
  assert (I0 : Inv m (blk s :: map blk l0 ++ R) H).
  { eapply Inv_ext; [|reflexivity|exact I]. intros x. rewrite LS. cnts. }
  assert (O0 : link_ok m l0 /\ slice_ok m s).
  { rewrite LS in O. apply Forall_app in O as [O1 O2]. inversion O2; auto. }
  destruct O0 as [O0 (cs & rcs & ns & Gs & Fs & Ls)].
  destruct (make_mut_spec _ _ _ _ I0) as (m2 & b' & c & n & E2 & I2 & R2 & (rc & G2) & G2' & W2 & F2 & S2 & K2).
  rewrite Gs in G2. inversion G2; subst c rc. clear G2.
  rewrite E2. cbn [bind].
  destruct (slot_push_spec m2 _ H b' r (stop s) (start s) cs ns I2 R2 G2' Fs) as (m3 & E3 & I3 & S3 & K3 & O3 & V3); auto.
  { lia. } { lia. }
  rewrite E3. cbn [bind]. eexists _, _. split; [reflexivity|].
  assert (KA : forall s, In (blk s) (map blk l0 ++ R) -> keep m m3 s).
  { intros s' S. eapply keep_trans; [apply K2|apply K3]; auto. }
  destruct (keep_link m m3 l0) as [OL VL]; auto.
  { intros s' S. apply KA. apply in_app_iff; left. now apply in_map. }
  split; [|split; [|split; [|split]]].
  - eapply Inv_ext; [|reflexivity|exact I3]. intros x. cnts.
  - apply Forall_app; split; auto.
  - rewrite lval_app, VL. rewrite LS, lval_app, <- app_assoc. f_equal. rewrite !lval_one, V3. f_equal.
    + unfold sval; simpl. apply map_ext_in. intros k K. apply in_seq in K.
      unfold slot_val. rewrite Gs, G2'. destruct (block_var cs k) as [x|] eqn:V; auto. destruct x; simpl; auto.
      rewrite S2; auto. apply in_app_iff; left. apply (block_strs_In cs ns k); auto. lia.
    + f_equal. destruct r; simpl; auto. rewrite S2; auto. apply in_app_iff; auto.
  - intros q Q. rewrite S3, S2; auto. apply in_app_iff; auto.
  - intros s' S. apply KA. apply in_app_iff; auto.
Qed.

Lemma keep_blocks m m' : blocks m' = blocks m -> (forall q, sget m' q = sget m q) -> forall s, keep m m' s.
Proof.
  intros B S s. apply keep_intro. intros c rc G. split; [|auto]. exists rc.
  unfold get_block in *. now rewrite B.
Qed.

Lemma raw_drop_spec m R H r : Inv m R (raw_strs r ++ H) ->
  exists m', raw_drop m r = Ok m' /\ Inv m' R H /\ blocks m' = blocks m /\
    (forall q, In q H -> sget m' q = sget m q) /\ (forall s, keep m m' s).
Proof.
  intros I. destruct r as [| |p].
  - exists m. cbn in *. repeat match goal with |- _ /\ _ => split end; auto using keep_refl.
  - exists m. cbn in *. repeat match goal with |- _ /\ _ => split end; auto using keep_refl.
  - destruct (str_drop_spec m R H p I) as (m' & E & I' & B & S). exists m'.
    repeat match goal with |- _ /\ _ => split end; auto.
    + intros q Q. apply S. apply cnt_In in Q. lia.
    + intros s. apply keep_intro. intros c rc G. split.
      * exists rc. unfold get_block in *. now rewrite B.
      * intros q Q. apply S. pose proof (bcount_ge m _ _ _ q G). apply cnt_In in Q. lia.
Qed.

Lemma push_range_spec n : forall m l R H s i, Inv m (map blk l ++ R) H -> link_ok m l ->
  In (blk s) R -> slice_ok m s -> start s <= i -> i + n <= stop s ->
  exists m' l', push_range m l (blk s) i n = Ok (m', l') /\ Inv m' (map blk l' ++ R) H /\ link_ok m' l' /\
    lval m' l' = lval m l ++ map (slot_val m (blk s)) (seq i n) /\
    (forall q, In q H -> sget m' q = sget m q) /\
    (forall s, In (blk s) R -> keep m m' s).
Proof.
  induction n as [|n IH]; intros m l R H s i I O SR SO L1 L2; cbn [push_range].
  - exists m, l. simpl. rewrite app_nil_r.
    repeat match goal with |- _ /\ _ => split end; auto using keep_refl.
  - destruct (slot_var_spec m _ H s i I SO ltac:(lia)) as (m1 & r & E1 & I1 & B1 & S1 & V1 & V1' & _).
    rewrite E1. cbn [bind].
    pose proof (keep_blocks m m1 B1 S1) as K1.
    destruct (keep_link m m1 l) as [O1 VL1]; auto.
    destruct (link_push1_spec m1 l R (raw_strs r ++ H) r I1 O1) as (m2 & l2 & E2 & I2 & O2 & VL2 & S2 & K2).
    { intros p ->. simpl; auto. }
    rewrite E2. cbn [bind].
    destruct (raw_drop_spec m2 _ H r I2) as (m3 & E3 & I3 & B3 & S3 & K3).
    rewrite E3. cbn [bind].
    destruct (keep_link m2 m3 l2) as [O3 VL3]; auto.
    destruct (K1 s SO) as [SO1 _]. destruct (K2 s SR SO1) as [SO2 _]. destruct (K3 s SO2) as [SO3 _].
    destruct (IH m3 l2 R H s (S i) I3 O3 SR SO3 ltac:(lia) ltac:(lia)) as (m4 & l4 & E4 & I4 & O4 & VL4 & S4 & K4).
    exists m4, l4. split; [exact E4|]. split; [exact I4|]. split; [exact O4|].
    assert (KK : forall s', In (blk s') R -> keep m m3 s').
    { intros s' S'. eapply keep_trans; [apply K1|]. eapply keep_trans; [apply K2; auto|apply K3]. }
    split; [|split].
    + rewrite VL4, VL3, VL2, VL1, <- app_assoc. f_equal. cbn [seq map app]. f_equal.
      * now rewrite V1', V1.
      * destruct (KK s SR SO) as [_ E]. unfold sval in E.
        apply map_ext_in. intros k K.
        apply (proj1 map_ext_in_iff E). apply in_seq. apply in_seq in K. lia.
    + intros q Q. rewrite S4, S3, S2, S1 by (auto; apply in_app_iff; auto). auto.
    + intros s' S'. eapply keep_trans; [apply KK; auto|apply K4; auto].
Qed.

Lemma push_link_spec l2 : forall m l R H, Inv m (map blk l ++ R) H -> link_ok m l ->
  (forall s, In s l2 -> In (blk s) R) -> link_ok m l2 ->
  exists m' l', push_link m l l2 = Ok (m', l') /\ Inv m' (map blk l' ++ R) H /\ link_ok m' l' /\
    lval m' l' = lval m l ++ lval m l2 /\
    (forall q, In q H -> sget m' q = sget m q) /\
    (forall s, In (blk s) R -> keep m m' s).
Proof.
  induction l2 as [|s l2 IH]; intros m l R H I O SR O2; cbn [push_link].
  - exists m, l. simpl. rewrite app_nil_r.
    repeat match goal with |- _ /\ _ => split end; auto using keep_refl.
  - inversion O2 as [|? ? SO O2']; subst.
    destruct (push_range_spec (stop s - start s) m l R H s (start s) I O) as (m1 & l1 & E1 & I1 & O1 & V1 & S1 & K1); auto.
    { apply SR; now left. } { destruct SO as (?&?&?&?&?&?). lia. }
    rewrite E1. cbn [bind].
    destruct (keep_link m m1 l2) as [O3 VL3]; auto.
    { intros s' S'. apply K1. apply SR. now right. }
    destruct (IH m1 l1 R H I1 O1) as (m2 & l3 & E2 & I2 & O4 & V2 & S2 & K2); auto.
    { intros; apply SR; now right. }
    exists m2, l3. repeat match goal with |- _ /\ _ => split end; auto.
    + rewrite V2, V1, VL3, <- app_assoc. reflexivity.
    + intros q Q. rewrite S2, S1; auto.
    + intros s' S'. eapply keep_trans; [apply K1; auto|apply K2; auto].
Qed.

Lemma clone_slices_spec l : forall m R H, Inv m R H -> (forall s, In s l -> cnt R (blk s) > 0) ->
  exists m', clone_slices m l = Ok m' /\ Inv m' (map blk l ++ R) H /\
    (forall q, sget m' q = sget m q) /\ (forall s, keep m m' s).
Proof.
  unfold clone_slices. induction l as [|s l IH]; intros m R H I G; cbn [map fold_mem].
  - exists m. repeat match goal with |- _ /\ _ => split end; auto using keep_refl.
  - destruct (block_clone_spec m R H (blk s) I) as (m1 & E1 & I1 & S1 & K1).
    { apply G; now left. }
    rewrite E1. cbn [bind].
    destruct (IH m1 (blk s :: R) H I1) as (m2 & E2 & I2 & S2 & K2).
    { intros s' S'. rewrite cnt_cons. specialize (G s' (or_intror S')). lia. }
    exists m2. repeat match goal with |- _ /\ _ => split end; auto.
    + eapply Inv_ext; [|reflexivity|exact I2]. intros x. cnts.
    + intros q. rewrite S2. apply S1.
    + intros s'. eapply keep_trans; [apply K1|apply K2].
Qed.

Lemma link_drop_spec l : forall m R H, Inv m (map blk l ++ R) H ->
  exists m', link_drop m l = Ok m' /\ Inv m' R H /\
    (forall q, In q H -> sget m' q = sget m q) /\ (forall s, In (blk s) R -> keep m m' s).
Proof.
  unfold link_drop. induction l as [|s l IH]; intros m R H I; cbn [map fold_mem].
  - exists m. repeat match goal with |- _ /\ _ => split end; auto using keep_refl.
  - destruct (block_drop_spec m (map blk l ++ R) H (blk s) I) as (m1 & E1 & I1 & S1 & N1 & K1).
    rewrite E1. cbn [bind].
    destruct (IH m1 R H I1) as (m2 & E2 & I2 & S2 & K2).
    exists m2. repeat match goal with |- _ /\ _ => split end; auto.
    + intros q Q. rewrite S2, S1; auto. apply cnt_In in Q. lia.
    + intros s' S'. eapply keep_trans; [apply K1|apply K2]; auto. apply in_app_iff; auto.
Qed.

End Exact.
