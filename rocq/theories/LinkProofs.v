(** Every history of link operations behaves as on plain lists and never faults. *)
From Coq Require Import String List Arith NArith Bool Lia ZifyBool.
From Verif Require Import LinkModel LinkSpec LinkBlockProofs LinkHeapProofs.
Import ListNotations.
Local Open Scope list_scope.
Local Opaque block_strs BLOCK_SIZE.

Section Exact.
Context {e : bool}.
Notation Inv := (@Inv e). Notation slice_ok := (@slice_ok e). Notation link_ok := (@link_ok e).
Notation keep := (@keep e).

Definition orefs (o : option link) : list nat := match o with Some l => map blk l | None => [] end.
Definition refs (ls : list (option link)) : list nat := flat_map orefs ls.
Definition oheld (o : option nat) : list nat := match o with Some p => [p] | None => [] end.
Definition held (ss : list (option nat)) : list nat := flat_map oheld ss.

Definition lr (m : mem) (o : option link) (so : option (list val)) : Prop :=
  match o, so with
  | Some l, Some vs => link_ok m l /\ lval m l = vs
  | None, None => True | _, _ => False end.
Definition sr (m : mem) (o : option nat) (so : option string) : Prop :=
  match o, so with
  | Some p, Some s => sget m p = Some s
  | None, None => True | _, _ => False end.

Definition Rel (w : world) (sw : sworld) : Prop :=
  Inv (wmem w) (refs (wlinks w)) (held (wstrs w)) /\
  Forall2 (lr (wmem w)) (wlinks w) (slinks sw) /\
  Forall2 (sr (wmem w)) (wstrs w) (sstrs sw).

Lemma flat_upd {A} (f : A -> list nat) l i x old p : nth_error l i = Some old ->
  cnt (flat_map f (upd i x l)) p + cnt (f old) p = cnt (flat_map f l) p + cnt (f x) p.
Proof.
  revert i; induction l; destruct i; simpl; intros E; try discriminate.
  - inversion E; subst. rewrite !cnt_app. lia.
  - rewrite !cnt_app. specialize (IHl _ E). lia.
Qed.
Lemma refs_snoc ls o : refs (ls ++ [o]) = refs ls ++ orefs o.
Proof. unfold refs. rewrite flat_map_app. simpl. now rewrite app_nil_r. Qed.
Lemma held_snoc ls o : held (ls ++ [o]) = held ls ++ oheld o.
Proof. unfold held. rewrite flat_map_app. simpl. now rewrite app_nil_r. Qed.

Lemma Forall2_nth {A B} (P : A -> B -> Prop) l l' i : Forall2 P l l' ->
  match nth_error l i, nth_error l' i with
  | Some a, Some b => P a b | None, None => True | _, _ => False end.
Proof. intros F; revert i; induction F; destruct i; simpl; auto. apply IHF. Qed.
Lemma Forall2_len {A B} (P : A -> B -> Prop) l l' : Forall2 P l l' -> length l = length l'.
Proof. induction 1; simpl; auto. Qed.
Lemma Forall2_upd {A B} (P : A -> B -> Prop) l l' i x y : Forall2 P l l' -> P x y ->
  Forall2 P (upd i x l) (upd i y l').
Proof. intros F H; revert i; induction F; destruct i; simpl; auto. Qed.
Lemma upd_upd {A} (l : list A) i x y : upd i x (upd i y l) = upd i x l.
Proof. revert i; induction l; destruct i; simpl; auto. now rewrite IHl. Qed.
Lemma Forall2_snoc {A B} (P : A -> B -> Prop) l l' x y : Forall2 P l l' -> P x y ->
  Forall2 P (l ++ [x]) (l' ++ [y]).
Proof. intros. apply Forall2_app; auto. Qed.

Lemma LRel_keep m m' ls sls : Forall2 (lr m) ls sls ->
  (forall s, In (blk s) (refs ls) -> keep m m' s) -> Forall2 (lr m') ls sls.
Proof.
  intros F; induction F as [|o so ls sls H F IH]; intros K; constructor.
  - destruct o as [l|], so as [vs|]; simpl in *; auto. destruct H as [O V].
    destruct (@keep_link e m m' l) as [O' V']; auto.
    + intros s S. apply K. apply in_app_iff; left. now apply in_map.
    + split; congruence.
  - apply IH. intros s S. apply K. apply in_app_iff; auto.
Qed.
Lemma SRel_keep m m' ss sss : Forall2 (sr m) ss sss ->
  (forall q, In q (held ss) -> sget m' q = sget m q) -> Forall2 (sr m') ss sss.
Proof.
  intros F; induction F as [|o so ls sls H F IH]; intros K; constructor.
  - destruct o as [p|], so as [s|]; simpl in *; auto. rewrite K; auto.
  - apply IH. intros q Q. apply K. apply in_app_iff; auto.
Qed.

Lemma get_link_rel w sw i : Rel w sw ->
  match get_link w i, slink sw i with
  | Some l, Some vs => nth_error (wlinks w) i = Some (Some l) /\ link_ok (wmem w) l /\ lval (wmem w) l = vs
  | None, None => True | _, _ => False end.
Proof.
  intros (_ & L & _). unfold get_link, slink. pose proof (Forall2_nth _ _ _ i L) as H.
  destruct (nth_error (wlinks w) i) as [[|]|], (nth_error (slinks sw) i) as [[|]|]; simpl in *; intuition.
Qed.
Lemma get_sv_rel w sw i : Rel w sw ->
  match get_sv w i, sstr sw i with
  | Some p, Some s => nth_error (wstrs w) i = Some (Some p) /\ sget (wmem w) p = Some s
  | None, None => True | _, _ => False end.
Proof.
  intros (_ & _ & L). unfold get_sv, sstr. pose proof (Forall2_nth _ _ _ i L) as H.
  destruct (nth_error (wstrs w) i) as [[|]|], (nth_error (sstrs sw) i) as [[|]|]; simpl in *; intuition.
Qed.

Lemma refs_get ls i (l : link) p : nth_error ls i = Some (Some l) ->
  cnt (refs ls) p = cnt (map blk l ++ refs (upd i None ls)) p.
Proof.
  intros E. pose proof (flat_upd orefs ls i None _ p E) as H. unfold refs. rewrite cnt_app.
  simpl in H. unfold cnt in *; simpl in *. lia.
Qed.
Lemma refs_set ls i (l l' : link) p : nth_error ls i = Some (Some l) ->
  cnt (refs (upd i (Some l') ls)) p = cnt (map blk l' ++ refs (upd i None ls)) p.
Proof.
  intros E. rewrite (refs_get (upd i (Some l') ls) i l').
  - now rewrite upd_upd.
  - apply nth_error_upd_same. eapply nth_error_lt; eauto.
Qed.

Lemma link_refs ls i (l : link) s : nth_error ls i = Some (Some l) -> In s l -> cnt (refs ls) (blk s) > 0.
Proof.
  intros E S. rewrite (refs_get ls i l) by auto. rewrite cnt_app.
  assert (In (blk s) (map blk l)) by now apply in_map. apply cnt_In in H. lia.
Qed.

(** sub-slices *)
Lemma slice_shrink m b st en st' en' : slice_ok m (mkSlice b st en) -> st <= st' < en' -> en' <= en ->
  (e = true -> en' = en) ->
  slice_ok m (mkSlice b st' en').
Proof.
  intros (c & rc & n & G & F & L) ? ? ?. exists c, rc, n. simpl in *. repeat split; auto; try apply F; lia.
Qed.

Lemma tail_val m l : link_ok m l ->
  let l' := match l with [] => [] | first :: rest =>
      (if start first + 1 <? stop first
       then [mkSlice (blk first) (start first + 1) (stop first)] else []) ++ rest end in
  link_ok m l' /\ lval m l' = tl (lval m l).
Proof.
  destruct l as [|[b st en] rest]; intros O; cbv zeta; auto.
  inversion O as [|? ? SO OR]; subst. assert (L : st < en) by (destruct SO as (?&?&?&?&?&?); simpl in *; lia).
  cbn [start stop blk]. change (lval m (mkSlice b st en :: rest)) with (sval m (mkSlice b st en) ++ lval m rest).
  unfold sval at 1. cbn [blk start stop]. replace (en - st) with (S (en - (st + 1))) by lia.
  cbn [seq map app tl]. destruct (Nat.ltb_spec (st + 1) en).
  - split.
    + apply Forall_app; split; auto. constructor; auto. eapply slice_shrink; eauto; lia.
    + cbn [app]. change (lval m (mkSlice b (st + 1) en :: rest)) with (sval m (mkSlice b (st + 1) en) ++ lval m rest).
      unfold sval. cbn [blk start stop]. now rewrite Nat.add_1_r.
  - split; auto. replace (en - (st + 1)) with 0 by lia. reflexivity.
Qed.

Lemma removelast_snoc {A} (l : list A) x : removelast (l ++ [x]) = l.
Proof. induction l; simpl; auto. destruct (l ++ [x]) eqn:E; [destruct l; discriminate|]. now rewrite IHl. Qed.

Lemma sval_snoc m b st en : st < en -> sval m (mkSlice b st en) = sval m (mkSlice b st (en - 1)) ++ [slot_val m b (en - 1)].
Proof.
  intros L. unfold sval; cbn [blk start stop]. replace (en - st) with ((en - 1 - st) + 1) by lia.
  rewrite seq_app, map_app. cbn [seq map]. replace (st + (en - 1 - st)) with (en - 1) by lia. reflexivity.
Qed.

Lemma neck_val m l s : e <> true -> link_ok m l -> last_slice l = Some s ->
  let l' := but_last l ++ (if start s + 1 <? stop s
                 then [mkSlice (blk s) (start s) (stop s - 1)] else []) in
  link_ok m l' /\ lval m l' = removelast (lval m l).
Proof.
  intros EF O E. cbv zeta. pose proof (last_slice_spec l) as LS. rewrite E in LS.
  destruct s as [b st en]. cbn [start stop blk].
  rewrite LS in O. apply Forall_app in O as [O1 O2]. inversion O2 as [|? ? SO _]; subst.
  assert (L : st < en) by (destruct SO as (?&?&?&?&?&?); simpl in *; lia).
  rewrite LS at 3. rewrite !lval_app, lval_one, sval_snoc by auto.
  rewrite app_assoc, removelast_snoc.
  destruct (Nat.ltb_spec (st + 1) en).
  - split.
    + apply Forall_app; split; auto. constructor; auto. eapply slice_shrink; eauto; lia.
    + now rewrite lval_one.
  - rewrite app_nil_r. split; auto. f_equal. unfold sval; cbn [blk start stop].
    replace (en - 1 - st) with 0 by lia. reflexivity.
Qed.

Lemma head_val m l : link_ok m l -> list_head (lval m l) =
  match l with [] => None | s :: _ => Some (slot_val m (blk s) (start s)) end.
Proof.
  destruct l as [|[b st en] rest]; intros O; auto.
  inversion O as [|? ? SO OR]; subst. assert (L : st < en) by (destruct SO as (?&?&?&?&?&?); simpl in *; lia).
  change (lval m (mkSlice b st en :: rest)) with (sval m (mkSlice b st en) ++ lval m rest).
  unfold sval. cbn [blk start stop]. replace (en - st) with (S (en - st - 1)) by lia. reflexivity.
Qed.
Lemma tip_val m l : link_ok m l -> list_last (lval m l) =
  match last_slice l with None => None | Some s => Some (slot_val m (blk s) (stop s - 1)) end.
Proof.
  intros O. pose proof (last_slice_spec l) as LS. destruct (last_slice l) as [[b st en]|]; [|now subst].
  rewrite LS in O. apply Forall_app in O as [O1 O2]. inversion O2 as [|? ? SO _]; subst.
  assert (L : st < en) by (destruct SO as (?&?&?&?&?&?); simpl in *; lia).
  rewrite LS, lval_app, lval_one, sval_snoc by auto. unfold list_last.
  rewrite app_assoc, rev_unit. reflexivity.
Qed.
Lemma empty_val m l : link_ok m l -> link_is_empty l = match lval m l with [] => true | _ => false end.
Proof.
  intros O. pose proof (head_val m l O) as H. destruct l; auto.
  destruct (lval m (s :: l)); [discriminate|reflexivity].
Qed.

Ltac splits := repeat match goal with |- _ /\ _ => split end.

Lemma new_link_rel w sw m' (l' : link) vs : Rel w sw -> Inv m' (refs (wlinks w) ++ map blk l') (held (wstrs w)) ->
  (forall q, sget m' q = sget (wmem w) q) -> (forall s, keep (wmem w) m' s) ->
  link_ok (wmem w) l' -> lval (wmem w) l' = vs ->
  Rel (mkWorld m' (wlinks w ++ [Some l']) (wstrs w)) (mkS (slinks sw ++ [Some vs]) (sstrs sw)).
Proof.
  intros (I & L & S) I' S' K O V. unfold Rel. cbn [wmem wlinks wstrs slinks sstrs]. splits.
  - rewrite refs_snoc. exact I'.
  - apply Forall2_snoc.
    + eapply LRel_keep; eauto.
    + destruct (@keep_link e (wmem w) m' l') as [O' V']; auto. split; congruence.
  - eapply SRel_keep; eauto.
Qed.

Lemma set_link_rel w sw i (l : link) m' (l' : link) vs : Rel w sw -> nth_error (wlinks w) i = Some (Some l) ->
  Inv m' (map blk l' ++ refs (upd i None (wlinks w))) (held (wstrs w)) ->
  (forall q, In q (held (wstrs w)) -> sget m' q = sget (wmem w) q) ->
  (forall s, In (blk s) (refs (upd i None (wlinks w))) -> keep (wmem w) m' s) ->
  link_ok m' l' -> lval m' l' = vs ->
  Rel (mkWorld m' (upd i (Some l') (wlinks w)) (wstrs w)) (mkS (upd i (Some vs) (slinks sw)) (sstrs sw)).
Proof.
  intros (I & L & S) E I' S' K O V. unfold Rel. cbn [wmem wlinks wstrs slinks sstrs]. splits.
  - eapply Inv_ext; [|reflexivity|exact I']. intros p. symmetry. eapply refs_set; eauto.
  - rewrite <- (upd_upd (wlinks w) i (Some l') None), <- (upd_upd (slinks sw) i (Some vs) None).
    apply Forall2_upd; [|now split].
    eapply LRel_keep; [|exact K]. apply Forall2_upd; simpl; auto.
  - eapply SRel_keep; eauto.
Qed.

Lemma observe_spec w sw R (x : res (mem * option raw)) (v : option val) : Rel w sw ->
  R = refs (wlinks w) ->
  match v with
  | None => x = Ok (wmem w, None)
  | Some v => exists m' r, x = Ok (m', Some r) /\ Inv m' R (raw_strs r ++ held (wstrs w)) /\
        blocks m' = blocks (wmem w) /\ (forall q, sget m' q = sget (wmem w) q) /\
        raw_val m' r = v /\ (forall p, r = RStr p -> exists z, sget m' p = Some z)
  end ->
  exists w' o, observe w x = Ok (w', o) /\ snd (sobserve sw v) = o /\ Rel w' (fst (sobserve sw v)).
Proof.
  intros RL -> H. unfold observe, sobserve. destruct v as [v|].
  - destruct H as (m' & r & -> & I & B & S & V & Z). cbn [bind].
    pose proof (@keep_blocks e _ _ B S) as K. destruct RL as (I0 & L & SS).
    assert (E : exists z, val_of m' r = Ok z /\ z = raw_val m' r).
    { destruct r; simpl; eauto. destruct (Z ptr eq_refl) as [z E]. unfold sget, get_str in *.
      destruct (nth_error (strs m') ptr) as [[[s rc]|]|]; try discriminate. cbn [bind]. eauto. }
    destruct E as (z & E & ->). rewrite E. cbn [bind]. eexists _, _. split; [reflexivity|]. cbn [fst snd].
    split; [now rewrite V|].
    subst v. unfold Rel; cbn [wmem wlinks wstrs slinks sstrs].
    destruct r as [b|d|p]; cbn [raw_val raw_strs app] in *; splits; auto;
      try solve [eapply LRel_keep; eauto | eapply SRel_keep; eauto].
    + rewrite held_snoc. eapply Inv_ext; [reflexivity| |exact I]. intros q. cbn [oheld]. cnts.
    + destruct (Z p eq_refl) as [zz EZ]. rewrite EZ. apply Forall2_snoc; auto.
      eapply SRel_keep; eauto.
  - rewrite H. cbn [bind]. eexists _, _. split; [reflexivity|]. split; auto.
Qed.

Lemma Inv_held_str m R H p : Inv m R H -> In p H -> exists s, sget m p = Some s.
Proof.
  intros I P. destruct (Inv_str _ _ _ p I) as (s & rc & E & _).
  - apply cnt_In in P. lia.
  - exists s. unfold sget. now rewrite E.
Qed.

Lemma step_sim w sw o : Rel w sw -> (e = true -> forall i, o <> ONeck i) ->
  exists w' r, step w o = Ok (w', r) /\ snd (sstep sw o) = r /\ Rel w' (fst (sstep sw o)).
Proof.
  intros RL NN. pose proof RL as (I & L & S).
  assert (BAD : exists w' r, Ok (w, OInvalid) = Ok (w', r) /\ snd (sw, OInvalid) = r /\ Rel w' (fst (sw, OInvalid)))
    by (eexists _, _; splits; auto; reflexivity).
  destruct o as [s|v| |i|i|i x|i j|i j|i|i|i|i|i]; cbn [step sstep].
  - (* new string *)
    cbn [str_new]. eexists _, _. splits; [reflexivity..|]. cbn [fst].
    set (m' := {| blocks := blocks (wmem w); strs := strs (wmem w) ++ [Some (s, 1)] |}).
    assert (F : cnt (held (wstrs w)) (length (strs (wmem w))) + bcount (wmem w) (length (strs (wmem w))) = 0).
    { destruct I as [_ B]. specialize (B (length (strs (wmem w)))).
      replace (nth_error (strs (wmem w)) (length (strs (wmem w)))) with (@None (option (string * nat))) in B; auto.
      symmetry; apply nth_error_None; lia. }
    assert (SG : forall q, q <> length (strs (wmem w)) -> sget m' q = sget (wmem w) q).
    { intros q Q. unfold sget, m'; cbn [strs]. rewrite nth_error_snoc. destruct Nat.eq_dec; congruence. }
    unfold Rel; cbn [wmem wlinks wstrs slinks sstrs]. splits.
    + destruct I as [A B]. split; [exact A|]. intros p. specialize (B p).
      change (bcount m' p) with (bcount (wmem w) p). unfold m'; cbn [strs].
      rewrite nth_error_snoc, held_snoc, cnt_app. cbn [oheld]. rewrite cnt_cons, cnt_nil.
      destruct (Nat.eq_dec p (length (strs (wmem w)))) as [->|NE].
      * destruct Nat.eq_dec; [lia|congruence].
      * destruct Nat.eq_dec; [congruence|]. rewrite !Nat.add_0_r. exact B.
    + eapply LRel_keep; eauto. intros sl Hs. apply keep_intro. intros c rc G. split; [now exists rc|].
      intros p P. apply SG. intros ->. pose proof (bcount_ge _ _ _ _ (length (strs (wmem w))) G).
      apply cnt_In in P. lia.
    + apply Forall2_snoc.
      * eapply SRel_keep; eauto. intros q Q. apply SG. intros ->. apply cnt_In in Q. lia.
      * simpl. unfold sget, m'; cbn [strs]. rewrite nth_error_snoc. destruct Nat.eq_dec; congruence.
  - (* drop string *)
    pose proof (get_sv_rel w sw v RL) as H. destruct (get_sv w v) as [p|], (sstr sw v) as [s|]; try contradiction; auto.
    destruct H as [E G].
    assert (HE : forall q, cnt (held (wstrs w)) q = cnt (p :: held (upd v None (wstrs w))) q).
    { intros q. pose proof (flat_upd oheld _ v None _ q E) as X. unfold held. cbn [oheld] in X. rewrite !cnt_cons in *.
      rewrite !cnt_nil in X. lia. }
    destruct (@str_drop_spec e (wmem w) (refs (wlinks w)) (held (upd v None (wstrs w))) p) as (m' & E' & I' & B' & S').
    { eapply Inv_ext; [reflexivity|exact HE|exact I]. }
    rewrite E'. cbn [bind]. eexists _, _. splits; [reflexivity..|]. cbn [fst].
    unfold Rel; cbn [wmem wlinks wstrs slinks sstrs]. splits; auto.
    + eapply LRel_keep; eauto. intros sl Hs. apply keep_intro. intros c rc G0. split.
      * exists rc. unfold get_block in *. now rewrite B'.
      * intros q Q. apply S'. pose proof (bcount_ge _ _ _ _ q G0). apply cnt_In in Q. lia.
    + eapply SRel_keep.
      * apply Forall2_upd; eauto. simpl; auto.
      * intros q Q. apply S'. apply cnt_In in Q. lia.
  - (* new link *)
    eexists _, _. splits; [reflexivity..|]. cbn [fst snew].
    apply (new_link_rel w sw (wmem w) [] []); auto using keep_refl; try (constructor; fail).
    simpl. rewrite app_nil_r. exact I.
  - (* clone *)
    pose proof (get_link_rel w sw i RL) as H. destruct (get_link w i) as [l|], (slink sw i) as [vs|]; try contradiction; auto.
    destruct H as (E & O & V). unfold link_clone.
    destruct (clone_slices_spec l (wmem w) _ _ I) as (m' & E' & I' & S' & K').
    { intros s HS. eapply link_refs; eauto. }
    rewrite E'. cbn [bind]. eexists _, _. splits; [reflexivity..|]. cbn [fst snew].
    apply new_link_rel; auto. eapply Inv_ext; [|reflexivity|exact I']. intros; cnts.
  - (* drop *)
    pose proof (get_link_rel w sw i RL) as H. destruct (get_link w i) as [l|], (slink sw i) as [vs|]; try contradiction; auto.
    destruct H as (E & O & V).
    destruct (@link_drop_spec e l (wmem w) (refs (upd i None (wlinks w))) (held (wstrs w))) as (m' & E' & I' & S' & K').
    { eapply Inv_ext; [|reflexivity|exact I]. intros p. eapply refs_get; eauto. }
    rewrite E'. cbn [bind]. eexists _, _. splits; [reflexivity..|]. cbn [fst sset].
    unfold Rel; cbn [wmem wlinks wstrs slinks sstrs]. splits; auto.
    + eapply LRel_keep; [|exact K']. apply Forall2_upd; simpl; auto.
    + eapply SRel_keep; eauto.
  - (* push *)
    pose proof (get_link_rel w sw i RL) as H. destruct (get_link w i) as [l|], (slink sw i) as [vs|]; try contradiction; auto.
    destruct H as (E & O & V).
    assert (X : match item_raw w x, sitem sw x with
                | Some r, Some v => raw_val (wmem w) r = v /\ (forall p, r = RStr p -> In p (held (wstrs w)))
                | None, None => True | _, _ => False end).
    { destruct x as [b|d|v]; simpl; try (split; [auto|discriminate]; fail).
      pose proof (get_sv_rel w sw v RL) as H. destruct (get_sv w v) as [p|], (sstr sw v) as [s|]; try contradiction; auto.
      destruct H as [E1 E2]. simpl. rewrite E2. split; auto. intros p' [= <-].
      unfold held. apply in_flat_map. exists (Some p). split; [eapply nth_error_In; eauto|now left]. }
    destruct (item_raw w x) as [r|], (sitem sw x) as [v|]; try contradiction; auto.
    destruct X as [XV XH].
    destruct (@link_push1_spec e (wmem w) l (refs (upd i None (wlinks w))) (held (wstrs w)) r) as (m' & l' & E' & I' & O' & V' & S' & K'); auto.
    { eapply Inv_ext; [|reflexivity|exact I]. intros p. eapply refs_get; eauto. }
    rewrite E'. cbn [bind]. eexists _, _. splits; [reflexivity..|]. cbn [fst sset].
    eapply set_link_rel; eauto. congruence.
  - (* push link *)
    pose proof (get_link_rel w sw i RL) as H. destruct (get_link w i) as [l|], (slink sw i) as [vs|]; try contradiction; auto.
    destruct H as (E & O & V).
    pose proof (get_link_rel w sw j RL) as H. destruct (get_link w j) as [l2|], (slink sw j) as [vs2|]; try contradiction; auto.
    destruct H as (E2 & O2 & V2).
    destruct (Nat.eqb_spec i j) as [EQ|NE]; auto.
    destruct (@push_link_spec e l2 (wmem w) l (refs (upd i None (wlinks w))) (held (wstrs w))) as (m' & l' & E' & I' & O' & V' & S' & K'); auto.
    { eapply Inv_ext; [|reflexivity|exact I]. intros p. eapply refs_get; eauto. }
    { intros s HS. apply cnt_In. apply (link_refs _ j l2 s); auto. rewrite nth_error_upd_other; auto. }
    rewrite E'. cbn [bind]. eexists _, _. splits; [reflexivity..|]. cbn [fst sset].
    eapply set_link_rel; eauto. congruence.
  - (* add *)
    pose proof (get_link_rel w sw i RL) as H. destruct (get_link w i) as [l|], (slink sw i) as [vs|]; try contradiction; auto.
    destruct H as (E & O & V).
    pose proof (get_link_rel w sw j RL) as H. destruct (get_link w j) as [l2|], (slink sw j) as [vs2|]; try contradiction; auto.
    destruct H as (E2 & O2 & V2). unfold link_add.
    destruct (clone_slices_spec (l ++ l2) (wmem w) _ _ I) as (m' & E' & I' & S' & K').
    { intros s HS. apply in_app_iff in HS as [HS|HS]; [apply (link_refs _ i l)|apply (link_refs _ j l2)]; auto. }
    rewrite E'. cbn [bind]. eexists _, _. splits; [reflexivity..|]. cbn [fst snew].
    apply new_link_rel; auto.
    + eapply Inv_ext; [|reflexivity|exact I']. intros; cnts.
    + apply Forall_app; auto.
    + rewrite lval_app; congruence.
  - (* tail *)
    pose proof (get_link_rel w sw i RL) as H. destruct (get_link w i) as [l|], (slink sw i) as [vs|]; try contradiction; auto.
    destruct H as (E & O & V). destruct (tail_val (wmem w) l O) as [O' V'].
    set (l' := match l with [] => [] | first :: rest =>
      (if start first + 1 <? stop first
       then [mkSlice (blk first) (start first + 1) (stop first)] else []) ++ rest end) in *.
    destruct (clone_slices_spec l' (wmem w) _ _ I) as (m' & E' & I' & S' & K').
    { intros s HS. assert (X : exists s0, In s0 l /\ blk s0 = blk s).
      { unfold l' in HS. destruct l as [|f rest]; [contradiction|]. apply in_app_iff in HS as [HS|HS].
        - destruct (start f + 1 <? stop f); [|contradiction]. destruct HS as [<-|[]]. exists f; split; auto. now left.
        - exists s; split; auto. now right. }
      destruct X as (s0 & X & <-). eapply link_refs; eauto. }
    assert (ET : link_tail (wmem w) l = Ok (m', l')).
    { unfold link_tail. destruct l as [|f rest].
      - unfold l', clone_slices in E'. simpl in E'. now inversion E'.
      - fold l'. now rewrite E'. }
    rewrite ET. cbn [bind]. eexists _, _. splits; [reflexivity..|]. cbn [fst snew].
    apply new_link_rel; auto. eapply Inv_ext; [|reflexivity|exact I']. intros; cnts. congruence.
  - (* neck *)
    pose proof (get_link_rel w sw i RL) as H. destruct (get_link w i) as [l|], (slink sw i) as [vs|]; try contradiction; auto.
    destruct H as (E & O & V). unfold link_neck.
    pose proof (last_slice_spec l) as LS. assert (EF : e <> true) by (intros X; eapply NN; eauto).
    pose proof (fun s => neck_val (wmem w) l s EF O) as NV.
    destruct (last_slice l) as [s|].
    + specialize (NV s eq_refl). destruct NV as [O' V'].
      set (l' := but_last l ++ (if start s + 1 <? stop s
                 then [mkSlice (blk s) (start s) (stop s - 1)] else [])) in *.
      destruct (clone_slices_spec l' (wmem w) _ _ I) as (m' & E' & I' & S' & K').
      { intros s1 HS. assert (X : exists s0, In s0 l /\ blk s0 = blk s1).
        { unfold l' in HS. apply in_app_iff in HS as [HS|HS].
          - exists s1; split; auto. rewrite LS. apply in_app_iff; auto.
          - destruct (start s + 1 <? stop s); [|contradiction]. destruct HS as [<-|[]]. exists s; split; auto.
            rewrite LS. apply in_app_iff; right. now left. }
        destruct X as (s0 & X & <-). eapply link_refs; eauto. }
      rewrite E'. cbn [bind]. eexists _, _. splits; [reflexivity..|]. cbn [fst snew].
      apply new_link_rel; auto. eapply Inv_ext; [|reflexivity|exact I']. intros; cnts. congruence.
    + subst l. cbn [bind]. eexists _, _. splits; [reflexivity..|]. cbn [fst snew].
      apply new_link_rel; auto using keep_refl. simpl. rewrite app_nil_r. exact I.
      subst vs. reflexivity.
  - (* head *)
    pose proof (get_link_rel w sw i RL) as H. destruct (get_link w i) as [l|], (slink sw i) as [vs|]; try contradiction; auto.
    destruct H as (E & O & V). apply (observe_spec w sw (refs (wlinks w))); auto. subst vs.
    rewrite head_val by auto. unfold link_head. destruct l as [|s l]; auto.
    inversion O as [|? ? SO OR]; subst. assert (LT : start s < stop s) by (destruct SO as (?&?&?&?&?&?); lia).
    destruct (slot_var_spec (wmem w) _ _ s (start s) I SO ltac:(lia)) as (m1 & r & E1 & I1 & B1 & S1 & V1 & V1' & Z1).
    apply Nat.ltb_lt in LT. rewrite LT, E1. cbn [bind]. exists m1, r. splits; auto. congruence.
  - (* tip *)
    pose proof (get_link_rel w sw i RL) as H. destruct (get_link w i) as [l|], (slink sw i) as [vs|]; try contradiction; auto.
    destruct H as (E & O & V). apply (observe_spec w sw (refs (wlinks w))); auto. subst vs.
    rewrite tip_val by auto. unfold link_tip. pose proof (last_slice_spec l) as LS.
    destruct (last_slice l) as [s|]; auto.
    assert (SO : slice_ok (wmem w) s). { rewrite LS in O. apply Forall_app in O as [_ O2]. now inversion O2. }
    assert (LT : start s < stop s) by (destruct SO as (?&?&?&?&?&?); lia).
    destruct (slot_var_spec (wmem w) _ _ s (stop s - 1) I SO ltac:(lia)) as (m1 & r & E1 & I1 & B1 & S1 & V1 & V1' & Z1).
    apply Nat.ltb_lt in LT. rewrite LT, E1. cbn [bind]. exists m1, r. splits; auto. congruence.
  - (* is_empty *)
    pose proof (get_link_rel w sw i RL) as H. destruct (get_link w i) as [l|], (slink sw i) as [vs|]; try contradiction; auto.
    destruct H as (E & O & V). eexists _, _. splits; [reflexivity| |exact RL].
    cbn [snd]. rewrite (empty_val (wmem w) l O). now subst vs.
Qed.

Lemma Rel0 : Rel world0 sworld0.
Proof.
  unfold Rel, world0, sworld0, mem0; cbn. splits; auto. split.
  - intros b. destruct b; reflexivity.
  - intros b. destruct b; reflexivity.
Qed.

Lemma run_sim os : (e = true -> forall i, ~ In (ONeck i) os) -> forall w sw, Rel w sw ->
  exists w', run w os = Ok (w', snd (srun sw os)) /\ Rel w' (fst (srun sw os)).
Proof.
  induction os as [|o os IH]; intros NN w sw RL; cbn [run srun].
  - exists w. auto.
  - destruct (step_sim w sw o RL) as (w1 & r & E1 & E2 & R1).
    { intros EE i ->. apply (NN EE i). now left. }
    assert (NN' : e = true -> forall i, ~ In (ONeck i) os) by (intros EE i HI; apply (NN EE i); now right).
    specialize (IH NN'). rewrite E1. cbn [bind].
    destruct (sstep sw o) as [sw1 r']. cbn [fst snd] in *. subst r'.
    destruct (IH w1 sw1 R1) as (w2 & E3 & R2). rewrite E3. cbn [bind].
    destruct (srun sw1 os) as [sw2 rs]. cbn [fst snd] in *. eauto.
Qed.

Lemma all_blocks_freed w sw : Rel w sw -> (forall i, get_link w i = None) ->
  forall b, match nth_error (blocks (wmem w)) b with Some (Some _) => False | _ => True end.
Proof.
  intros (I & L & S) N b.
  assert (E : refs (wlinks w) = []).
  { clear - N. assert (forall o, In o (wlinks w) -> o = None).
    { intros o O. apply In_nth_error in O as [i E]. specialize (N i). unfold get_link in N. rewrite E in N.
      destruct o; [discriminate|auto]. }
    unfold refs. induction (wlinks w) as [|o l IH]; simpl; auto. rewrite (H o) by now left. apply IH.
    intros; apply H; now right. }
  rewrite E in I. destruct I as [A _]. specialize (A b).
  destruct (nth_error (blocks (wmem w)) b) as [[[c rc]|]|]; auto. destruct A as (_ & _ & A1 & A2). rewrite cnt_nil in A1. lia.
Qed.


(** reading all elements through [head] and [tail] *)
Lemma elems_spec n : forall w sw i vs, Rel w sw -> slink sw i = Some vs -> elems n w i = Some (firstn n vs).
Proof.
  induction n as [|n IH]; intros w sw i vs RL E; cbn [elems firstn]; auto.
  destruct (step_sim w sw (OHead i) RL) as (w1 & r1 & E1 & F1 & R1); [discriminate|].
  rewrite E1. cbn [sstep] in F1, R1. rewrite E in F1, R1. unfold sobserve in F1, R1. cbn [fst snd] in F1, R1. subst r1.
  destruct vs as [|v vs]; cbn [list_head]; auto.
  destruct (step_sim w1 _ (OTail i) R1) as (w2 & r2 & E2 & F2 & R2); [discriminate|].
  rewrite E2. cbn [sstep] in F2, R2. unfold slink at 1 in R2. unfold slink at 1 in F2.
  cbn [slinks sstrs] in R2, F2.
  replace (match nth_error (slinks sw) i with Some (Some l) => Some l | _ => None end) with (slink sw i) in R2, F2 by reflexivity.
  rewrite E in R2, F2. cbn [snew fst snd tl slinks sstrs] in R2, F2.
  assert (L1 : length (wlinks w1) = length (slinks sw)).
  { destruct R1 as (_ & L & _). apply Forall2_len in L. exact L. }
  rewrite (IH w2 _ (length (wlinks w1)) vs R2); auto.
  unfold slink; cbn [slinks]. rewrite nth_error_snoc, L1. now destruct Nat.eq_dec.
Qed.

Lemma get_link_some w sw i l : Rel w sw -> get_link w i = Some l -> exists vs, slink sw i = Some vs.
Proof.
  intros RL E. pose proof (get_link_rel w sw i RL) as H. rewrite E in H.
  destruct (slink sw i); [eauto|contradiction].
Qed.

Lemma slink_upd_other sw i j x : i <> j -> slink (mkS (upd j x (slinks sw)) (sstrs sw)) i = slink sw i.
Proof. intros. unfold slink; cbn [slinks]. now rewrite nth_error_upd_other by auto. Qed.
Lemma slink_snoc sw i vs x ss : slink sw i = Some vs -> slink (mkS (slinks sw ++ [x]) ss) i = Some vs.
Proof.
  unfold slink; cbn [slinks]. intros E. rewrite nth_error_snoc. destruct Nat.eq_dec as [->|]; auto.
  replace (nth_error (slinks sw) (length (slinks sw))) with (@None (option (list val))) in E; [discriminate|].
  symmetry; apply nth_error_None; lia.
Qed.

Lemma sstep_other sw o i vs : writes o <> Some i -> slink sw i = Some vs -> slink (fst (sstep sw o)) i = Some vs.
Proof.
  intros W E. destruct o as [s|v| |k|k|k x|k j|k j|k|k|k|k|k]; cbn [sstep writes] in *;
    repeat match goal with
    | |- context [match slink sw ?a with _ => _ end] => destruct (slink sw a) eqn:?
    | |- context [match sstr sw ?a with _ => _ end] => destruct (sstr sw a) eqn:?
    | |- context [match sitem sw ?a with _ => _ end] => destruct (sitem sw a) eqn:?
    | |- context [if Nat.eqb ?a ?b then _ else _] => destruct (Nat.eqb a b)
    end; cbn [fst snew sset sobserve]; auto; try (apply slink_snoc; assumption);
    try (rewrite slink_upd_other; [assumption|congruence]).
Qed.

Lemma persistent os w outs o w' r i l n : (e = true -> False) ->
  run world0 os = Ok (w, outs) -> step w o = Ok (w', r) ->
  get_link w i = Some l -> writes o <> Some i -> elems n w' i = elems n w i.
Proof.
  intros EF R S G W. destruct (run_sim os) with (w := world0) (sw := sworld0) as (w0 & R' & RL); [intros X; now destruct EF|apply Rel0|].
  rewrite R' in R. inversion R; subst w0 outs. clear R R'.
  destruct (step_sim w _ o RL) as (w1 & r1 & S' & _ & RL1); [intros X; now destruct EF|].
  rewrite S' in S. inversion S; subst w1 r1.
  destruct (get_link_some _ _ _ _ RL G) as [vs E].
  rewrite (elems_spec n _ _ _ _ RL E). eapply elems_spec; [exact RL1|]. now apply sstep_other.
Qed.

Lemma held_none w : (forall v, get_sv w v = None) -> held (wstrs w) = [].
Proof.
  intros N. assert (A : forall o, In o (wstrs w) -> o = None).
  { intros o O. apply In_nth_error in O as [i E]. specialize (N i). unfold get_sv in N. rewrite E in N.
    destruct o; [discriminate|auto]. }
  unfold held. induction (wstrs w) as [|o l IH]; simpl; auto. rewrite (A o) by now left. apply IH.
  intros; apply A; now right.
Qed.

Lemma all_strings_freed w sw : e = true -> Rel w sw -> (forall i, get_link w i = None) ->
  (forall v, get_sv w v = None) ->
  forall p, match nth_error (strs (wmem w)) p with Some (Some _) => False | _ => True end.
Proof.
  intros EE RL NL NS p. pose proof (all_blocks_freed w sw RL NL) as BF.
  destruct RL as (I & _). rewrite (held_none w NS) in I.
  assert (Z : bcount (wmem w) p = 0).
  { clear - BF. unfold bcount. induction (blocks (wmem w)) as [|o l IH]; [reflexivity|].
    cbn [map]. unfold list_sum in *; cbn [fold_right]. rewrite IH.
    - specialize (BF 0). cbn in BF. now destruct o.
    - intros b. exact (BF (S b)). }
  destruct I as [_ B]. specialize (B p). destruct (nth_error (strs (wmem w)) p) as [[[s rc]|]|]; auto.
  rewrite cnt_nil, Z in B. destruct B as (B1 & _ & B2). specialize (B2 EE). lia.
Qed.

End Exact.
