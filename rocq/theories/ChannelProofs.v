(** * Lemmas for C35, C36. *)
From Coq Require Import List Bool Arith Lia Permutation.
From Verif Require Import Syntax ChannelModel ChannelSpec.
Import ListNotations.
Local Open Scope nat_scope.
Local Open Scope list_scope.

(** ** Lists *)
Lemma set_nth_length : forall {A} (l : list A) i x, length (set_nth i x l) = length l.
Proof. induction l as [|y l IH]; intros [|i] x; cbn; auto. Qed.
Lemma nth_set_nth : forall {A} (l : list A) i j x,
  nth_error (set_nth i x l) j = if Nat.eqb i j then match nth_error l j with Some _ => Some x | None => None end else nth_error l j.
Proof.
  induction l as [|y l IH]; intros [|i] [|j] x; cbn; auto.
  - destruct (Nat.eqb i j); reflexivity.
Qed.
Lemma set_nth_app : forall {A} (a : list A) x y b, set_nth (length a) y (a ++ x :: b) = a ++ y :: b.
Proof. induction a as [|z a IH]; intros; cbn; [|rewrite IH]; reflexivity. Qed.
Lemma swap_length : forall i j l, length (swap i j l) = length l.
Proof. intros. unfold swap. destruct (nth_error l i), (nth_error l j); rewrite ?set_nth_length; reflexivity. Qed.
Lemma nth_swap : forall i j l p, i < length l -> j < length l ->
  nth_error (swap i j l) p = nth_error l (if Nat.eqb p j then i else if Nat.eqb p i then j else p).
Proof.
  intros i j l p Hi Hj. unfold swap. destruct (nth_error l i) as [x|] eqn:Ei; [|apply nth_error_None in Ei; lia].
  destruct (nth_error l j) as [y|] eqn:Ej; [|apply nth_error_None in Ej; lia].
  rewrite !nth_set_nth, (Nat.eqb_sym j p), (Nat.eqb_sym i p). destruct (Nat.eqb_spec p j).
  - subst. destruct (Nat.eqb_spec j i); [subst; rewrite Ei; reflexivity|]. rewrite Ej. auto.
  - destruct (Nat.eqb_spec p i); [subst; rewrite Ei; auto|reflexivity].
Qed.
Lemma swap_perm : forall i j l, i < length l -> j < length l -> Permutation l (swap i j l).
Proof.
  intros i j l Hi Hj. apply Permutation_nth_error. split; [symmetry; apply swap_length|].
  exists (fun p => if Nat.eqb p j then i else if Nat.eqb p i then j else p). split.
  - intros p q. destruct (Nat.eqb_spec p j), (Nat.eqb_spec q j), (Nat.eqb_spec p i), (Nat.eqb_spec q i); lia.
  - intros p. apply nth_swap; auto.
Qed.
Lemma swap_firstn : forall i j l, i <= j -> firstn i (swap i j l) = firstn i l.
Proof.
  intros i j l H. unfold swap. destruct (nth_error l i) as [x|] eqn:Ei; [|reflexivity].
  destruct (nth_error l j) as [y|] eqn:Ej; [|reflexivity]. clear Ei Ej. generalize x y. clear x y.
  revert j l H. induction i as [|i IH]; intros j l H x y; [reflexivity|].
  destruct j as [|j]; [lia|]. destruct l as [|z l]; [reflexivity|]. cbn. f_equal. apply IH. lia.
Qed.
Lemma nth_firstn : forall {A} (l : list A) n i, nth_error (firstn n l) i = if i <? n then nth_error l i else None.
Proof.
  intros A l n. revert l. induction n as [|n IH]; intros l i.
  - destruct i; reflexivity.
  - destruct l as [|x l]; [destruct i, (_ <? _); reflexivity|]. destruct i as [|i]; [reflexivity|]. apply (IH l i).
Qed.
Lemma in_firstn_S : forall {A} (l : list A) n x c, nth_error l n = Some x -> In c (firstn (S n) l) <-> In c (firstn n l) \/ c = x.
Proof.
  induction l as [|y l IH]; intros [|n] x c H; try discriminate.
  - injection H as ->. cbn. intuition.
  - cbn in H. specialize (IH n x c H). cbn [firstn In] in *. tauto.
Qed.
Lemma nodup_firstn : forall {A} (l : list A) n, NoDup l -> NoDup (firstn n l).
Proof.
  intros A l. induction l as [|x l IH]; intros [|n] H; cbn; try constructor.
  - inversion H; subst. intros I. apply H2. rewrite <- (firstn_skipn n l). apply in_or_app. auto.
  - inversion H; auto.
Qed.
Lemma nodup_pos : forall (l : list nat) n x, NoDup l -> nth_error l n = Some x -> ~ In x (firstn n l).
Proof.
  intros l n x H Hn I. apply In_nth_error in I. destruct I as [p I]. rewrite nth_firstn in I.
  destruct (Nat.ltb_spec p n); [|discriminate]. assert (p = n); [|lia].
  rewrite NoDup_nth_error in H. apply H; [apply nth_error_Some; congruence|congruence].
Qed.
Lemma upd_same : forall {A} (f : nat -> A) t x, upd f t x t = x.
Proof. intros. unfold upd. rewrite Nat.eqb_refl. reflexivity. Qed.
Lemma upd_other : forall {A} (f : nat -> A) t u x, u <> t -> upd f t x u = f u.
Proof. intros. unfold upd. destruct (Nat.eqb_spec u t); [contradiction|reflexivity]. Qed.

(** ** The invariant *)
Definition crit (p : pc) : bool :=
  match p with Idle | InLock _ | CallLock _ => false | _ => true end.
Definition fresh (s : state) (c : nat) : Prop :=
  ~ In c (list_ s) /\ exists h, nth_error (chans s) c = Some h /\ ch_store h = None.
Definition closed_from (s : state) (op : nat) : Prop :=
  op <= length (list_ s) /\ forall p c, op <= p -> nth_error (list_ s) p = Some c -> is_open (chans s) c = false.
Definition making (p : pc) : option nat := match p with InLock c | InPush c => Some c | _ => None end.

Record Inv (s : state) : Prop := {
  i_view : forall t, view s t < length (flag s);
  i_seen : seen s < length (flag s);
  i_lock : forall t, crit (at_pc s t) = true <-> lock s = Some t;
  i_nodup : NoDup (list_ s);
  i_bound : forall c, In c (list_ s) -> c < length (chans s);
  i_making : forall t c, making (at_pc s t) = Some c -> fresh s c;
  i_making2 : forall t u c, making (at_pc s t) = Some c -> making (at_pc s u) = Some c -> t = u;
  i_store : forall t c, at_pc s t = InStore c -> In c (list_ s) /\ exists h, nth_error (chans s) c = Some h /\ ch_store h = None;
  i_unstored : forall c h, In c (list_ s) -> nth_error (chans s) c = Some h -> ch_store h = None ->
    exists t, at_pc s t = InStore c;
  i_flag : forall c h k, nth_error (chans s) c = Some h -> ch_store h = Some k -> k < length (flag s) /\
    (ch_open h = true -> In c (list_ s) /\ forall j, k <= j -> j < length (flag s) -> nth j (flag s) false = true);
  i_send : forall t m i op, at_pc s t = CallSend m i op -> i <= op /\ closed_from s op;
  i_trunc : forall t op, at_pc s t = CallTrunc op -> closed_from s op
}.

Lemma inv_start : Inv start.
Proof.
  constructor; cbn; intros; try discriminate; try contradiction; try lia.
  - split; discriminate.
  - constructor.
  - destruct c; discriminate.
Qed.

Ltac pcs t := intros u; intros; cbn [at_pc set_pc set_view set_list set_chans take release write count] in *;
  unfold upd in *; destruct (Nat.eqb_spec u t); [subst u|].

Lemma inv_new : forall s t, Inv s -> at_pc s t = Idle ->
  Inv (set_pc t (InLock (length (chans s))) (set_chans (chans s ++ [Chan true [] None]) s)).
Proof.
  intros s t [V S L N B M M2 St U F Sd Tr] Ht.
  assert (forall c h, nth_error (chans s) c = Some h -> nth_error (chans s ++ [Chan true [] None]) c = Some h) as Old.
  { intros c h H. rewrite nth_error_app1; auto. apply nth_error_Some. congruence. }
  assert (nth_error (chans s ++ [Chan true [] None]) (length (chans s)) = Some (Chan true [] None)) as New.
  { rewrite nth_error_app2, Nat.sub_diag by lia. reflexivity. }
  assert (forall c h, nth_error (chans s ++ [Chan true [] None]) c = Some h ->
            nth_error (chans s) c = Some h \/ c = length (chans s) /\ h = Chan true [] None) as Cases.
  { intros c h H. destruct (Nat.lt_ge_cases c (length (chans s))).
    - rewrite nth_error_app1 in H by auto. auto.
    - destruct (Nat.eq_dec c (length (chans s))); [subst; right; split; congruence|].
      assert (nth_error (chans s ++ [Chan true [] None]) c <> None) as X by congruence.
      apply nth_error_Some in X. rewrite app_length in X. cbn in X. lia. }
  assert (forall c, fresh s c -> c < length (chans s)) as FB.
  { intros c (_ & h & H & _). apply nth_error_Some. congruence. }
  constructor; cbn [flag lock seen list_ chans view at_pc calls set_pc set_chans]; auto.
  - pcs t; [|apply L]. rewrite <- L, Ht. reflexivity.
  - intros c H. rewrite app_length. specialize (B c H). lia.
  - pcs t.
    + injection H as <-. split; [intros I; specialize (B _ I); lia|]. cbn. eauto.
    + destruct (M u c H) as (A1 & h & A2 & A3). split; [exact A1|]. cbn. eauto.
  - intros u w c. unfold upd. destruct (Nat.eqb_spec u t), (Nat.eqb_spec w t); intros H1 H2; subst; auto.
    + injection H1 as <-. specialize (FB _ (M _ _ H2)). lia.
    + injection H2 as <-. specialize (FB _ (M _ _ H1)). lia.
    + eapply M2; eauto.
  - pcs t; [discriminate|]. destruct (St u c H) as (A1 & h & A2 & A3). eauto.
  - intros c h I H Hn. destruct (Cases c h H) as [H'|[-> _]]; [|specialize (B _ I); lia].
    destruct (U c h I H' Hn) as [u Hu]. exists u. unfold upd. destruct (Nat.eqb_spec u t); [subst; congruence|exact Hu].
  - intros c h k H Hk. destruct (Cases c h H) as [H'|[-> ->]]; [|discriminate]. eapply F; eauto.
  - pcs t; [discriminate|]. destruct (Sd u m i op H) as (A1 & A2 & A3). split; [exact A1|]. split; [exact A2|].
    intros p c Hp Hc. specialize (A3 p c Hp Hc). cbn [chans set_pc set_chans list_] in *. unfold is_open in *.
    destruct (nth_error (chans s) c) as [h|] eqn:E; [rewrite (Old _ _ E); exact A3|].
    apply nth_error_In in Hc. specialize (B _ Hc). apply nth_error_None in E. lia.
  - pcs t; [discriminate|]. destruct (Tr u op H) as (A2 & A3). split; [exact A2|].
    intros p c Hp Hc. specialize (A3 p c Hp Hc). cbn [chans set_pc set_chans list_] in *. unfold is_open in *.
    destruct (nth_error (chans s) c) as [h|] eqn:E; [rewrite (Old _ _ E); exact A3|].
    apply nth_error_In in Hc. specialize (B _ Hc). apply nth_error_None in E. lia.
Qed.

Lemma inv_view : forall s t v, Inv s -> v < length (flag s) -> Inv (set_view t v s).
Proof.
  intros s t v [V S L N B M M2 St U F Sd Tr] Hv. constructor; auto.
  cbn. intros u. unfold upd. destruct (Nat.eqb u t); auto.
Qed.
Lemma inv_count : forall s t, Inv s -> Inv (count t s).
Proof. intros s t [V S L N B M M2 St U F Sd Tr]. constructor; auto. Qed.

Lemma nth_close : forall l c d h, nth_error (close c l) d = Some h ->
  exists h0, nth_error l d = Some h0 /\ ch_sent h = ch_sent h0 /\ ch_store h = ch_store h0 /\
    (ch_open h = true -> ch_open h0 = true /\ d <> c).
Proof.
  intros l c d h H. unfold close in H. destruct (nth_error l c) as [hc|] eqn:Ec.
  - rewrite nth_set_nth in H. destruct (Nat.eqb_spec c d).
    + subst d. rewrite Ec in H. injection H as <-. exists hc. repeat split; auto; discriminate.
    + exists h. repeat split; auto.
  - exists h. repeat split; auto. intros ->. congruence.
Qed.
Lemma nth_close_of : forall l c d h, nth_error l d = Some h ->
  exists h', nth_error (close c l) d = Some h' /\ ch_sent h' = ch_sent h /\ ch_store h' = ch_store h.
Proof.
  intros l c d h H. unfold close. destruct (nth_error l c) as [hc|] eqn:Ec; [|eauto].
  rewrite nth_set_nth. destruct (Nat.eqb_spec c d); [|eauto]. subst. rewrite H in *. injection Ec as ->. eauto.
Qed.
Lemma close_length : forall l c, length (close c l) = length l.
Proof. intros. unfold close. destruct (nth_error l c); [apply set_nth_length|reflexivity]. Qed.
Lemma close_closed : forall l c d, is_open l d = false -> is_open (close c l) d = false.
Proof.
  intros l c d H. unfold is_open in *. destruct (nth_error (close c l) d) as [h|] eqn:E; [|reflexivity].
  destruct (nth_close l c d h E) as (h0 & A & _ & _ & O). rewrite A in H. destruct (ch_open h); auto.
  destruct O; auto. congruence.
Qed.

Lemma inv_drop : forall s c, Inv s -> Inv (set_chans (close c (chans s)) s).
Proof.
  intros s c [V S L N B M M2 St U F Sd Tr].
  constructor; cbn [flag lock seen list_ chans view at_pc calls set_chans]; auto.
  - intros d H. rewrite close_length. auto.
  - intros t d H. destruct (M t d H) as (A1 & h & A2 & A3). destruct (nth_close_of _ c _ _ A2) as (h' & E1 & _ & E2).
    split; [exact A1|]. exists h'. split; [exact E1|congruence].
  - intros t d H. destruct (St t d H) as (A1 & h & A2 & A3). destruct (nth_close_of _ c _ _ A2) as (h' & E1 & _ & E2).
    split; [exact A1|]. exists h'. split; [exact E1|congruence].
  - intros d h I H Hn. destruct (nth_close _ _ _ _ H) as (h0 & A & _ & E & _). apply (U d h0 I A). congruence.
  - intros d h k H Hk. destruct (nth_close _ _ _ _ H) as (h0 & A & _ & E & O).
    destruct (F d h0 k A) as [F1 F2]; [congruence|]. split; [exact F1|]. intros Ho. apply F2. apply O; auto.
  - intros t m i op H. destruct (Sd t m i op H) as (A1 & A2 & A3). split; [exact A1|]. split; [exact A2|].
    intros p d Hp Hd. apply close_closed. eapply A3; eauto.
  - intros t op H. destruct (Tr t op H) as (A2 & A3). split; [exact A2|].
    intros p d Hp Hd. apply close_closed. eapply A3; eauto.
Qed.

(** Changing only the place of a thread. *)
Lemma inv_pc : forall s t p, Inv s -> crit p = crit (at_pc s t) ->
  making p = None -> (forall c, p <> InStore c) -> (forall c, at_pc s t <> InStore c) ->
  (forall m i op, p = CallSend m i op -> i <= op /\ closed_from s op) ->
  (forall op, p = CallTrunc op -> closed_from s op) -> Inv (set_pc t p s).
Proof.
  intros s t p [V S L N B M M2 St U F Sd Tr] Hc Hm Hs Ho H1 H2.
  constructor; cbn [flag lock seen list_ chans view at_pc calls set_pc]; auto.
  - pcs t; [rewrite Hc|]; apply L.
  - pcs t; [congruence|]. exact (M u c H).
  - intros u w c. unfold upd. destruct (Nat.eqb_spec u t), (Nat.eqb_spec w t); intros A A'; try congruence. eapply M2; eauto.
  - pcs t; [congruence|]. exact (St u c H).
  - intros c h I H Hn. destruct (U c h I H Hn) as [u Hu]. exists u. unfold upd. destruct (Nat.eqb_spec u t); [subst; congruence|exact Hu].
  - pcs t; [apply (H1 _ _ _ H)|]. apply (Sd u _ _ _ H).
  - pcs t; [apply (H2 _ H)|]. apply (Tr u _ H).
Qed.

Lemma inv_call : forall s t args k s', Inv s -> fire (Call t args k) s = Some s' -> Inv s'.
Proof.
  intros s t args k s' H E. cbn [fire] in E. destruct (at_pc s t) eqn:Ht; try discriminate.
  destruct (_ && _) eqn:Ek; [|discriminate]. apply andb_prop in Ek. destruct Ek as [_ Ek]. apply Nat.ltb_lt in Ek.
  assert (Inv (set_view t k (count t s))) as H' by (apply inv_view; [apply inv_count; exact H|exact Ek]).
  injection E as <-. destruct (nth k _ false); [|exact H'].
  apply inv_pc; auto; cbn; rewrite ?Ht; try discriminate. reflexivity.
Qed.

Lemma no_other : forall s t u, Inv s -> crit (at_pc s t) = true -> crit (at_pc s u) = true -> u = t.
Proof. intros s t u H Ht Hu. apply (i_lock s H) in Ht, Hu. congruence. Qed.

Lemma inv_take : forall s t p, Inv s -> lock s = None -> crit p = true -> making p = making (at_pc s t) ->
  (forall c, p <> InStore c) ->
  (forall m i op, p = CallSend m i op -> i <= op /\ op = length (list_ s)) ->
  (forall op, p <> CallTrunc op) -> Inv (set_pc t p (take t s)).
Proof.
  intros s t p HI Hl Hc Hm Hs H1 H2. assert (crit (at_pc s t) = false) as Ht.
  { destruct (crit (at_pc s t)) eqn:E; auto. apply (i_lock s HI) in E. congruence. }
  destruct HI as [V S L N B M M2 St U F Sd Tr].
  constructor; cbn [flag lock seen list_ chans view at_pc calls set_pc take]; auto.
  - intros u. unfold upd. destruct (Nat.eqb u t); auto. specialize (V t). lia.
  - pcs t; [rewrite Hc; split; auto|]. rewrite L, Hl. split; [discriminate|congruence].
  - pcs t; [rewrite Hm in H; exact (M t c H)|exact (M u c H)].
  - intros u w c. unfold upd. destruct (Nat.eqb_spec u t), (Nat.eqb_spec w t); intros A A'; subst; auto;
      rewrite ?Hm in *; eapply M2; eauto.
  - pcs t; [congruence|]. exact (St u c H).
  - intros c h I H Hn. destruct (U c h I H Hn) as [u Hu]. exists u. unfold upd. destruct (Nat.eqb_spec u t); [|exact Hu].
    subst. rewrite Hu in Ht. discriminate.
  - pcs t; [|apply (Sd u _ _ _ H)]. destruct (H1 _ _ _ H) as [A ->]. split; [exact A|]. split; [reflexivity|].
    cbn. intros q c Hq Hn. assert (q < length (list_ s)) by (apply nth_error_Some; congruence). lia.
  - pcs t; [congruence|]. apply (Tr u _ H).
Qed.
Lemma inv_release : forall s t, Inv s -> crit (at_pc s t) = true -> making (at_pc s t) = None ->
  (forall c, at_pc s t <> InStore c) -> Inv (set_pc t Idle (release t s)).
Proof.
  intros s t HI Hc Hm Hs. pose proof (i_lock s HI) as L0. destruct HI as [V S L N B M M2 St U F Sd Tr].
  assert (lock s = Some t) as Lt by (apply L; exact Hc).
  constructor; cbn [flag lock seen list_ chans view at_pc calls set_pc release]; auto.
  - pcs t; [split; discriminate|]. rewrite L, Lt. split; [congruence|discriminate].
  - pcs t; [discriminate|exact (M u c H)].
  - intros u w c. unfold upd. destruct (Nat.eqb_spec u t), (Nat.eqb_spec w t); intros A A'; try discriminate. eapply M2; eauto.
  - pcs t; [discriminate|]. exact (St u c H).
  - intros c h I H Hn. destruct (U c h I H Hn) as [u Hu]. exists u. unfold upd. destruct (Nat.eqb_spec u t); [subst; congruence|exact Hu].
  - pcs t; [discriminate|]. apply (Sd u _ _ _ H).
  - pcs t; [discriminate|]. apply (Tr u _ H).
Qed.

Lemma nodup_snoc : forall (l : list nat) x, NoDup l -> ~ In x l -> NoDup (l ++ [x]).
Proof.
  intros l x H Hx. apply (Permutation_NoDup (l := x :: l)); [apply Permutation_cons_append|]. constructor; auto.
Qed.
Lemma inv_push : forall s t c, Inv s -> at_pc s t = InPush c -> Inv (set_pc t (InStore c) (set_list (list_ s ++ [c]) s)).
Proof.
  intros s t c [V S L N B M M2 St U F Sd Tr] Ht.
  assert (fresh s c) as Fr by (apply (M t); rewrite Ht; reflexivity).
  destruct Fr as (Fr & h & Hh & Hn).
  assert (forall u, crit (at_pc s u) = true -> u = t) as Only.
  { intros u Hu. apply L in Hu. assert (lock s = Some t) by (apply L; rewrite Ht; reflexivity). congruence. }
  constructor; cbn [flag lock seen list_ chans view at_pc calls set_pc set_list]; auto.
  - pcs t; [rewrite <- L, Ht; reflexivity|apply L].
  - apply nodup_snoc; auto.
  - intros d I. apply in_app_or in I. destruct I as [I|[<-|[]]]; auto. apply nth_error_Some. congruence.
  - pcs t; [discriminate|]. destruct (M u c0 H) as (A1 & A2). split; [|exact A2]. cbn. intros I.
    apply in_app_or in I. destruct I as [I|[<-|[]]]; auto. apply n. apply (M2 u t c); auto. rewrite Ht. reflexivity.
  - intros u w d. unfold upd. destruct (Nat.eqb_spec u t), (Nat.eqb_spec w t); intros A A'; try discriminate. eapply M2; eauto.
  - pcs t.
    + injection H as <-. split; [apply in_or_app; right; left; reflexivity|eauto].
    + destruct (St u c0 H) as (A1 & A2). split; [apply in_or_app; auto|exact A2].
  - intros d h' I Hd Hn'. apply in_app_or in I. destruct I as [I|[<-|[]]].
    + destruct (U d h' I Hd Hn') as [u Hu]. exists u. unfold upd. destruct (Nat.eqb_spec u t); [subst; congruence|exact Hu].
    + exists t. apply upd_same.
  - intros d h' k Hd Hk. destruct (F d h' k Hd Hk) as [F1 F2]. split; [exact F1|]. intros Ho. destruct (F2 Ho) as [F3 F4].
    split; [apply in_or_app; auto|exact F4].
  - pcs t; [discriminate|]. exfalso. apply n, Only. rewrite H. reflexivity.
  - pcs t; [discriminate|]. exfalso. apply n, Only. rewrite H. reflexivity.
Qed.

Lemma nth_stored : forall l c k d h, nth_error (stored c k l) d = Some h ->
  exists h0, nth_error l d = Some h0 /\ ch_sent h = ch_sent h0 /\ ch_open h = ch_open h0 /\
    ch_store h = (if Nat.eqb d c then Some k else ch_store h0).
Proof.
  intros l c k d h H. unfold stored in H. destruct (nth_error l c) as [hc|] eqn:Ec.
  - rewrite nth_set_nth in H. rewrite (Nat.eqb_sym d c). destruct (Nat.eqb_spec c d).
    + subst d. rewrite Ec in H. injection H as <-. exists hc. repeat split; auto.
    + exists h. repeat split; auto.
  - exists h. repeat split; auto. destruct (Nat.eqb_spec d c); [congruence|reflexivity].
Qed.
Lemma nth_stored_of : forall l c k d h, nth_error l d = Some h ->
  exists h', nth_error (stored c k l) d = Some h' /\ ch_sent h' = ch_sent h /\ ch_open h' = ch_open h /\
    ch_store h' = (if Nat.eqb d c then Some k else ch_store h).
Proof.
  intros l c k d h H. unfold stored. destruct (nth_error l c) as [hc|] eqn:Ec.
  - rewrite nth_set_nth, (Nat.eqb_sym d c). destruct (Nat.eqb_spec c d); [|eauto]. subst. rewrite H in *. injection Ec as ->.
    eexists. split; [reflexivity|]. auto.
  - destruct (Nat.eqb_spec d c); [congruence|eauto].
Qed.
Lemma stored_length : forall l c k, length (stored c k l) = length l.
Proof. intros. unfold stored. destruct (nth_error l c); [apply set_nth_length|reflexivity]. Qed.

Lemma nth_snoc : forall l j b, j < length l \/ j = length l -> nth j (l ++ [b]) false = if Nat.eqb j (length l) then b else nth j l false.
Proof.
  intros l j b [H|H]; destruct (Nat.eqb_spec j (length l)); try lia.
  - apply app_nth1. exact H.
  - subst. rewrite app_nth2, Nat.sub_diag by lia. reflexivity.
Qed.

Lemma inv_store : forall s t c, Inv s -> at_pc s t = InStore c ->
  Inv (set_pc t InDrop (write t true (set_chans (stored c (length (flag s)) (chans s)) s))).
Proof.
  intros s t c [V S L N B M M2 St U F Sd Tr] Ht.
  destruct (St t c Ht) as (Ic & hc & Hc & Hcn).
  assert (forall u, crit (at_pc s u) = true -> u = t) as Only.
  { intros u Hu. apply L in Hu. assert (lock s = Some t) by (apply L; rewrite Ht; reflexivity). congruence. }
  constructor; cbn [flag lock seen list_ chans view at_pc calls set_pc set_list write set_chans]; auto.
  - intros u. rewrite app_length. cbn. unfold upd. destruct (Nat.eqb u t); [lia|]. specialize (V u). lia.
  - rewrite app_length. cbn. lia.
  - pcs t; [rewrite <- L, Ht; reflexivity|apply L].
  - intros d I. rewrite stored_length. auto.
  - pcs t; [discriminate|]. destruct (M u c0 H) as (A1 & h & A2 & A3). split; [exact A1|].
    destruct (nth_stored_of _ c (length (flag s)) _ _ A2) as (h' & E1 & _ & _ & E2). exists h'. split; [exact E1|].
    destruct (Nat.eqb_spec c0 c); [subst; contradiction|congruence].
  - intros u w d. unfold upd. destruct (Nat.eqb_spec u t), (Nat.eqb_spec w t); intros A A'; try discriminate. eapply M2; eauto.
  - pcs t; [discriminate|]. exfalso. apply n, Only. rewrite H. reflexivity.
  - intros d h I Hd Hn. destruct (nth_stored _ _ _ _ _ Hd) as (h0 & E1 & _ & _ & E2).
    destruct (Nat.eqb_spec d c); [congruence|]. destruct (U d h0 I E1) as [u Hu]; [congruence|].
    exfalso. assert (u = t) by (apply Only; rewrite Hu; reflexivity). subst. congruence.
  - intros d h k Hd Hk. destruct (nth_stored _ _ _ _ _ Hd) as (h0 & E1 & _ & E3 & E2). rewrite app_length. cbn [length].
    destruct (Nat.eqb_spec d c).
    + subst d. assert (k = length (flag s)) by congruence. subst k. split; [lia|]. intros _. split; [exact Ic|].
      intros j H1 H2. assert (j = length (flag s)) by lia. subst. rewrite nth_snoc, Nat.eqb_refl by auto. reflexivity.
    + destruct (F d h0 k E1) as [F1 F2]; [congruence|]. split; [lia|]. intros Ho. destruct F2 as [F3 F4]; [congruence|].
      split; [exact F3|]. intros j H1 H2. rewrite nth_snoc by lia. destruct (Nat.eqb_spec j (length (flag s))); [reflexivity|].
      apply F4; lia.
  - pcs t; [discriminate|]. exfalso. apply n, Only. rewrite H. reflexivity.
  - pcs t; [discriminate|]. exfalso. apply n, Only. rewrite H. reflexivity.
Qed.

Lemma nth_send : forall l c m d h, nth_error (send c m l) d = Some h ->
  exists h0, nth_error l d = Some h0 /\ ch_store h = ch_store h0 /\ ch_open h = ch_open h0 /\
    ch_sent h = (if Nat.eqb d c then ch_sent h0 ++ [m] else ch_sent h0).
Proof.
  intros l c k d h H. unfold send in H. destruct (nth_error l c) as [hc|] eqn:Ec.
  - rewrite nth_set_nth in H. rewrite (Nat.eqb_sym d c). destruct (Nat.eqb_spec c d).
    + subst d. rewrite Ec in H. injection H as <-. exists hc. repeat split; auto.
    + exists h. repeat split; auto.
  - exists h. repeat split; auto. destruct (Nat.eqb_spec d c); [congruence|reflexivity].
Qed.
Lemma nth_send_of : forall l c m d h, nth_error l d = Some h ->
  exists h', nth_error (send c m l) d = Some h' /\ ch_store h' = ch_store h /\ ch_open h' = ch_open h.
Proof.
  intros l c k d h H. unfold send. destruct (nth_error l c) as [hc|] eqn:Ec; [|eauto].
  rewrite nth_set_nth. destruct (Nat.eqb_spec c d); [|eauto]. subst. rewrite H in *. injection Ec as ->.
  eexists. split; [reflexivity|]. auto.
Qed.
Lemma send_length : forall l c m, length (send c m l) = length l.
Proof. intros. unfold send. destruct (nth_error l c); [apply set_nth_length|reflexivity]. Qed.
Lemma send_open : forall l c m d, is_open (send c m l) d = is_open l d.
Proof.
  intros l c m d. unfold is_open. destruct (nth_error l d) as [h|] eqn:E.
  - destruct (nth_send_of l c m d h E) as (h' & A & _ & B). rewrite A. exact B.
  - destruct (nth_error (send c m l) d) as [h|] eqn:E'; [|reflexivity].
    destruct (nth_send _ _ _ _ _ E') as (h0 & A & _). congruence.
Qed.
Lemma inv_send : forall s c m, Inv s -> Inv (set_chans (send c m (chans s)) s).
Proof.
  intros s c m [V S L N B M M2 St U F Sd Tr].
  constructor; cbn [flag lock seen list_ chans view at_pc calls set_chans]; auto.
  - intros d H. rewrite send_length. auto.
  - intros t d H. destruct (M t d H) as (A1 & h & A2 & A3). destruct (nth_send_of _ c m _ _ A2) as (h' & E1 & E2 & _).
    split; [exact A1|]. exists h'. split; [exact E1|congruence].
  - intros t d H. destruct (St t d H) as (A1 & h & A2 & A3). destruct (nth_send_of _ c m _ _ A2) as (h' & E1 & E2 & _).
    split; [exact A1|]. exists h'. split; [exact E1|congruence].
  - intros d h I H Hn. destruct (nth_send _ _ _ _ _ H) as (h0 & A & E & _). apply (U d h0 I A). congruence.
  - intros d h k H Hk. destruct (nth_send _ _ _ _ _ H) as (h0 & A & E & O & _).
    destruct (F d h0 k A) as [F1 F2]; [congruence|]. split; [exact F1|]. intros Ho. apply F2. congruence.
  - intros t m' i op H. destruct (Sd t m' i op H) as (A1 & A2 & A3). split; [exact A1|]. split; [exact A2|].
    intros p d Hp Hd. cbn. rewrite send_open. eapply A3; eauto.
  - intros t op H. destruct (Tr t op H) as (A2 & A3). split; [exact A2|].
    intros p d Hp Hd. cbn. rewrite send_open. eapply A3; eauto.
Qed.

(** Changing the vector while holding the lock, without losing an open channel. *)
Lemma inv_list : forall s t l p, Inv s -> crit (at_pc s t) = true -> (forall c, at_pc s t <> InStore c) ->
  making (at_pc s t) = None -> NoDup l ->
  (forall c, In c l -> In c (list_ s)) -> (forall c, In c (list_ s) -> is_open (chans s) c = true -> In c l) ->
  crit p = true -> making p = None -> (forall c, p <> InStore c) ->
  (forall m i op, p = CallSend m i op -> i <= op /\ closed_from (set_list l s) op) -> (forall op, p <> CallTrunc op) ->
  Inv (set_pc t p (set_list l s)).
Proof.
  intros s t l p [V S L N B M M2 St U F Sd Tr] Hc Hs Hm Nl I1 I2 Pc Pm Ps P1 P2.
  assert (forall u, crit (at_pc s u) = true -> u = t) as Only.
  { intros u Hu. apply L in Hu. assert (lock s = Some t) by (apply L; exact Hc). congruence. }
  constructor; cbn [flag lock seen list_ chans view at_pc calls set_pc set_list]; auto.
  - pcs t; [rewrite Pc, <- L, Hc; tauto|apply L].
  - pcs t; [congruence|]. destruct (M u c H) as [A1 A2]. split; [|exact A2]. cbn. auto.
  - intros u w c. unfold upd. destruct (Nat.eqb_spec u t), (Nat.eqb_spec w t); intros A A'; try congruence. eapply M2; eauto.
  - pcs t; [congruence|]. exfalso. apply n, Only. rewrite H. reflexivity.
  - intros c h I H Hn. destruct (U c h (I1 c I) H Hn) as [u Hu]. exfalso.
    assert (u = t) by (apply Only; rewrite Hu; reflexivity). subst. congruence.
  - intros c h k H Hk. destruct (F c h k H Hk) as [F1 F2]. split; [exact F1|]. intros Ho. destruct (F2 Ho) as [F3 F4].
    split; [|exact F4]. apply I2; [exact F3|]. unfold is_open. rewrite H. exact Ho.
  - pcs t; [apply (P1 _ _ _ H)|]. exfalso. apply n, Only. rewrite H. reflexivity.
  - pcs t; [congruence|]. exfalso. apply n, Only. rewrite H. reflexivity.
Qed.

Lemma inv_write_false : forall s t, Inv s -> at_pc s t = CallStore -> list_ s = [] -> Inv (write t false s).
Proof.
  intros s t [V S L N B M M2 St U F Sd Tr] Ht He.
  constructor; cbn [flag lock seen list_ chans view at_pc calls write]; auto; rewrite ?app_length; cbn [length].
  - intros u. unfold upd. destruct (Nat.eqb u t); [lia|]. specialize (V u). lia.
  - lia.
  - intros c h k H Hk. destruct (F c h k H Hk) as [F1 F2]. split; [lia|]. intros Ho. destruct (F2 Ho) as [F3 _].
    rewrite He in F3. contradiction.
Qed.

Lemma inv_go : forall s t s', Inv s -> go t s = Some s' -> Inv s'.
Proof.
  intros s t s' H E. unfold go in E. destruct (at_pc s t) eqn:Ht; try discriminate.
  - destruct (lock s) eqn:El; [discriminate|]. injection E as <-. apply inv_take; auto; try discriminate. rewrite Ht. reflexivity.
  - injection E as <-. apply inv_push; auto.
  - injection E as <-. apply inv_store; auto.
  - injection E as <-. apply inv_release; auto; rewrite Ht; try discriminate; reflexivity.
  - destruct (lock s) eqn:El; [discriminate|]. injection E as <-. apply inv_take; auto; try discriminate.
    + rewrite Ht. reflexivity.
    + intros m' i op X. injection X as <- <- <-. auto.
  - destruct (i_send s H t m i op Ht) as (A1 & A2 & A3). destruct i as [|i].
    + injection E as <-. apply inv_pc; auto; try discriminate; rewrite ?Ht; try discriminate; auto.
      intros op' X. injection X as <-. split; auto.
    + destruct (nth_error (list_ s) i) as [c|] eqn:Ec; [|discriminate].
      assert (i < length (list_ s)) as Hi by (apply nth_error_Some; congruence).
      destruct (is_open (chans s) c) eqn:Eo; injection E as <-.
      * apply inv_pc; [apply inv_send; exact H|cbn; rewrite Ht; reflexivity| | | | |]; cbn; rewrite ?Ht; try discriminate; auto.
        intros m' i' op' X. injection X as <- <- <-. split; [lia|]. split; [exact A2|].
        intros p d Hp Hd. cbn. rewrite send_open. eapply A3; eauto.
      * pose proof (swap_perm i (op - 1) (list_ s)) as P. assert (op - 1 < length (list_ s)) as Ho by lia. specialize (P Hi Ho).
        apply inv_list; auto; try discriminate; rewrite ?Ht; try discriminate; auto.
        -- eapply Permutation_NoDup; eauto. apply (i_nodup s H).
        -- intros d I. eapply Permutation_in; [apply Permutation_sym; exact P|exact I].
        -- intros d I _. eapply Permutation_in; eauto.
        -- intros m' i' op' X. injection X as <- <- <-. split; [lia|]. split; [cbn; rewrite swap_length; lia|].
           intros p d Hp Hd. cbn [list_ chans set_list] in *. rewrite nth_swap in Hd by auto.
           destruct (Nat.eqb_spec p (op - 1)); [congruence|].
           destruct (Nat.eqb_spec p i); [lia|]. apply (A3 p d); [lia|exact Hd].
  - injection E as <-. destruct (i_trunc s H t op Ht) as (A2 & A3).
    apply inv_list; auto; try discriminate; rewrite ?Ht; try discriminate; auto.
    + apply nodup_firstn. apply (i_nodup s H).
    + intros d I. rewrite <- (firstn_skipn op (list_ s)). apply in_or_app. auto.
    + intros d I Ho. apply In_nth_error in I. destruct I as [p Hp]. destruct (Nat.lt_ge_cases p op) as [Hlt|Hge].
      * apply nth_error_In with p. rewrite nth_firstn. destruct (Nat.ltb_spec p op); [exact Hp|lia].
      * rewrite (A3 p d Hge Hp) in Ho. discriminate.
  - injection E as <-. apply inv_pc; auto; try discriminate.
    + destruct (list_ s) eqn:El; [|exact H]. apply inv_write_false; auto.
    + replace (at_pc _ t) with (at_pc s t) by (destruct (list_ s); reflexivity). rewrite Ht. reflexivity.
    + replace (at_pc _ t) with (at_pc s t) by (destruct (list_ s); reflexivity). rewrite Ht. discriminate.
  - injection E as <-. apply inv_release; auto; rewrite Ht; try discriminate; reflexivity.
Qed.

Lemma inv_fire : forall a s s', Inv s -> fire a s = Some s' -> Inv s'.
Proof.
  intros a s s' H E. destruct a.
  - cbn in E. destruct (at_pc s t) eqn:Ht; try discriminate. injection E as <-. apply inv_new; auto.
  - eapply inv_call; eauto.
  - eapply inv_go; eauto.
  - injection E as <-. apply inv_drop; auto.
  - injection E as <-. apply inv_view; auto. pose proof (i_view s H t). pose proof (i_view s H u). lia.
Qed.
Lemma inv_exec : forall l s s', Inv s -> exec l s = Some s' -> Inv s'.
Proof.
  intros l. induction l as [|a l IH]; intros s s' H E; cbn in E; [injection E as <-; exact H|].
  destruct (fire a s) as [s1|] eqn:Ea; [|discriminate]. eapply IH; [eapply inv_fire; eauto|exact E].
Qed.
Lemma inv_reachable : forall s, reachable s -> Inv s.
Proof. intros s [l H]. eapply inv_exec; [apply inv_start|exact H]. Qed.

(** ** What was sent *)
Definition message (p : pc) : option msg :=
  match p with CallLock m | CallSend m _ _ => Some m | _ => None end.
Definition pend (s : state) (c t : nat) : list msg :=
  match at_pc s t with
  | CallLock m => [m]
  | CallSend m i _ => if in_dec Nat.eq_dec c (firstn i (list_ s)) then [m] else []
  | _ => []
  end.
Definition own (s : state) : Prop := forall t m, message (at_pc s t) = Some m -> g_thread m = t.

Lemma own_pc : forall s t p, own s -> (forall m, message p = Some m -> g_thread m = t) -> own (set_pc t p s).
Proof. intros s t p H Hp. unfold own. pcs t; auto. Qed.
Lemma own_fire : forall a s s', own s -> fire a s = Some s' -> own s'.
Proof.
  intros a s s' H E. destruct a; cbn [fire] in E.
  - destruct (at_pc s t); try discriminate. injection E as <-. apply own_pc; [exact H|discriminate].
  - destruct (at_pc s t); try discriminate. destruct (_ && _); [|discriminate]. injection E as <-.
    destruct (nth k _ false); [|exact H]. apply own_pc; [exact H|]. cbn. intros m X. injection X as <-. reflexivity.
  - unfold go in E. destruct (at_pc s t) eqn:Ht; try discriminate.
    1, 5: destruct (lock s); [discriminate|].
    6: destruct i as [|i]; [|destruct (nth_error (list_ s) i); [|discriminate]; destruct (is_open _ _)].
    all: injection E as <-; apply own_pc; cbn [message]; try discriminate; try exact H; try (destruct (list_ s); exact H).
    all: intros m' X; injection X as <-; apply H; rewrite Ht; reflexivity.
  - injection E as <-. exact H.
  - injection E as <-. exact H.
Qed.

Lemma from_app : forall t a b, from t (a ++ b) = from t a ++ from t b.
Proof. intros. apply filter_app. Qed.
Lemma sent_of : forall s s' c t, nth_error (chans s') c = nth_error (chans s) c -> sent s' c t = sent s c t.
Proof. intros s s' c t H. unfold sent. rewrite H. reflexivity. Qed.
Lemma sent_eq : forall s s' c t, chans s' = chans s -> sent s' c t = sent s c t.
Proof. intros. apply sent_of. congruence. Qed.
Lemma sent_close : forall s c d t, sent (set_chans (close d (chans s)) s) c t = sent s c t.
Proof.
  intros. unfold sent. cbn. destruct (nth_error (chans s) c) as [h|] eqn:E.
  - destruct (nth_close_of _ d _ _ E) as (h' & A & B & _). rewrite A, B. reflexivity.
  - replace (nth_error (close d (chans s)) c) with (@None chan); [reflexivity|].
    symmetry. apply nth_error_None. rewrite close_length. apply nth_error_None. exact E.
Qed.
Lemma sent_stored : forall s s' c d k t, chans s' = stored d k (chans s) -> sent s' c t = sent s c t.
Proof.
  intros s s' c d k t H. unfold sent. rewrite H. destruct (nth_error (chans s) c) as [h|] eqn:E.
  - destruct (nth_stored_of _ d k _ _ E) as (h' & A & B & _). rewrite A, B. reflexivity.
  - replace (nth_error (stored d k (chans s)) c) with (@None chan); [reflexivity|].
    symmetry. apply nth_error_None. rewrite stored_length. apply nth_error_None. exact E.
Qed.
Lemma sent_send : forall s s' c d m t, chans s' = send d m (chans s) -> d < length (chans s) ->
  sent s' c t = if Nat.eqb c d && Nat.eqb (g_thread m) t then sent s c t ++ [m] else sent s c t.
Proof.
  intros s s' c d m t H Hd. unfold sent. rewrite H. unfold send.
  destruct (nth_error (chans s) d) as [hd|] eqn:Ed; [|apply nth_error_None in Ed; lia].
  rewrite nth_set_nth, (Nat.eqb_sym c d). destruct (Nat.eqb_spec d c); [|reflexivity].
  subst. rewrite Ed. cbn [ch_sent]. rewrite from_app. cbn [from filter]. destruct (Nat.eqb (g_thread m) t); cbn [andb]; [reflexivity|].
  apply app_nil_r.
Qed.

Definition lost (s s' : state) (c : nat) : Prop := ~ (alive s' c /\ exists k, made s c k).

Lemma pend_other : forall s s' c t, at_pc s' t = at_pc s t ->
  (forall m i op, at_pc s t = CallSend m i op -> list_ s' = list_ s) -> pend s' c t = pend s c t.
Proof.
  intros s s' c t H1 H2. unfold pend. rewrite H1. destruct (at_pc s t) eqn:E; auto. rewrite (H2 _ _ _ eq_refl). reflexivity.
Qed.
Lemma pend_idle : forall s c t, message (at_pc s t) = None -> pend s c t = [].
Proof. intros s c t H. unfold pend. destruct (at_pc s t); try reflexivity; discriminate. Qed.

Lemma app_both : forall {A} (a b c d : list A), a = c -> b = d -> a ++ b = c ++ d. Proof. intros. congruence. Qed.
Lemma step_go : forall s u s' c t, Inv s -> own s -> go u s = Some s' ->
  sent s' c t ++ pend s' c t = sent s c t ++ pend s c t \/
  (sent s' c t = sent s c t /\ pend s' c t = [] /\ lost s s' c).
Proof.
  intros s u s' c t HI Ho E.
  assert (forall s1 p, s' = set_pc u p s1 -> at_pc s1 = at_pc s ->
    (list_ s1 = list_ s \/ crit (at_pc s u) = true) -> u <> t -> pend s' c t = pend s c t) as Other.
  { intros s1 p -> Ha Hl Hn. apply pend_other; [cbn; rewrite upd_other, Ha by auto; reflexivity|].
    intros m i op Hp. destruct Hl as [Hl|Hl]; [exact Hl|]. exfalso. apply Hn. apply (no_other s t u HI); [rewrite Hp; reflexivity|exact Hl]. }
  unfold go in E. destruct (at_pc s u) eqn:Hu; try discriminate.
  - destruct (lock s); [discriminate|]. injection E as <-. left. apply app_both; [apply sent_eq; reflexivity|].
    destruct (Nat.eq_dec u t) as [->|Hn]; [|eapply Other; [reflexivity|reflexivity|auto|auto]].
    rewrite !pend_idle; cbn; rewrite ?Hu, ?upd_same; reflexivity.
  - injection E as <-. left. apply app_both; [apply sent_eq; reflexivity|].
    destruct (Nat.eq_dec u t) as [->|Hn]; [|eapply Other; [reflexivity|reflexivity|auto|auto]].
    rewrite !pend_idle; cbn; rewrite ?Hu, ?upd_same; reflexivity.
  - injection E as <-. left. apply app_both; [eapply sent_stored; reflexivity|].
    destruct (Nat.eq_dec u t) as [->|Hn]; [|eapply Other; [reflexivity|reflexivity|auto|auto]].
    rewrite !pend_idle; cbn; rewrite ?Hu, ?upd_same; reflexivity.
  - injection E as <-. left. apply app_both; [apply sent_eq; reflexivity|].
    destruct (Nat.eq_dec u t) as [->|Hn]; [|eapply Other; [reflexivity|reflexivity|auto|auto]].
    rewrite !pend_idle; cbn; rewrite ?Hu, ?upd_same; reflexivity.
  - (* lock *) destruct (lock s) eqn:El; [discriminate|]. injection E as <-.
    destruct (Nat.eq_dec u t) as [->|Hn]; [|left; apply app_both; [apply sent_eq; reflexivity|eapply Other; [reflexivity|reflexivity|auto|auto]]].
    assert (forall x, sent (set_pc t x (take t s)) c t = sent s c t) as Se by (intros; apply sent_eq; reflexivity).
    unfold pend. rewrite Hu. cbn [at_pc set_pc list_ take]. rewrite upd_same, firstn_all.
    destruct (in_dec Nat.eq_dec c (list_ s)) as [I|I]; [left; rewrite Se; reflexivity|].
    right. split; [apply Se|]. split; [reflexivity|]. intros ((h & H1 & H2) & k & h' & H3 & H4). cbn in H1.
    assert (h' = h) by congruence. subst. apply I. apply (i_flag s HI c h k H1 H4). exact H2.
  - (* sending *) destruct (i_send s HI u m i op Hu) as (A1 & A2 & A3). destruct i as [|i].
    + injection E as <-. left. apply app_both; [apply sent_eq; reflexivity|].
      destruct (Nat.eq_dec u t) as [->|Hn]; [|eapply Other; [reflexivity|reflexivity|auto|auto]].
      unfold pend. rewrite Hu. cbn [at_pc set_pc]. rewrite upd_same. reflexivity.
    + destruct (nth_error (list_ s) i) as [d|] eqn:Ed; [|discriminate].
      assert (d < length (chans s)) as Hd by (apply (i_bound s HI); eapply nth_error_In; eauto).
      destruct (is_open (chans s) d) eqn:Eo; injection E as <-.
      * assert (g_thread m = u) as Gm by (apply Ho; rewrite Hu; reflexivity).
        left. erewrite (sent_send s); [|reflexivity|exact Hd].
        destruct (Nat.eq_dec u t) as [->|Hn].
        -- rewrite Gm, Nat.eqb_refl, andb_true_r. unfold pend. cbn [at_pc set_pc set_chans list_]. rewrite Hu, upd_same.
           pose proof (in_firstn_S (list_ s) i d c Ed) as In1.
           destruct (Nat.eqb_spec c d).
           ++ subst d. destruct (in_dec Nat.eq_dec c (firstn (S i) (list_ s))) as [_|X]; [|tauto].
              destruct (in_dec Nat.eq_dec c (firstn i (list_ s))) as [X|_]; [exfalso; eapply nodup_pos; eauto; apply (i_nodup s HI)|].
              rewrite app_nil_r. reflexivity.
           ++ destruct (in_dec Nat.eq_dec c (firstn (S i) (list_ s))), (in_dec Nat.eq_dec c (firstn i (list_ s))); try reflexivity; tauto.
        -- destruct (Nat.eqb_spec (g_thread m) t); [congruence|]. rewrite andb_false_r. apply app_both; [reflexivity|].
           eapply Other; [reflexivity|reflexivity|auto|auto].
      * destruct (Nat.eq_dec u t) as [->|Hn]; [|left; apply app_both; [apply sent_eq; reflexivity|eapply Other; [reflexivity|reflexivity|auto|auto]]].
        assert (forall x l, sent (set_pc t x (set_list l s)) c t = sent s c t) as Se by (intros; apply sent_eq; reflexivity).
        rewrite Se. unfold pend. cbn [at_pc set_pc set_list list_]. rewrite Hu, upd_same, swap_firstn by lia.
        pose proof (in_firstn_S (list_ s) i d c Ed) as In1.
        destruct (in_dec Nat.eq_dec c (firstn i (list_ s))) as [X|X].
        -- left. destruct (in_dec Nat.eq_dec c (firstn (S i) (list_ s))); [reflexivity|tauto].
        -- destruct (in_dec Nat.eq_dec c (firstn (S i) (list_ s))) as [Y|Y]; [|auto].
           right. split; [reflexivity|]. split; [reflexivity|]. apply In1 in Y. destruct Y as [Y|Y]; [contradiction|]. subst d.
           intros ((h & H1 & H2) & _). cbn in H1. unfold is_open in Eo. rewrite H1 in Eo. congruence.
  - injection E as <-. left. apply app_both; [apply sent_eq; reflexivity|].
    destruct (Nat.eq_dec u t) as [->|Hn]; [|eapply Other; [reflexivity|reflexivity|auto|auto]].
    rewrite !pend_idle; cbn; rewrite ?Hu, ?upd_same; reflexivity.
  - injection E as <-. left. apply app_both; [apply sent_eq; destruct (list_ s); reflexivity|].
    destruct (Nat.eq_dec u t) as [->|Hn]; [|eapply Other; [reflexivity|destruct (list_ s); reflexivity|auto|auto]].
    rewrite !pend_idle; cbn; rewrite ?Hu, ?upd_same; reflexivity.
  - injection E as <-. left. apply app_both; [apply sent_eq; reflexivity|].
    destruct (Nat.eq_dec u t) as [->|Hn]; [|eapply Other; [reflexivity|reflexivity|auto|auto]].
    rewrite !pend_idle; cbn; rewrite ?Hu, ?upd_same; reflexivity.
Qed.

Definition calls_of (a : action) (t : nat) : option (list value) :=
  match a with Call u args _ => if Nat.eqb u t then Some args else None | _ => None end.

Definition read (a : action) : nat := match a with Call _ _ k => k | _ => 0 end.

Lemma step_sent : forall a s s' c t, Inv s -> own s -> fire a s = Some s' ->
  match calls_of a t with
  | None =>
      calls s' t = calls s t /\
      (sent s' c t ++ pend s' c t = sent s c t ++ pend s c t \/
       (sent s' c t = sent s c t /\ pend s' c t = [] /\ lost s s' c))
  | Some args =>
      calls s' t = S (calls s t) /\ sent s' c t = sent s c t /\ pend s c t = [] /\
      (pend s' c t = [Msg t (calls s t) args] \/ (pend s' c t = [] /\ (forall k, made s c k -> k <= read a -> ~ alive s c)))
  end.
Proof.
  intros a s s' c t HI Ho E. destruct a; cbn [calls_of]; cbn [fire] in E.
  - destruct (at_pc s t0) eqn:Ht; try discriminate. injection E as <-. split; [reflexivity|]. left. apply app_both.
    + unfold sent. cbn. destruct (Nat.lt_ge_cases c (length (chans s))).
      * rewrite nth_error_app1 by auto. reflexivity.
      * destruct (nth_error (chans s) c) eqn:Ec; [assert (nth_error (chans s) c <> None) as X by congruence; apply nth_error_Some in X; lia|].
        rewrite nth_error_app2 by auto. destruct (c - length (chans s)) as [|n]; [reflexivity|destruct n; reflexivity].
    + destruct (Nat.eq_dec t0 t) as [->|Hn].
      * rewrite !pend_idle; cbn; rewrite ?Ht, ?upd_same; reflexivity.
      * apply pend_other; [cbn; apply upd_other; auto|auto].
  - destruct (at_pc s t0) eqn:Ht; try discriminate. destruct (_ && _) eqn:Ek; [|discriminate]. injection E as <-.
    apply andb_prop in Ek. destruct Ek as [K1 K2]. apply Nat.leb_le in K1. apply Nat.ltb_lt in K2.
    destruct (Nat.eqb_spec t0 t).
    + subst t0. assert (nth k (flag s) false = true \/ nth k (flag s) false = false) as Hf by (destruct (nth k (flag s) false); auto).
      cbn [flag set_view count]. split; [|split; [|split]].
      * destruct (nth k (flag s) false); cbn; apply upd_same.
      * apply sent_eq. destruct (nth k (flag s) false); reflexivity.
      * apply pend_idle. rewrite Ht. reflexivity.
      * destruct Hf as [Hf|Hf]; rewrite Hf.
        -- left. unfold pend. cbn [at_pc set_pc]. rewrite upd_same. reflexivity.
        -- right. split; [apply pend_idle; cbn; rewrite Ht; reflexivity|].
           intros k0 (h & H1 & H2) H3 (h' & H4 & H5). cbn [read] in H3. assert (h' = h) by congruence. subst h'.
           destruct (i_flag s HI c h k0 H1 H2) as [_ F]. destruct (F H5) as [_ F2]. rewrite F2 in Hf by lia. discriminate.
    + split; [destruct (nth k _ false); cbn; apply upd_other; auto|]. left. apply app_both.
      * apply sent_eq. destruct (nth k _ false); reflexivity.
      * apply pend_other; destruct (nth k _ false); cbn; auto. apply upd_other; auto.
  - split; [|eapply step_go; eauto]. unfold go in E. destruct (at_pc s t0); try discriminate;
      repeat match type of E with
             | match ?x with _ => _ end = _ => destruct x; try discriminate
             | (if ?x then _ else _) = _ => destruct x
             end; injection E as <-; try reflexivity. cbn. destruct (list_ s); reflexivity.
  - injection E as <-. split; [reflexivity|]. left. apply app_both; [apply sent_close|reflexivity].
  - injection E as <-. split; [reflexivity|]. left. reflexivity.
Qed.

(** ** What only grows *)
Lemma step_chan : forall a s s' c h, fire a s = Some s' -> nth_error (chans s) c = Some h ->
  exists h', nth_error (chans s') c = Some h' /\ (ch_open h' = true -> ch_open h = true) /\
    (Inv s -> forall k, ch_store h = Some k -> ch_store h' = Some k).
Proof.
  intros a s s' c h E Hc.
  assert (forall s1, chans s1 = chans s -> exists h', nth_error (chans s1) c = Some h' /\ (ch_open h' = true -> ch_open h = true) /\
    (Inv s -> forall k, ch_store h = Some k -> ch_store h' = Some k)) as Same.
  { intros s1 ->. exists h. auto. }
  destruct a; cbn [fire] in E.
  - destruct (at_pc s t); try discriminate. injection E as <-. exists h. split; [|auto]. cbn.
    rewrite nth_error_app1; auto. apply nth_error_Some. congruence.
  - destruct (at_pc s t); try discriminate. destruct (_ && _); [|discriminate]. injection E as <-.
    apply Same. destruct (nth k _ false); reflexivity.
  - unfold go in E. destruct (at_pc s t) eqn:Ht; try discriminate.
    3: { injection E as <-. destruct (nth_stored_of _ c0 (length (flag s)) _ _ Hc) as (h' & A & _ & B & C).
         exists h'. split; [exact A|]. split; [congruence|]. intros HI k Hk.
         destruct (Nat.eqb_spec c c0); [|congruence]. subst. destruct (i_store s HI t c0 Ht) as (_ & h0 & X & Y). congruence. }
    5: { destruct i as [|i]; [injection E as <-; apply Same; reflexivity|].
         destruct (nth_error (list_ s) i) as [d|]; [|discriminate]. destruct (is_open _ _); injection E as <-; [|apply Same; reflexivity].
         destruct (nth_send_of _ d m _ _ Hc) as (h' & A & B & C). exists h'. split; [exact A|]. split; [congruence|].
         intros _ k Hk. congruence. }
    1, 4: destruct (lock s); [discriminate|].
    all: injection E as <-; apply Same; try reflexivity. cbn. destruct (list_ s); reflexivity.
  - injection E as <-. cbn. destruct (nth_close_of _ c0 _ _ Hc) as (h' & A & B & C). exists h'. split; [exact A|]. split; [|congruence].
    intros Ho. destruct (nth_close _ _ _ _ A) as (h0 & X & _ & _ & Y). assert (h0 = h) by congruence. subst. apply Y. exact Ho.
  - injection E as <-. apply Same. reflexivity.
Qed.
Lemma made_step : forall a s s' c k, Inv s -> fire a s = Some s' -> made s c k -> made s' c k.
Proof.
  intros a s s' c k HI E (h & H1 & H2). destruct (step_chan a s s' c h E H1) as (h' & A & _ & B). exists h'. auto.
Qed.
Lemma alive_back : forall a s s' c, fire a s = Some s' -> c < length (chans s) -> alive s' c -> alive s c.
Proof.
  intros a s s' c E Hc (h' & H1 & H2). destruct (nth_error (chans s) c) as [h|] eqn:Eh; [|apply nth_error_None in Eh; lia].
  destruct (step_chan a s s' c h E Eh) as (h2 & A & B & _). exists h. split; [exact Eh|]. apply B. congruence.
Qed.
Lemma view_step : forall a s s' t, Inv s -> fire a s = Some s' -> view s t <= view s' t.
Proof.
  intros a s s' t HI E. pose proof (i_view s HI t) as V. destruct a; cbn [fire] in E.
  - destruct (at_pc s t0); try discriminate. injection E as <-. auto.
  - destruct (at_pc s t0); try discriminate. destruct (_ && _) eqn:Ek; [|discriminate]. injection E as <-.
    apply andb_prop in Ek. destruct Ek as [K1 _]. apply Nat.leb_le in K1.
    assert (view s t <= view (set_view t0 k (count t0 s)) t) as X.
    { cbn. unfold upd. destruct (Nat.eqb_spec t t0); [subst; exact K1|auto]. }
    destruct (nth k _ false); exact X.
  - unfold go in E. destruct (at_pc s t0) eqn:Ht; try discriminate.
    1, 5: destruct (lock s); [discriminate|].
    6: destruct i as [|i]; [|destruct (nth_error (list_ s) i); [|discriminate]; destruct (is_open _ _)].
    all: injection E as <-; cbn [view set_pc take release write set_list set_chans]; auto; try destruct (list_ s); cbn; auto;
      unfold upd; destruct (Nat.eqb_spec t t0); subst; lia.
  - injection E as <-. auto.
  - injection E as <-. cbn. unfold upd. destruct (Nat.eqb_spec t t0); subst; lia.
Qed.
Lemma knows_step : forall a s s' t c, Inv s -> fire a s = Some s' -> knows s t c -> knows s' t c.
Proof.
  intros a s s' t c HI E (k & H1 & H2). exists k. split; [eapply made_step; eauto|]. pose proof (view_step a s s' t HI E). lia.
Qed.
Lemma chans_step : forall a s s', fire a s = Some s' -> length (chans s) <= length (chans s').
Proof.
  intros a s s' E. destruct (chans s) as [|h0 l] eqn:El; [cbn; lia|]. rewrite <- El.
  destruct (nth_error (chans s) (length (chans s) - 1)) as [h|] eqn:Eh.
  - destruct (step_chan a s s' _ h E Eh) as (h' & A & _). assert (nth_error (chans s') (length (chans s) - 1) <> None) as X by congruence.
    apply nth_error_Some in X. lia.
  - apply nth_error_None in Eh. rewrite El in *. cbn in *. lia.
Qed.
Lemma alive_back_exec : forall l s s' c, exec l s = Some s' -> c < length (chans s) -> alive s' c -> alive s c.
Proof.
  induction l as [|a l IH]; intros s s' c E Hc H; cbn in E; [injection E as <-; exact H|].
  destruct (fire a s) as [s1|] eqn:Ea; [|discriminate]. eapply alive_back; eauto. eapply IH; eauto.
  pose proof (chans_step a s s1 Ea). lia.
Qed.
Lemma own_exec : forall l s s', own s -> exec l s = Some s' -> own s'.
Proof.
  induction l as [|a l IH]; intros s s' H E; cbn in E; [injection E as <-; exact H|].
  destruct (fire a s) as [s1|] eqn:Ea; [|discriminate]. eapply IH; [|exact E]. eapply own_fire; eauto.
Qed.
Lemma own_start : own start. Proof. intros t m H. discriminate. Qed.
Lemma own_reachable : forall s, reachable s -> own s.
Proof. intros s [l H]. eapply own_exec; [apply own_start|exact H]. Qed.

(** ** Exactly once *)
Lemma called_cons : forall t a l, called t (a :: l) = match calls_of a t with Some args => args :: called t l | None => called t l end.
Proof. intros t [|u args k| | |] l; cbn; auto. destruct (Nat.eqb u t); reflexivity. Qed.

(** Every call of [t] reads a write of the flag that is not older than that of [c]. *)
Fixpoint aware (c t : nat) (l : list action) (s : state) : Prop :=
  match l with
  | [] => True
  | a :: l =>
      match fire a s with
      | Some s' => (calls_of a t <> None -> exists k, made s c k /\ k <= read a) /\ aware c t l s'
      | None => True
      end
  end.
Lemma knows_aware : forall l s c t, Inv s -> knows s t c -> aware c t l s.
Proof.
  induction l as [|a l IH]; intros s c t HI K; cbn [aware]; [exact I|]. destruct (fire a s) as [s1|] eqn:Ea; [|exact I].
  split; [|apply IH; eauto using inv_fire, knows_step]. intros Hc. destruct a; try (exfalso; apply Hc; reflexivity).
  cbn in Hc. destruct (Nat.eqb_spec t0 t); [|congruence]. subst. destruct K as (k0 & M & L). exists k0. split; [exact M|].
  cbn [fire] in Ea. destruct (at_pc s t); try discriminate. destruct (_ && _) eqn:Ek; [|discriminate].
  apply andb_prop in Ek. destruct Ek as [K1 _]. apply Nat.leb_le in K1. cbn. lia.
Qed.
Lemma exact_exec : forall l s s' c t, Inv s -> own s -> exec l s = Some s' -> (exists k, made s c k) -> aware c t l s -> alive s' c ->
  sent s' c t ++ pend s' c t = (sent s c t ++ pend s c t) ++ numbered t (calls s t) (called t l).
Proof.
  induction l as [|a l IH]; intros s s' c t HI Ho E [k0 M] W A; cbn in E.
  - injection E as <-. cbn. rewrite app_nil_r. reflexivity.
  - cbn [aware] in W. destruct (fire a s) as [s1|] eqn:Ea; [|discriminate]. destruct W as [W1 W2].
    pose proof (step_sent a s s1 c t HI Ho Ea) as St.
    assert (c < length (chans s)) as Hc. { destruct M as (h & X & _). apply nth_error_Some. congruence. }
    assert (alive s1 c) as A1. { eapply alive_back_exec; eauto. pose proof (chans_step a s s1 Ea). lia. }
    assert (alive s c) as A0 by (eapply alive_back; eauto).
    rewrite (IH s1 s' c t); eauto using inv_fire, own_fire, made_step. rewrite called_cons.
    destruct (calls_of a t) as [args|].
    + destruct W1 as (k & M' & Hk); [discriminate|].
      destruct St as (C & S1 & P & [Q|[Q X]]); [|exfalso; eapply X; eauto]. rewrite C, S1, Q, P, app_nil_r. cbn [numbered].
      rewrite <- app_assoc. reflexivity.
    + destruct St as (C & [X|(_ & _ & X)]); [rewrite C, X; reflexivity|].
      exfalso. apply X. split; [exact A1|]. exists k0. exact M.
Qed.

Lemma increasing_app : forall a b, increasing (a ++ b) -> increasing a.
Proof.
  induction a as [|x a IH]; intros b H; cbn in *; auto. destruct H as [H1 H2]. apply Forall_app in H1. split; [tauto|eauto].
Qed.
Lemma increasing_snoc : forall a n, increasing a -> Forall (fun x => x < n) a -> increasing (a ++ [n]).
Proof.
  induction a as [|x a IH]; intros n H B; cbn in *; [auto|]. destruct H as [H1 H2]. apply Forall_cons_iff in B. destruct B as [B1 B2].
  split; [apply Forall_app; split; auto|auto].
Qed.

(** In call order, at most once, and with the arguments of the call. *)
Definition tidy (s : state) (t : nat) (cs : list (list value)) (l : list msg) : Prop :=
  calls s t = length cs /\ increasing (map g_number l) /\
  Forall (fun m => g_thread m = t /\ nth_error cs (g_number m) = Some (g_args m)) l.
Lemma tidy_app : forall s t cs a b, tidy s t cs (a ++ b) -> tidy s t cs a.
Proof.
  intros s t cs a b (A & B & C). split; [exact A|]. rewrite map_app in B. split; [eapply increasing_app; eauto|].
  apply Forall_app in C. tauto.
Qed.
Lemma called_app : forall t l l', called t (l ++ l') = called t l ++ called t l'.
Proof.
  induction l as [|a l IH]; intros l'; [reflexivity|]. cbn [app]. rewrite !called_cons, IH. destruct (calls_of a t); reflexivity.
Qed.
Lemma exec_app : forall l l' s, exec (l ++ l') s = match exec l s with Some s => exec l' s | None => None end.
Proof. induction l as [|a l IH]; intros l' s; cbn; [reflexivity|]. destruct (fire a s); auto. Qed.

Lemma tidy_exec : forall l s c t, exec l start = Some s -> tidy s t (called t l) (sent s c t ++ pend s c t).
Proof.
  intros l. induction l as [|a l IH] using rev_ind; intros s c t E.
  - injection E as <-. unfold sent, pend. cbn. destruct c; cbn; repeat split; constructor.
  - rewrite exec_app in E. destruct (exec l start) as [s0|] eqn:E0; [|discriminate]. cbn in E.
    destruct (fire a s0) as [s1|] eqn:Ea; [|discriminate]. injection E as ->. specialize (IH s0 c t eq_refl).
    assert (reachable s0) as R by (exists l; exact E0).
    pose proof (step_sent a s0 s c t (inv_reachable _ R) (own_reachable _ R) Ea) as St.
    rewrite called_app. cbn [called]. pose proof (called_cons t a []) as Ec. cbn [called] in Ec. rewrite Ec. clear Ec.
    destruct (calls_of a t) as [args|].
    + destruct St as (C & S1 & P & Q). rewrite P, app_nil_r in IH. destruct IH as (I1 & I2 & I3).
      rewrite S1. assert (Forall (fun m => g_thread m = t /\ nth_error (called t l ++ [args]) (g_number m) = Some (g_args m)) (sent s0 c t)) as I3'.
      { eapply Forall_impl; [|exact I3]. cbv beta. intros m [A B]. split; [exact A|]. rewrite nth_error_app1; auto.
        apply nth_error_Some. congruence. }
      assert (calls s t = length (called t l ++ [args])) as L by (rewrite app_length; cbn; lia).
      destruct Q as [->|[-> _]].
      * split; [exact L|]. rewrite map_app. cbn [map g_number]. split.
        -- apply increasing_snoc; auto. apply Forall_map. eapply Forall_impl; [|exact I3]. cbv beta. intros m [_ B].
           rewrite I1. apply nth_error_Some. congruence.
        -- apply Forall_app. split; [exact I3'|]. repeat constructor. cbn. rewrite nth_error_app2 by lia.
           rewrite I1, Nat.sub_diag. reflexivity.
      * rewrite app_nil_r. split; [exact L|]. split; auto.
    + rewrite app_nil_r. destruct St as (C & [X|(X & Y & _)]).
      * rewrite X. destruct IH as (I1 & I2). split; [congruence|exact I2].
      * rewrite X, Y, app_nil_r. apply tidy_app in IH. destruct IH as (I1 & I2). split; [congruence|exact I2].
Qed.

(** ** Closed channels *)
Definition passed (s : state) (c t : nat) : Prop :=
  match at_pc s t with
  | CallSend _ i op => forall p, i <= p -> p < op -> nth_error (list_ s) p <> Some c
  | CallTrunc op => forall p, p < op -> nth_error (list_ s) p <> Some c
  | CallStore | CallDrop => ~ In c (list_ s)
  | _ => True
  end.
Lemma passed_same : forall s s1 c t, list_ s1 = list_ s -> at_pc s1 t = at_pc s t -> passed s c t -> passed s1 c t.
Proof. intros s s1 c t H1 H2 H. unfold passed in *. rewrite H1, H2. exact H. Qed.
Lemma passed_out : forall s c t, crit (at_pc s t) = false -> passed s c t.
Proof. intros s c t H. unfold passed. destruct (at_pc s t); try discriminate; exact I. Qed.
Lemma passed_fire : forall a s s' c t, Inv s -> fire a s = Some s' -> is_open (chans s) c = false -> passed s c t -> passed s' c t.
Proof.
  intros a s s' c t HI E Hc H. destruct a; cbn [fire] in E.
  - destruct (at_pc s t0) eqn:Ht; try discriminate. injection E as <-. destruct (Nat.eq_dec t0 t) as [->|Hn].
    + apply passed_out. cbn. rewrite upd_same. reflexivity.
    + apply (passed_same s); auto. cbn. apply upd_other; auto.
  - destruct (at_pc s t0) eqn:Ht; try discriminate. destruct (_ && _); [|discriminate]. injection E as <-.
    destruct (nth k _ false); [|exact H]. destruct (Nat.eq_dec t0 t) as [->|Hn].
    + apply passed_out. cbn. rewrite upd_same. reflexivity.
    + apply (passed_same s); auto. cbn. apply upd_other; auto.
  - assert (t0 <> t -> crit (at_pc s t) = true -> crit (at_pc s t0) = false) as Ex.
    { intros Hn Hc1. destruct (crit (at_pc s t0)) eqn:E1; auto. exfalso. apply Hn. apply (no_other s t t0 HI); auto. }
    assert (t0 <> t -> at_pc s' t = at_pc s t) as Pc.
    { intros Hn. unfold go in E. destruct (at_pc s t0); try discriminate;
        repeat match type of E with
               | match ?x with _ => _ end = _ => destruct x; try discriminate
               | (if ?x then _ else _) = _ => destruct x
               end; injection E as <-; cbn; try (apply upd_other; auto). rewrite upd_other by auto. destruct (list_ s); reflexivity. }
    destruct (Nat.eq_dec t0 t) as [->|Hn].
    + clear Ex Pc. unfold go in E. unfold passed in H. destruct (at_pc s t) eqn:Ht; try discriminate.
      * destruct (lock s); [discriminate|]. injection E as <-. unfold passed. cbn. rewrite upd_same. exact I.
      * injection E as <-. unfold passed. cbn. rewrite upd_same. exact I.
      * injection E as <-. unfold passed. cbn. rewrite upd_same. exact I.
      * injection E as <-. unfold passed. cbn. rewrite upd_same. exact I.
      * destruct (lock s); [discriminate|]. injection E as <-. unfold passed. cbn. rewrite upd_same. intros. lia.
      * destruct (i_send s HI t m i op Ht) as (A1 & A2 & _). destruct i as [|i].
        -- injection E as <-. unfold passed. cbn. rewrite upd_same. intros p Hp. apply H; lia.
        -- destruct (nth_error (list_ s) i) as [d|] eqn:Ed; [|discriminate].
           destruct (is_open (chans s) d) eqn:Eo; injection E as <-; unfold passed; cbn; rewrite upd_same; intros p P1 P2.
           ++ destruct (Nat.eq_dec p i); [subst; congruence|apply H; lia].
           ++ assert (i < length (list_ s)) by (apply nth_error_Some; congruence). rewrite nth_swap by lia.
              destruct (Nat.eqb_spec p (op - 1)); [lia|]. destruct (Nat.eqb_spec p i); apply H; lia.
      * injection E as <-. unfold passed. cbn. rewrite upd_same. intros X. apply In_nth_error in X. destruct X as [p X].
        rewrite nth_firstn in X. destruct (Nat.ltb_spec p op); [|discriminate]. exact (H p H0 X).
      * injection E as <-. unfold passed. cbn. rewrite upd_same. destruct (list_ s) eqn:El; cbn; rewrite ?El; exact H.
      * injection E as <-. unfold passed. cbn. rewrite upd_same. exact I.
    + specialize (Pc Hn). destruct (crit (at_pc s t)) eqn:Ec; [|apply passed_out; congruence].
      specialize (Ex Hn eq_refl). apply (passed_same s); auto. unfold go in E.
      destruct (at_pc s t0); try discriminate; destruct (lock s); try discriminate; injection E as <-; reflexivity.
  - injection E as <-. exact H.
  - injection E as <-. exact H.
Qed.
Lemma closed_step : forall a s s' c, fire a s = Some s' -> c < length (chans s) -> is_open (chans s) c = false -> is_open (chans s') c = false.
Proof.
  intros a s s' c E Hc H. destruct (is_open (chans s') c) eqn:Eo; auto.
  assert (alive s' c) as A. { unfold is_open in Eo. destruct (nth_error (chans s') c) as [h|] eqn:Eh; [|discriminate]. exists h. auto. }
  destruct (alive_back a s s' c E Hc A) as (h & X & Y). unfold is_open in H. rewrite X in H. congruence.
Qed.
Lemma passed_exec : forall l s s' c t, Inv s -> exec l s = Some s' -> c < length (chans s) -> is_open (chans s) c = false ->
  passed s c t -> passed s' c t.
Proof.
  induction l as [|a l IH]; intros s s' c t HI E Hc Ho H; cbn in E; [injection E as <-; exact H|].
  destruct (fire a s) as [s1|] eqn:Ea; [|discriminate].
  eapply (IH s1); eauto using inv_fire, closed_step, passed_fire. pose proof (chans_step a s s1 Ea). lia.
Qed.
