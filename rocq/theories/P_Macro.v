(** * C71: a Rust function called from Dyon gets its arguments in order. *)
From Coq Require Import String List ZArith Bool Arith Lia.
From Verif Require Import Float64 Syntax InterpModel EmbedModel EmbedSpec P_Embed MacroModel MacroSpec.
Import ListNotations.
Local Open Scope string_scope.
Local Open Scope nat_scope.
Local Open Scope list_scope.

(** ** The order of the bindings *)
Lemma expansion_rev : forall l, expansion l = rev l.
Proof. induction l as [|a [|b l] IH]; auto. change (expansion (a :: b :: l)) with (expansion (b :: l) ++ [a]). rewrite IH. reflexivity. Qed.
Lemma bindings_rev : forall f, bindings f = rev (parameters f).
Proof.
  intros [l|a l|a b l]; cbn [bindings parameters]; rewrite !expansion_rev; auto; cbn [rev app]; rewrite <- ?app_assoc; reflexivity.
Qed.
Lemma passed_names : forall f, passed f = map fst (parameters f).
Proof. intros [l|a l|a b l]; cbn [passed parameters map]; auto; rewrite map_map; reflexivity. Qed.

(** ** One argument *)
Lemma pop_top : forall s v t, pop (s ++ [v]) t = (and_then (look s v) (pop_var s t), s).
Proof. intros. unfold pop. rewrite rev_app_distr, removelast_last. reflexivity. Qed.
Lemma look_stands : forall s v w, look s v = Got w <-> stands_for s v w.
Proof.
  intros s v w. unfold stands_for, look. split.
  - destruct v; intros H; try (injection H as <-; left; split; [intros; discriminate|reflexivity]).
    right. destruct (nth_error s i) as [x|] eqn:E; [|discriminate]. injection H as <-. eauto.
  - intros [[N ->]|(i & -> & E)]; [|rewrite E; reflexivity]. destruct v; auto. destruct (N i eq_refl).
Qed.
Definition at_ (s : list value) (o : list object) (h : list nat) : machine := {| mstk := s; objs := o; held := h |}.
Definition taken (b : bound) (h : list nat) : list nat := match b with BVal _ => h | BObj _ id _ => id :: h end.
Definition free (b : bound) (h : list nat) : Prop := match b with BVal _ => True | BObj _ id _ => ~ In id h end.
Lemma existsb_in : forall i h, existsb (Nat.eqb i) h = true <-> In i h.
Proof.
  intros i h. rewrite existsb_exists. split; [intros (x & A & B); apply Nat.eqb_eq in B; subst; auto|intros H; exists i; split; auto; apply Nat.eqb_refl].
Qed.
Lemma pop_rust : forall s v id, and_then (look s v) (pop_var s TRust) = Got (RRust id) <-> stands_for s v (VRust id).
Proof.
  intros s v id. rewrite <- look_stands. split.
  - destruct (look s v) as [w| |]; cbn; try discriminate. destruct w; cbn; try discriminate. intros [= ->]. reflexivity.
  - intros ->. reflexivity.
Qed.
Lemma pop_rust_shape : forall s v r, and_then (look s v) (pop_var s TRust) = Got r -> exists id, r = RRust id.
Proof. intros s v r. destruct (look s v) as [w| |]; cbn; try discriminate. destruct w; cbn; try discriminate. intros [= <-]. eauto. Qed.
Lemma pop_object_iff : forall mutable ty s v o h b m',
  pop_object mutable ty (at_ (s ++ [v]) o h) = Next b m' <->
  (exists id x, stands_for s v (VRust id) /\ nth_error o id = Some x /\ tag x = ty /\ poisoned x = false /\ ~ In id h /\
    b = BObj mutable id (content x) /\ m' = at_ s o (id :: h)).
Proof.
  intros mutable ty s v o h b m'. unfold pop_object, pop_plain. cbn [mstk at_]. rewrite pop_top.
  destruct (and_then (look s v) (pop_var s TRust)) as [r| |] eqn:E.
  - destruct (pop_rust_shape _ _ _ E) as (id & ->). apply pop_rust in E. cbn [with_stk held objs at_].
    destruct (existsb (Nat.eqb id) h) eqn:X.
    { split; [discriminate|]. intros (id' & x & S & _ & _ & _ & N & _). exfalso. apply existsb_in in X. apply N.
      apply look_stands in S. apply look_stands in E. rewrite E in S. injection S as <-. exact X. }
    assert (N : ~ In id h) by (rewrite <- existsb_in; congruence).
    destruct (nth_error o id) as [x|] eqn:O.
    + split.
      * destruct (poisoned x) eqn:P; [discriminate|]. destruct (String.eqb_spec (tag x) ty) as [T|T]; [|discriminate].
        intros [= <- <-]. exists id, x. repeat (split; auto).
      * intros (id' & x' & S & O' & T & P & _ & -> & ->). apply look_stands in S. apply look_stands in E. rewrite E in S. injection S as <-.
        rewrite O in O'. injection O' as <-. rewrite P, T, String.eqb_refl. reflexivity.
    + split; [discriminate|]. intros (id' & x' & S & O' & _). apply look_stands in S. apply look_stands in E. rewrite E in S. injection S as <-. congruence.
  - split; [discriminate|]. intros (id & x & S & _). apply pop_rust in S. congruence.
  - split; [discriminate|]. intros (id & x & S & _). apply pop_rust in S. congruence.
Qed.
Lemma pop_one_iff : forall k s v o h b m',
  pop_one k (at_ (s ++ [v]) o h) = Next b m' <-> gets s o k v b /\ free b h /\ m' = at_ s o (taken b h).
Proof.
  assert (OBJ : forall k mutable ty s v o h b m', object_type k = Some (mutable, ty) ->
    pop_object mutable ty (at_ (s ++ [v]) o h) = Next b m' <-> gets s o k v b /\ free b h /\ m' = at_ s o (taken b h)).
  { intros k mutable ty s v o h b m' K. rewrite pop_object_iff. split.
    - intros (id & x & S & O & T & P & N & -> & ->). split; [|split; auto]. econstructor; eauto.
    - intros (G & F & ->). destruct G as [t v w r S P|k mut' ty' v id x K' S O T P]; [discriminate|].
      rewrite K in K'. injection K' as <- <-. exists id, x. cbn [free taken] in *. repeat (split; auto). }
  intros k s v o h b m'. destruct k as [t|ty|ty|ty]; cbn [pop_one]; try (apply OBJ; reflexivity).
  unfold pop_plain. cbn [mstk at_]. rewrite pop_top. split.
  - destruct (and_then (look s v) (pop_var s t)) as [r| |] eqn:E; try discriminate. intros [= <- <-].
    destruct (look s v) as [w| |] eqn:L; try discriminate. cbn [and_then] in E. split; [|split; cbn; auto].
    econstructor; [apply look_stands; exact L|exact E].
  - intros (G & F & ->). inversion G as [t' v' w r S P|k mut' ty' v' id x K' S O T P]; subst; [|discriminate].
    apply look_stands in S. rewrite S. cbn [and_then]. rewrite P. reflexivity.
Qed.

(** ** All arguments *)
Lemma ids_app : forall a b, ids (a ++ b) = ids a ++ ids b.
Proof. induction a as [|[]]; intros; cbn; auto. f_equal. auto. Qed.
Definition apart (bs : list bound) (h : list nat) : Prop := NoDup (ids bs) /\ forall i, In i (ids bs) -> ~ In i h.
Lemma apart_last : forall bs b h, apart (bs ++ [b]) h <-> free b h /\ apart bs (taken b h).
Proof.
  intros bs b h. unfold apart. rewrite ids_app. destruct b as [r|mt id c]; cbn [ids free taken].
  - rewrite app_nil_r. tauto.
  - split.
    + intros [N H]. assert (NoDup (id :: ids bs)) as N' by (apply (NoDup_Add (Add_app id (ids bs) [])) in N; rewrite app_nil_r in N; constructor; tauto).
      inversion N'; subst. split; [apply H; apply in_or_app; right; left; reflexivity|]. split; auto.
      intros i Hi [<-|Q]; [auto|]. apply (H i); auto. apply in_or_app; auto.
    + intros (F & N & H). split.
      * apply (NoDup_Add (Add_app id (ids bs) [])). rewrite app_nil_r. split; auto. intros Q. apply (H id Q). left. reflexivity.
      * intros i Hi. apply in_app_or in Hi. destruct Hi as [Hi|[<-|[]]]; auto. intros Q. apply (H i Hi). right. exact Q.
Qed.
Lemma gets_all_length : forall s o ks vs bs, gets_all s o ks vs bs -> length ks = length bs /\ length vs = length bs.
Proof. induction 1; auto. rewrite !app_length. cbn. lia. Qed.
Lemma combine_last : forall A B (l : list A) (r : list B) a b, length l = length r -> combine (l ++ [a]) (r ++ [b]) = combine l r ++ [(a, b)].
Proof. induction l as [|x l IH]; intros [|y r] a b L; try discriminate; auto. cbn. f_equal. apply IH. injection L as L. exact L. Qed.
Lemma pop_all_iff : forall ps s o h vs env env' m', length vs = length ps ->
  pop_all (rev ps) env (at_ (s ++ vs) o h) = Next env' m' <->
  exists bs, gets_all s o (map snd ps) vs bs /\ apart bs h /\ env' = combine (map fst ps) bs ++ env /\ m' = at_ s o (ids bs ++ h).
Proof.
  induction ps as [|[x k] ps IH] using rev_ind; intros s o h vs env env' m' L.
  - destruct vs; [|discriminate]. cbn. rewrite app_nil_r. split.
    + intros [= <- <-]. exists []. repeat split; auto; constructor.
    + intros (bs & G & _ & -> & ->). inversion G as [|ks ? ? ? ? ? ? ? E]; subst; [reflexivity|destruct ks; discriminate].
  - destruct vs as [|v vs _] using rev_ind; [rewrite app_length in L; cbn in L; lia|]. rewrite !app_length in L. cbn [length] in L.
    assert (length vs = length ps) as L' by lia. rewrite rev_app_distr. cbn [rev app pop_all]. rewrite app_assoc. split.
    + destruct (pop_one k (at_ ((s ++ vs) ++ [v]) o h)) as [b m|e m] eqn:P; [|discriminate]. apply pop_one_iff in P. destruct P as (G & F & ->).
      intros H. apply IH in H; auto. destruct H as (bs & GA & A & -> & ->). exists (bs ++ [b]).
      pose proof (gets_all_length _ _ _ _ _ GA) as [Lk _]. rewrite map_length in Lk. split; [rewrite map_app; constructor; auto|].
      split; [apply apart_last; auto|]. split.
      * rewrite map_app. cbn [map fst]. rewrite combine_last by (rewrite map_length; lia). rewrite <- app_assoc. reflexivity.
      * rewrite ids_app, <- app_assoc. destruct b; reflexivity.
    + intros (bs & GA & A & -> & ->). rewrite map_app in GA. cbn [map snd] in GA.
      inversion GA as [E1 E2 E3|ks vs' bs' k' v' b GA' G E1 E2 E3]; [destruct (map snd ps); discriminate|].
      apply app_inj_tail in E1. destruct E1 as [-> ->]. apply app_inj_tail in E2. destruct E2 as [-> ->]. subst bs.
      apply apart_last in A. destruct A as [F A].
      assert (pop_one k (at_ ((s ++ vs) ++ [v]) o h) = Next b (at_ (s ++ vs) o (taken b h))) as -> by (apply pop_one_iff; auto).
      apply IH; auto. exists bs'. pose proof (gets_all_length _ _ _ _ _ GA') as [Lk _]. rewrite map_length in Lk. split; [auto|]. split; [auto|]. split.
      * rewrite map_app. cbn [map fst]. rewrite combine_last by (rewrite map_length; lia). rewrite <- app_assoc. reflexivity.
      * rewrite ids_app, <- app_assoc. destruct b; reflexivity.
Qed.
Lemma resolve_combine : forall names bs, NoDup names -> length names = length bs -> resolve names (combine names bs) = bs.
Proof.
  assert (G : forall names bs x b, ~ In x names -> resolve names ((x, b) :: combine names bs) = resolve names (combine names bs)).
  { assert (H : forall ns env x (b : bound), ~ In x ns -> resolve ns ((x, b) :: env) = resolve ns env).
    { induction ns as [|n ns IH]; intros env x b N; auto. cbn [resolve assoc]. destruct (String.eqb_spec x n) as [->|D].
      - destruct N. left. reflexivity.
      - rewrite IH; [reflexivity|]. intros Q. apply N. right. exact Q. }
    intros. apply H. auto. }
  induction names as [|x names IH]; intros [|b bs] N L; try discriminate; auto. inversion N; subst. cbn [combine resolve assoc].
  rewrite String.eqb_refl. f_equal. rewrite G by auto. apply IH; auto.
Qed.

(** ** C71 *)
(** What the call does after the body. *)
Definition ends (g : gives) (bs : list bound) (d : did) (before after : list object) (v : option value) : Prop :=
  exists h, (match changed bs with Some id => h = change (set_content (left_in d)) id before | None => h = before end) /\
  match g with
  | GNothing => v = None /\ after = h
  | GValue => v = Some (push_var (result d)) /\ after = h
  | GObject ty => v = Some (VRust (length before)) /\ after = h ++ [{| tag := ty; content := made d; poisoned := false |}]
  end.
Lemma change_length : forall A f i (l : list A), length (change f i l) = length l.
Proof. intros A f i l. revert i. induction l as [|x l IH]; intros [|i]; cbn; auto. Qed.
Lemma change_nth : forall A f (l : list A) i j, nth_error (change f i l) j = if Nat.eqb i j then option_map f (nth_error l j) else nth_error l j.
Proof.
  intros A f. induction l as [|x l IH]; intros i j.
  - destruct i, j; cbn; try destruct (Nat.eqb i j); auto.
  - destruct i, j; cbn; auto.
Qed.
Lemma pop_all_ends : forall l env m e m', pop_all l env m = End e m' ->
  (forall v, e <> Returned v) /\ objs m' = objs m /\ exists new, held m' = new ++ held m.
Proof.
  assert (PL : forall t m e m', pop_plain t m = End e m' -> (forall v, e <> Returned v) /\ objs m' = objs m /\ held m' = held m).
  { intros t m e m' H. unfold pop_plain in H. destruct (pop (mstk m) t) as [[r| |] s]; inversion H; subst; repeat split; intros; discriminate. }
  assert (PN : forall t m r m', pop_plain t m = Next r m' -> objs m' = objs m /\ held m' = held m).
  { intros t m r m' H. unfold pop_plain in H. destruct (pop (mstk m) t) as [[x| |] s]; inversion H; subst; auto. }
  assert (OE : forall mt ty m e m', pop_object mt ty m = End e m' -> (forall v, e <> Returned v) /\ objs m' = objs m /\ exists new, held m' = new ++ held m).
  { intros mt ty m e m' H. unfold pop_object in H. destruct (pop_plain TRust m) as [r m1|e1 m1] eqn:P.
    - apply PN in P. destruct P as [P1 P2].
      assert (Q : forall e', (forall v, e' <> Returned v) -> End e' m1 = End (A := bound) e m' -> (forall v, e <> Returned v) /\ objs m' = objs m /\ exists new, held m' = new ++ held m).
      { intros e' N E. injection E as <- <-. split; auto. split; auto. exists []. auto. }
      destruct r; try (eapply Q; [|exact H]; intros; discriminate).
      destruct (existsb (Nat.eqb id) (held m1)); [eapply Q; [|exact H]; intros; discriminate|].
      destruct (nth_error (objs m1) id) as [x|]; [|eapply Q; [|exact H]; intros; discriminate].
      destruct (poisoned x); [eapply Q; [|exact H]; intros; discriminate|].
      destruct (String.eqb (tag x) ty); [discriminate|]. injection H as <- <-. split; [intros; discriminate|]. split; [exact P1|].
      exists [id]. cbn. rewrite P2. reflexivity.
    - injection H as <- <-. apply PL in P. destruct P as (A & B & C). split; auto. split; auto. exists []. auto. }
  assert (ON : forall mt ty m b m', pop_object mt ty m = Next b m' -> objs m' = objs m /\ exists new, held m' = new ++ held m).
  { intros mt ty m b m' H. unfold pop_object in H. destruct (pop_plain TRust m) as [r m1|e1 m1] eqn:P; [|discriminate].
    apply PN in P. destruct P as [P1 P2]. destruct r; try discriminate. destruct (existsb _ _); [discriminate|].
    destruct (nth_error (objs m1) id) as [x|]; [|discriminate]. destruct (poisoned x); [discriminate|].
    destruct (String.eqb (tag x) ty); [|discriminate]. injection H as <- <-. split; auto. exists [id]. cbn. rewrite P2. reflexivity. }
  induction l as [|[x k] l IH]; intros env m e m' H; [discriminate|]. cbn [pop_all] in H.
  destruct (pop_one k m) as [b m1|e1 m1] eqn:P.
  - apply IH in H. destruct H as (A & B & new & C).
    assert (objs m1 = objs m /\ exists new, held m1 = new ++ held m) as (D & new' & E).
    { destruct k; cbn [pop_one] in P; try (eapply ON; exact P). destruct (pop_plain t m) eqn:Q; [|discriminate]. injection P as <- <-.
      apply PN in Q. destruct Q. split; auto. exists []. auto. }
    split; auto. split; [congruence|]. exists (new ++ new'). rewrite C, E, app_assoc. reflexivity.
  - injection H as <- <-. destruct k; cbn [pop_one] in P; try (eapply OE; exact P). destruct (pop_plain t m) eqn:Q; [discriminate|]. injection P as <- <-.
    apply PL in Q. destruct Q as (A & B & C). split; auto. split; auto. exists []. auto.
Qed.
Lemma gets_unique : forall f stk os h args bs bs', NoDup (map fst (parameters f)) -> length args = length (parameters f) ->
  gets_all stk os (map snd (parameters f)) args bs -> apart bs h -> gets_all stk os (map snd (parameters f)) args bs' -> apart bs' h -> bs' = bs.
Proof.
  intros f stk os h args bs bs' ND L G A G' A'.
  assert (P : forall b, gets_all stk os (map snd (parameters f)) args b -> apart b h ->
    pop_all (rev (parameters f)) [] (at_ (stk ++ args) os h) = Next (combine (map fst (parameters f)) b ++ []) (at_ stk os (ids b ++ h))).
  { intros b H H'. apply pop_all_iff; auto. exists b. repeat split; auto; apply H'. }
  pose proof (P _ G A) as P1. rewrite (P _ G' A') in P1. injection P1 as P1 _. rewrite !app_nil_r in P1.
  pose proof (gets_all_length _ _ _ _ _ G) as [Lk _]. pose proof (gets_all_length _ _ _ _ _ G') as [Lk' _]. rewrite map_length in Lk, Lk'.
  rewrite <- (resolve_combine (map fst (parameters f)) bs'), <- (resolve_combine (map fst (parameters f)) bs), P1; auto; rewrite map_length; auto.
Qed.
(** The body is called exactly if every argument gives its parameter what it holds and no object is given twice or locked
    already. It is called with what the arguments hold, in the order of the parameters. The arguments are
    removed from the stack and the locks are released. *)
Theorem C71_call : forall f g inner stk args os h v m',
  NoDup (map fst (parameters f)) -> length args = length (parameters f) ->
  (call f g inner {| mstk := stk ++ args; objs := os; held := h |} = (Returned v, m') <->
   exists bs d, gets_all stk os (map snd (parameters f)) args bs /\ NoDup (ids bs) /\ (forall i, In i (ids bs) -> ~ In i h) /\
     inner (map sees bs) = Some d /\ exists after, ends g bs d os after v /\ m' = {| mstk := stk; objs := after; held := h |}).
Proof.
  intros f g inner stk args os h v m' ND L. unfold call. rewrite bindings_rev, passed_names.
  change {| mstk := stk ++ args; objs := os; held := h |} with (at_ (stk ++ args) os h).
  destruct (pop_all (rev (parameters f)) [] (at_ (stk ++ args) os h)) as [env m|e m] eqn:P.
  - apply pop_all_iff in P; auto. destruct P as (bs & G & A & -> & ->). rewrite app_nil_r.
    pose proof (gets_all_length _ _ _ _ _ G) as [Lk _]. rewrite map_length in Lk.
    rewrite resolve_combine by (auto; rewrite map_length; auto). cbn [objs mstk held at_]. split.
    + intros H. exists bs. destruct (inner (map sees bs)) as [d|] eqn:I; [|discriminate]. exists d. split; [exact G|]. split; [apply A|]. split; [apply A|].
      split; [reflexivity|].
      set (hh := match changed bs with Some id => change (set_content (left_in d)) id os | None => os end) in *.
      assert (HH : match changed bs with Some id => hh = change (set_content (left_in d)) id os | None => hh = os end) by (unfold hh; destruct (changed bs); reflexivity).
      assert (LL : length hh = length os) by (destruct (changed bs); rewrite HH; rewrite ?change_length; reflexivity).
      destruct g; injection H as <- <-; eexists; (split; [exists hh; split; [exact HH|split; reflexivity || (rewrite LL; reflexivity)]|reflexivity]).
    + intros (bs' & d & G' & N' & F' & I & after & E & ->).
      assert (bs' = bs) as -> by (eapply gets_unique; eauto; split; auto). rewrite I. destruct E as (hh & E & R).
      assert ((match changed bs with Some id => change (set_content (left_in d)) id os | None => os end) = hh) as -> by (destruct (changed bs); auto).
      assert (LL : length hh = length os) by (destruct (changed bs); rewrite E; rewrite ?change_length; reflexivity).
      destruct g; destruct R as [-> ->]; auto. rewrite LL. reflexivity.
  - split.
    + intros [= -> _]. apply pop_all_ends in P. destruct P as [P _]. destruct (P v eq_refl).
    + intros (bs & d & G & N & F & _). exfalso.
      assert (Q : pop_all (rev (parameters f)) [] (at_ (stk ++ args) os h) = Next (combine (map fst (parameters f)) bs ++ []) (at_ stk os (ids bs ++ h))).
      { apply pop_all_iff; auto. exists bs. repeat split; auto. }
      congruence.
Qed.
Print Assumptions C71_call.

(** Only the object that was given with `&mut` may have another content afterwards; none is lost or poisoned. *)
Lemma changed_in : forall bs id, changed bs = Some id -> exists c, In (BObj true id c) bs.
Proof.
  induction bs as [|[r|[] i c] bs IH]; intros id H; cbn in H; try discriminate.
  - destruct (IH _ H) as (x & Q). exists x. right. exact Q.
  - injection H as ->. exists c. left. reflexivity.
  - destruct (IH _ H) as (x & Q). exists x. right. exact Q.
Qed.
Theorem C71_kept : forall g bs d before after v, ends g bs d before after v ->
  kept bs before (firstn (length before) after) /\ (g = GNothing \/ g = GValue -> length after = length before).
Proof.
  intros g bs d before after v (h & C & E).
  assert (LL : length h = length before) by (destruct (changed bs); rewrite C; rewrite ?change_length; reflexivity).
  assert (F : firstn (length before) after = h).
  { destruct g; destruct E as [_ ->]; rewrite <- LL; [apply firstn_all|apply firstn_all|]. rewrite firstn_app, Nat.sub_diag, firstn_all. cbn. apply app_nil_r. }
  rewrite F. split.
  - split; [auto|]. intros i o o' B A. destruct (changed bs) as [id|] eqn:Ch; subst h.
    + rewrite change_nth, B in A. destruct (Nat.eqb_spec id i) as [->|D]; cbn [option_map] in A; injection A as <-; repeat split; auto.
      intros N. exfalso. destruct (changed_in _ _ Ch) as (c & Q). apply (N c Q).
    + rewrite B in A. injection A as <-. auto.
  - intros [-> | ->]; destruct E as [_ ->]; exact LL.
Qed.
Print Assumptions C71_kept.

(** Otherwise the body is not called: the end and the state do not depend on it. No content changes, and the locks
    are released. *)
Theorem C71_not_called : forall f g stk args os h,
  NoDup (map fst (parameters f)) -> length args = length (parameters f) ->
  ~ (exists bs, gets_all stk os (map snd (parameters f)) args bs /\ NoDup (ids bs) /\ forall i, In i (ids bs) -> ~ In i h) ->
  exists e m', (forall v, e <> Returned v) /\ map content (objs m') = map content os /\ held m' = h /\
    forall inner, call f g inner {| mstk := stk ++ args; objs := os; held := h |} = (e, m').
Proof.
  intros f g stk args os h ND L N. unfold call. rewrite bindings_rev.
  change {| mstk := stk ++ args; objs := os; held := h |} with (at_ (stk ++ args) os h).
  destruct (pop_all (rev (parameters f)) [] (at_ (stk ++ args) os h)) as [env m|e m] eqn:P.
  { exfalso. apply N. apply pop_all_iff in P; auto. destruct P as (bs & G & A & _). exists bs. split; auto. }
  apply pop_all_ends in P. destruct P as (R & O & _). cbn [objs at_ held] in *.
  assert (CP : forall l os, map content (fold_left (fun o i => change poison i o) l os) = map content os).
  { assert (C1 : forall os i, map content (change poison i os) = map content os) by (induction os0 as [|x os0 IH]; intros [|i]; cbn; auto; f_equal; auto).
    induction l as [|i l IH]; intros os0; auto. cbn [fold_left]. rewrite IH. apply C1. }
  exists e. destruct e; eexists; (split; [exact R|split; [|split; [|reflexivity]]]); cbn; rewrite ?CP, ?O; reflexivity.
Qed.
Print Assumptions C71_not_called.

(** Plain values arrive as they were given. *)
Theorem C71_values : forall ps g inner stk rs os h,
  NoDup (map fst ps) -> Forall2 (typed exact_usize) (map snd ps) rs ->
  call (AllOf (map plain ps)) g inner {| mstk := stk ++ map push_var rs; objs := os; held := h |} =
  match inner (map SVal rs) with
  | None => (Panicked, {| mstk := stk; objs := os; held := h |})
  | Some d =>
      match g with
      | GNothing => (Returned None, {| mstk := stk; objs := os; held := h |})
      | GValue => (Returned (Some (push_var (result d))), {| mstk := stk; objs := os; held := h |})
      | GObject ty => (Returned (Some (VRust (length os))), {| mstk := stk; objs := os ++ [{| tag := ty; content := made d; poisoned := false |}]; held := h |})
      end
  end.
Proof.
  intros ps g inner stk rs os h ND T. unfold call. rewrite bindings_rev, passed_names. cbn [parameters].
  change {| mstk := stk ++ map push_var rs; objs := os; held := h |} with (at_ (stk ++ map push_var rs) os h).
  assert (NI : forall rs, ids (map BVal rs) = []) by (induction rs0; auto).
  assert (NC : forall rs, changed (map BVal rs) = None) by (induction rs0; auto).
  assert (LT : length ps = length rs) by (clear - T; remember (map snd ps) as ts; revert ps Heqts; induction T; intros [|]; intros E; try discriminate; auto; injection E as _ E; cbn; f_equal; auto).
  assert (G : gets_all stk os (map snd (map plain ps)) (map push_var rs) (map BVal rs)).
  { clear ND LT. revert rs T. induction ps as [|p ps IH] using rev_ind; intros rs T.
    - inversion T; subst. constructor.
    - rewrite map_app in T. apply Forall2_app_inv_l in T. destruct T as (r1 & r2 & T1 & T2 & ->). inversion T2 as [|? r ? ? Ty T3]; subst. inversion T3; subst.
      rewrite !map_app. cbn [map]. constructor; auto. pose proof (C44_unchanged_partial _ _ (stk ++ map push_var r1) Ty) as U.
      unfold push in U. rewrite pop_top in U. injection U as U. destruct (look (stk ++ map push_var r1) (push_var r)) as [w| |] eqn:LK; try discriminate.
      cbn [and_then] in U. apply (Gets_value _ _ _ _ w); auto. apply look_stands. exact LK. }
  assert (P : pop_all (rev (map plain ps)) [] (at_ (stk ++ map push_var rs) os h) = Next (combine (map fst (map plain ps)) (map BVal rs) ++ []) (at_ stk os ([] ++ h))).
  { apply pop_all_iff; [rewrite !map_length; auto|]. exists (map BVal rs). rewrite NI. repeat split; auto. - rewrite NI. constructor. - rewrite NI. intros i []. }
  rewrite P, app_nil_r. rewrite resolve_combine.
  - rewrite map_map. cbn [sees objs mstk held at_ app]. rewrite NC. destruct (inner (map SVal rs)); [reflexivity|]. unfold unwind, new_locks. cbn [held mstk objs]. rewrite Nat.sub_diag. reflexivity.
  - rewrite map_map. exact ND.
  - rewrite !map_length. exact LT.
Qed.
Print Assumptions C71_values.

(** A panic of the body poisons the objects it was given, so that no later call gets them. *)
Theorem C71_panic : forall f g inner stk args os h bs,
  NoDup (map fst (parameters f)) -> length args = length (parameters f) ->
  gets_all stk os (map snd (parameters f)) args bs -> NoDup (ids bs) -> (forall i, In i (ids bs) -> ~ In i h) -> inner (map sees bs) = None ->
  exists m', call f g inner {| mstk := stk ++ args; objs := os; held := h |} = (Panicked, m') /\ mstk m' = stk /\ held m' = h /\
    forall i o', nth_error (objs m') i = Some o' -> exists o, nth_error os i = Some o /\ content o' = content o /\
      (poisoned o' = true <-> poisoned o = true \/ In i (ids bs)).
Proof.
  intros f g inner stk args os h bs ND L G N F I. unfold call. rewrite bindings_rev, passed_names.
  change {| mstk := stk ++ args; objs := os; held := h |} with (at_ (stk ++ args) os h).
  assert (P : pop_all (rev (parameters f)) [] (at_ (stk ++ args) os h) = Next (combine (map fst (parameters f)) bs ++ []) (at_ stk os (ids bs ++ h))).
  { apply pop_all_iff; auto. exists bs. repeat split; auto. }
  rewrite P, app_nil_r. pose proof (gets_all_length _ _ _ _ _ G) as [Lk _]. rewrite map_length in Lk.
  rewrite resolve_combine by (auto; rewrite map_length; auto). rewrite I. eexists. split; [reflexivity|]. split; [reflexivity|]. split; [reflexivity|].
  unfold unwind, new_locks. cbn [objs held at_]. rewrite app_length, Nat.add_sub, firstn_app, Nat.sub_diag, firstn_all. cbn [firstn]. rewrite app_nil_r.
  clear. generalize (ids bs) as l. intros l. revert os. induction l as [|j l IH]; intros os i o' H.
  - exists o'. cbn in H. repeat split; auto. intros [Q|[]]; auto.
  - cbn [fold_left] in H. destruct (IH _ _ _ H) as (o & E & C & Q). rewrite change_nth in E. destruct (Nat.eqb_spec j i) as [->|D].
    + destruct (nth_error os i) as [x|] eqn:O; [|discriminate]. cbn in E. injection E as <-. exists x. split; [auto|]. split; [auto|].
      cbn [poisoned poison] in Q. split; [intros _; right; left; reflexivity|]. intros _. apply Q. auto.
    + exists o. split; auto. split; auto. rewrite Q. cbn [In]. split; [intros [|]; auto|intros [|[|]]; auto; contradiction].
Qed.
Print Assumptions C71_panic.

(** *** Examples: `fn f(target: #&mut A, source: #&B, n: u32, s: Arc<String>)` *)
Definition fn_ex : arm := TwoAnd ("target", KMut "A") ("source", KRef "B") [("n", TU32); ("s", TStr)].
Definition body_ex : body := fun l =>
  match l with
  | [SObj a; SObj b; SVal (RInt n); SVal (RStr s)] => Some {| left_in := a + b + Z.to_nat n; result := RStr s; made := 0 |}
  | _ => None
  end.
Definition objs_ex : list object := [{| tag := "B"; content := 3; poisoned := false |}; {| tag := "A"; content := 10; poisoned := false |}].
(** the second object is given through a variable *)
Example C71_example :
  call fn_ex GValue body_ex {| mstk := [VRust 0; VRust 1; VRef 0; push_var (RInt 4); VStr "x"]; objs := objs_ex; held := [] |} =
    (Returned (Some (VStr "x")), {| mstk := [VRust 0]; objs := [{| tag := "B"; content := 3; poisoned := false |}; {| tag := "A"; content := 17; poisoned := false |}]; held := [] |}) /\
  exists bs, gets_all [VRust 0] objs_ex (map snd (parameters fn_ex)) [VRust 1; VRef 0; push_var (RInt 4); VStr "x"] bs /\
    map sees bs = [SObj 10; SObj 3; SVal (RInt 4); SVal (RStr "x")].
Proof.
  assert (C : call fn_ex GValue body_ex {| mstk := [VRust 0; VRust 1; VRef 0; push_var (RInt 4); VStr "x"]; objs := objs_ex; held := [] |} =
    (Returned (Some (VStr "x")), {| mstk := [VRust 0]; objs := [{| tag := "B"; content := 3; poisoned := false |}; {| tag := "A"; content := 17; poisoned := false |}]; held := [] |})) by (vm_compute; reflexivity).
  split; [exact C|].
  exists [BObj true 1 10; BObj false 0 3; BVal (RInt 4); BVal (RStr "x")]. split; [|reflexivity].
  apply (All_more _ _ [KMut "A"; KRef "B"; KPlain TU32] [VRust 1; VRef 0; push_var (RInt 4)] [BObj true 1 10; BObj false 0 3; BVal (RInt 4)]).
  - apply (All_more _ _ [KMut "A"; KRef "B"] [VRust 1; VRef 0] [BObj true 1 10; BObj false 0 3]).
    + apply (All_more _ _ [KMut "A"] [VRust 1] [BObj true 1 10]).
      * apply (All_more _ _ [] [] []); [constructor|]. apply (Gets_object _ _ (KMut "A") true "A" (VRust 1) 1 {| tag := "A"; content := 10; poisoned := false |}); auto.
        left. split; [discriminate|reflexivity].
      * apply (Gets_object _ _ (KRef "B") false "B" (VRef 0) 0 {| tag := "B"; content := 3; poisoned := false |}); auto. right. exists 0. auto.
    + eapply Gets_value; [left; split; [discriminate|reflexivity]|vm_compute; reflexivity].
  - eapply Gets_value; [left; split; [discriminate|reflexivity]|reflexivity].
Qed.
Example C71_values_example : Forall2 (typed exact_usize) (map snd [("a", TStr); ("b", TVec TBool)]) [RStr "x"; RList [RBool true]].
Proof. repeat constructor. Qed.
(** An argument of the wrong type: the body is not called, but the arguments before it stay on the stack. *)
Theorem C71_leftover_refuted : forall inner,
  call fn_ex GValue inner {| mstk := [VRust 0; VRust 1; VRef 0; VBool true None; VStr "x"]; objs := objs_ex; held := [] |} =
  (Failed, {| mstk := [VRust 0; VRust 1; VRef 0]; objs := objs_ex; held := [] |}).
Proof. reflexivity. Qed.

(** The same object twice is not possible, although both parameters only read it, and not even for copies: the thread waits
    for a lock that it has. *)
Theorem C71_twice_refuted : forall inner k, In k [KRef "A"; KCopy "A"] ->
  let objs := [{| tag := "A"; content := 1; poisoned := false |}] in
  gets_all [] objs [k; k] [VRust 0; VRust 0] [BObj false 0 1; BObj false 0 1] /\
  call (AllOf [("a", k); ("b", k)]) GNothing inner {| mstk := [VRust 0; VRust 0]; objs := objs; held := [] |} =
  (Stuck, {| mstk := []; objs := objs; held := [] |}).
Proof.
  intros inner k [<-|[<-|[]]] os; (split; [|reflexivity]);
    (match goal with |- gets_all _ _ [?k; _] _ _ => apply (All_more _ _ [k] [VRust 0] [BObj false 0 1]); [apply (All_more _ _ [] [] []); [constructor|]|] end);
    (match goal with |- gets _ _ ?k _ _ => apply (Gets_object _ _ k false "A" (VRust 0) 0 {| tag := "A"; content := 1; poisoned := false |}); auto; left; split; [discriminate|reflexivity] end).
Qed.
