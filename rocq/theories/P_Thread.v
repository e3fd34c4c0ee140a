(** * C37: joining threads. *)
From Coq Require Import String List ZArith Bool Arith Lia.
From Verif Require Import Float64 Syntax SyntaxProofs InterpModel BalanceBase PathSpec PathProofs Samples P_Copy P_Calls ThreadModel ThreadSpec.
Import ListNotations.
Local Open Scope string_scope.
Local Open Scope nat_scope.
Local Open Scope list_scope.

Lemma total_0 : forall {A} (f : A -> nat) l, total f l = 0 <-> forall x, In x l -> f x = 0.
Proof.
  induction l as [|x l IH]; simpl; [split; [intros _ ? []|auto]|]. split.
  - intros H y [->|Hy]; [lia|]. apply IH; [lia|auto].
  - intros H. rewrite (H x (or_introl eq_refl)). apply IH. intros y Hy. apply H. auto.
Qed.
Lemma total_pos : forall {A} (f : A -> nat) l, total f l <> 0 <-> exists x, In x l /\ f x <> 0.
Proof.
  induction l as [|x l IH]; simpl; [split; [intros H; now destruct H|intros (? & [] & _)]|].
  split.
  - intros H. destruct (Nat.eq_dec (f x) 0) as [E|E]; [|exists x; auto].
    destruct (proj1 IH) as (y & Hy & P); [lia|]. exists y. auto.
  - intros (y & [->|Hy] & P); [lia|]. assert (total f l <> 0) by (apply IH; eauto). lia.
Qed.
Lemma has_list : forall t l, Forall (fun v => count_v t v <> 0 <-> has t v) l ->
  (total (count_v t) l <> 0 <-> exists v, In v l /\ has t v).
Proof.
  intros t l F. rewrite Forall_forall in F. rewrite total_pos. split; intros (v & Hv & P); exists v; split; auto; apply F; auto.
Qed.
Lemma count_has : forall t v, count_v t v <> 0 <-> has t v.
Proof.
  intros t.
  apply (v_ind (fun v => count_v t v <> 0 <-> has t v) (fun _ => True) (fun _ => True) (fun _ => True) (fun _ => True)); auto;
    try (intros; simpl; split; [intros H; now destruct H|intros H; inversion H]; fail).
  - intros b [l|] H; simpl in *; [|split; [intros []; auto|intros Q; inversion Q]].
    rewrite (has_list t l H). split; [intros (v & A & B); econstructor; eauto|intros Q; inversion Q; subst; eauto].
  - intros b [l|] H; simpl in *; [|split; [intros []; auto|intros Q; inversion Q]].
    rewrite (has_list t l H). split; [intros (v & A & B); econstructor; eauto|intros Q; inversion Q; subst; eauto].
  - intros l H. cbn [count_v]. rewrite (has_list t l H). split; [intros (v & A & B); econstructor; eauto|intros Q; inversion Q; subst; eauto].
  - intros l H. cbn [count_v]. rewrite total_pos. rewrite Forall_forall in H. split.
    + intros ((k & v) & A & B). apply (has_object t l k v A). apply (H (k, v) A). auto.
    + intros Q. inversion Q; subst. exists (k, v). split; auto. apply (H (k, v)); auto.
  - intros v H. cbn [count_v]. rewrite H. split; [constructor; auto|intros Q; inversion Q; auto].
  - intros v H. cbn [count_v]. rewrite H. split; [constructor; auto|intros Q; inversion Q; auto].
  - intros v tr H. cbn [count_v]. rewrite H. split; [constructor; auto|intros Q; inversion Q; auto].
  - intros [u|]; cbn [count_v]; [destruct (Nat.eqb_spec u t) as [->|E]|]; split; try lia; intros Q; try constructor; inversion Q; congruence.
  - intros c md rel _. cbn [count_v]. split; [constructor; auto|intros Q; inversion Q; auto].
Qed.

(** The stack with the argument of `join` on top. *)
Definition call_join (s : rt) (v : value) : rt := set_stack (r_stack s ++ [v]) s.
Definition spent (i : nat) (s : rt) : rt := set_stack (list_set i (VThread None) (r_stack s)) s.

Lemma join_ref : forall elsewhere s i, join_thread elsewhere (call_join s (VRef i)) =
  match nth_error (r_stack s) i with
  | None => JPanic
  | Some (VThread h) => take_handle elsewhere h (spent i s)
  | Some _ => JNow (err_ "Expected `Thread`") (spent i s)
  end.
Proof.
  intros. unfold join_thread, call_join. destruct s as [md st cs ls cur w]. cbn [r_stack set_stack]. rewrite rev_app_distr. cbn [rev app].
  rewrite removelast_app by discriminate. cbn [removelast r_stack]. rewrite app_nil_r. destruct (nth_error st i) as [[]|]; reflexivity.
Qed.
Lemma join_val : forall elsewhere s h, join_thread elsewhere (call_join s (VThread h)) = take_handle elsewhere h s.
Proof.
  intros. unfold join_thread, call_join. destruct s as [md st cs ls cur w]. cbn [r_stack set_stack]. rewrite rev_app_distr. cbn [rev app].
  rewrite removelast_app by discriminate. cbn [removelast r_stack]. rewrite app_nil_r. reflexivity.
Qed.
Lemma in_set : forall {A} (l : list A) i v x, In x (list_set i v l) -> x = v \/ exists j, j <> i /\ nth_error l j = Some x.
Proof.
  intros A l i v x H. apply In_nth_error in H. destruct H as (j & H). destruct (Nat.eq_dec j i) as [->|E].
  - left. assert (i < length l). { rewrite <- (list_set_length i v l). apply nth_error_Some. congruence. }
    rewrite nset_eq in H by auto. congruence.
  - right. exists j. rewrite nset_ne in H by auto. auto.
Qed.
Lemma set_in : forall {A} (l : list A) i j v x, j <> i -> nth_error l j = Some x -> In x (list_set i v l).
Proof. intros A l i j v x E H. eapply nth_error_In with (n := j). rewrite nset_ne; auto. Qed.

(** ** One runtime

    `join(x)` of a variable that holds the only handle of thread [t] waits for [t], and leaves [x] as
    a spent handle. [elsewhere] counts the handles that other threads and the host hold. *)
Theorem C37_first : forall elsewhere s i t, nth_error (r_stack s) i = Some (VThread (Some t)) ->
  (forall j v, j <> i -> nth_error (r_stack s) j = Some v -> ~ has t v) -> elsewhere t = 0 ->
  join_thread elsewhere (call_join s (VRef i)) = JWait t (spent i s).
Proof.
  intros elsewhere s i t H1 H2 H3. rewrite join_ref, H1. unfold take_handle, spent. cbn [r_stack set_stack].
  replace (total (count_v t) (list_set i (VThread None) (r_stack s))) with 0.
  - rewrite H3. reflexivity.
  - symmetry. apply total_0. intros x Hx. apply in_set in Hx. destruct Hx as [->|(j & E & Hj)]; [reflexivity|].
    destruct (Nat.eq_dec (count_v t x) 0) as [Q|Q]; auto. exfalso. apply count_has in Q. eapply H2; eauto.
Qed.
Print Assumptions C37_first.
(** A temporary handle, as in `join(go f())`, needs no variable. *)
Theorem C37_temporary : forall elsewhere s t, (forall v, In v (r_stack s) -> ~ has t v) -> elsewhere t = 0 ->
  join_thread elsewhere (call_join s (VThread (Some t))) = JWait t s.
Proof.
  intros elsewhere s t H1 H2. rewrite join_val. unfold take_handle.
  replace (total (count_v t) (r_stack s)) with 0.
  - rewrite H2. reflexivity.
  - symmetry. apply total_0. intros x Hx. destruct (Nat.eq_dec (count_v t x) 0) as [Q|Q]; auto. exfalso. apply count_has in Q. eapply H1; eauto.
Qed.
Print Assumptions C37_temporary.
(** After a `join` of a variable, whatever came of it, joining the variable again gives an error
    value at once. *)
Theorem C37_second : forall elsewhere elsewhere2 s i s1 s2, join_thread elsewhere (call_join s (VRef i)) = s1 ->
  match s1 with JNow _ a | JWait _ a => nth_error (r_stack s2) i = nth_error (r_stack a) i | JPanic => False end ->
  join_thread elsewhere2 (call_join s2 (VRef i)) = JNow (err_ "The Thread has already been invalidated") (spent i s2).
Proof.
  intros elsewhere elsewhere2 s i s1 s2 <-. rewrite !join_ref. destruct (nth_error (r_stack s) i) as [v|] eqn:H; [|intros []].
  intros Q. assert (nth_error (r_stack s2) i = Some (VThread None)) as ->.
  { assert (nth_error (r_stack (spent i s)) i = Some (VThread None)) as R.
    { unfold spent. cbn. apply nset_eq. apply nth_error_Some. congruence. }
    rewrite <- R. destruct v; auto. unfold take_handle in Q. destruct t; auto. destruct (Nat.eqb _ 0) in Q; auto. }
  reflexivity.
Qed.
Print Assumptions C37_second.
(** A handle that is also held anywhere else gives an error value at once. *)
Theorem C37_shared : forall elsewhere s i t, nth_error (r_stack s) i = Some (VThread (Some t)) ->
  (exists j v, j <> i /\ nth_error (r_stack s) j = Some v /\ has t v) \/ elsewhere t <> 0 ->
  join_thread elsewhere (call_join s (VRef i)) =
    JNow (err_ "Can not access Thread because there is more than one reference to it") (spent i s).
Proof.
  intros elsewhere s i t H1 H2. rewrite join_ref, H1. unfold take_handle, spent. cbn [r_stack set_stack].
  match goal with |- context [Nat.eqb ?a 0] => destruct (Nat.eqb_spec a 0) as [E|E]; [exfalso|reflexivity] end.
  destruct H2 as [(j & v & A & B & C)|H2]; [|lia].
  assert (total (count_v t) (list_set i (VThread None) (r_stack s)) <> 0); [|lia].
  apply total_pos. exists v. split; [eapply set_in; eauto|apply count_has; auto].
Qed.
Print Assumptions C37_shared.
(** Two `join`s cannot both wait for the same thread, and one that waits leaves no handle behind. *)
Theorem C37_last : forall elsewhere s i t s1, join_thread elsewhere (call_join s (VRef i)) = JWait t s1 ->
  nth_error (r_stack s) i = Some (VThread (Some t)) /\ (forall v, In v (r_stack s1) -> ~ has t v) /\ elsewhere t = 0.
Proof.
  intros elsewhere s i t s1. rewrite join_ref. destruct (nth_error (r_stack s) i) as [[]|] eqn:H; try discriminate.
  unfold take_handle. destruct t0 as [u|]; [|discriminate].
  match goal with |- context [Nat.eqb ?a 0] => destruct (Nat.eqb_spec a 0) as [E|E]; [|discriminate] end.
  intros Q. injection Q as -> <-. splits; auto; [|lia].
  intros v Hv Hh. apply count_has in Hh. assert (total (count_v t) (r_stack (spent i s)) <> 0); [|lia]. apply total_pos. eauto.
Qed.
Print Assumptions C37_last.
(** Only a stack without the argument, which no call leaves, makes `join` panic. *)
Theorem C37_value : forall elsewhere s v, (forall i, v = VRef i -> i < length (r_stack s)) ->
  (exists r s1, join_thread elsewhere (call_join s v) = JNow (VErr (VStr r) []) s1) \/
  (exists t s1, join_thread elsewhere (call_join s v) = JWait t s1).
Proof.
  intros elsewhere s v H.
  assert (forall h s', (exists r s1, take_handle elsewhere h s' = JNow (VErr (VStr r) []) s1) \/ exists t s1, take_handle elsewhere h s' = JWait t s1) as T.
  { intros [u|] s'; unfold take_handle; [destruct (Nat.eqb _ _)|]; [right|left|left]; do 2 eexists; reflexivity. }
  destruct v; try (left; do 2 eexists; unfold join_thread, call_join, set_stack; cbn [r_stack]; rewrite rev_app_distr; cbn [rev app]; reflexivity).
  - rewrite join_ref. specialize (H _ eq_refl). apply nth_error_Some in H. destruct (nth_error (r_stack s) i) as [[]|]; try (left; do 2 eexists; reflexivity); [apply T|congruence].
  - rewrite join_val. apply T.
Qed.
Print Assumptions C37_value.
(** When the thread has ended, `join` gives `ok(r)` with the result [r] of the call, copied out of the
    thread: [r] has no references. A run-time error of the thread and a panic become an error value.
    Partial: as in C05, what the call leaves must have no references inside closures and results. *)
Theorem C37_result_partial : forall E n sp w r, wake (thread_run E n sp (thread_rt w sp)) = Some (VOk r) ->
  exists o fl s1 x s', call_internal E (eval E n) n (sp_fn sp) (sp_name sp) (sp_args sp) false (thread_rt w sp) = Ok (o, fl) s1 /\
    match o with Some y => x = y /\ s' = s1 | None => r_stack s1 = r_stack s' ++ [x] end /\
    (sealed_state s' -> sealed x -> no_refs r /\ resolves (r_stack s') x r).
Proof.
  intros E n sp w r H. destruct (thread_run E n sp (thread_rt w sp)) as [v s'|m s'|m|] eqn:Q; try discriminate.
  injection H as <-. apply C05_result_partial in Q. destruct Q as (o & fl & s1 & x & A & B & C). exists o, fl, s1, x, s'. auto.
Qed.
Print Assumptions C37_result_partial.
Theorem C37_error : forall E n sp w m s', thread_run E n sp (thread_rt w sp) = Err m s' ->
  wake (thread_run E n sp (thread_rt w sp)) = Some (VErr (VStr m) []).
Proof. intros E n sp w m s' ->. reflexivity. Qed.
Print Assumptions C37_error.

(** ** All interleavings *)
Lemma total_app : forall {A} (f : A -> nat) l m, total f (l ++ m) = total f l + total f m.
Proof. induction l as [|x l IH]; simpl; intros; [auto|rewrite IH; lia]. Qed.
Lemma total_set : forall {A} (f : A -> nat) l i x y, nth_error l i = Some x -> total f (list_set i y l) + f x = total f l + f y.
Proof.
  induction l as [|a l IH]; intros [|i] x y H; try discriminate; simpl in *.
  - injection H as <-. lia.
  - specialize (IH _ _ y H). lia.
Qed.
Definition start : sys := Sys [] 0 [].
Definition sound (s : sys) : Prop :=
  NoDup (ended s) /\ (forall t, In t (ended s) -> handles s t = 0 /\ t < spawned s) /\ (forall t, spawned s <= t -> handles s t = 0).
Lemma act_sound : forall a s s', sound s -> act_ a s = Some s' -> sound s'.
Proof.
  intros a s s' (N & I1 & I2) H.
  assert (forall i p q, nth_error (places s) i = Some p -> forall t, of_place t q <= of_place t p ->
            handles (Sys (list_set i q (places s)) (spawned s) (ended s)) t <= handles s t) as LE.
  { intros i p q Hp t Hq. pose proof (total_set (of_place t) _ _ _ q Hp) as T. unfold handles. cbn [places]. lia. }
  assert (forall i p q, nth_error (places s) i = Some p -> (forall t, of_place t q <= of_place t p) ->
            sound (Sys (list_set i q (places s)) (spawned s) (ended s))) as SET.
  { intros i p q Hp Hq. split; [exact N|split]; cbn [ended spawned].
    - intros t Ht. destruct (I1 t Ht) as [A B]. split; auto. specialize (LE i p q Hp t (Hq t)). lia.
    - intros t Ht. specialize (I2 t Ht). specialize (LE i p q Hp t (Hq t)). lia. }
  destruct a as [|i|i|i|i|i]; cbn [act_] in H.
  - injection H as <-. split; [exact N|split]; cbn [ended spawned]; unfold handles; cbn [places].
    + intros t Ht. destruct (I1 t Ht) as [A B]. unfold handles in A. rewrite total_app, A. cbn. destruct (Nat.eqb_spec (spawned s) t); lia.
    + intros t Ht. assert (spawned s <= t) as Q by lia. apply I2 in Q. unfold handles in Q. rewrite total_app, Q. cbn. destruct (Nat.eqb_spec (spawned s) t); lia.
  - destruct (nth_error (places s) i) as [[]|] eqn:E; try discriminate. injection H as <-.
    assert (handles s t <> 0) as P by (apply total_pos; exists (Holds t); split; [eapply nth_error_In; eauto|cbn; rewrite Nat.eqb_refl; lia]).
    split; [exact N|split]; cbn [ended spawned]; unfold handles; cbn [places]; intros u Hu; rewrite total_app; cbn; destruct (Nat.eqb_spec t u) as [->|D];
      try (exfalso; apply P; first [apply I1; assumption|apply I2; assumption]).
    + destruct (I1 u Hu) as [A B]. unfold handles in A. lia.
    + apply I2 in Hu. unfold handles in Hu. lia.
  - destruct (nth_error (places s) i) as [[]|] eqn:E; try discriminate. injection H as <-. eapply SET; eauto. intros; cbn; lia.
  - destruct (nth_error (places s) i) as [[]|] eqn:E; try discriminate. injection H as <-. eapply SET; eauto.
  - destruct (nth_error (places s) i) as [[]|] eqn:E; try discriminate. injection H as <-.
    destruct (Nat.eqb_spec (handles s t) 1) as [D|D]; [|eapply SET; eauto].
    assert (sound (Sys (list_set i Empty (places s)) (spawned s) (ended s))) as (_ & J1 & J2) by (eapply SET; eauto; intros; cbn; lia).
    assert (handles (Sys (list_set i Empty (places s)) (spawned s) (ended s)) t = 0) as Z.
    { pose proof (total_set (of_place t) _ _ _ Empty E) as T. cbn in T. rewrite Nat.eqb_refl in T. unfold handles in *. cbn [places]. lia. }
    split; [|split]; cbn [ended spawned].
    + apply NoDup_rev in N. rewrite <- (rev_involutive (ended s ++ [t])). apply NoDup_rev. rewrite rev_app_distr. cbn. constructor; auto.
      rewrite <- in_rev. intros Q. apply I1 in Q. lia.
    + intros u Hu. apply in_app_or in Hu. destruct Hu as [Hu|[<-|[]]]; [apply J1; exact Hu|]. split; [exact Z|].
      destruct (Nat.lt_ge_cases t (spawned s)) as [Q|Q]; auto. apply I2 in Q. lia.
    + exact J2.
  - destruct (nth_error (places s) i) as [[]|] eqn:E; try discriminate. injection H as <-. eapply SET; eauto. intros; cbn; lia.
Qed.
Lemma acts_sound : forall l s s', sound s -> acts l s = Some s' -> sound s'.
Proof.
  induction l as [|a l IH]; intros s s' H Q; cbn in Q; [injection Q as <-; auto|].
  destruct (act_ a s) as [s1|] eqn:A; [|discriminate]. eapply IH; [|exact Q]. eapply act_sound; eauto.
Qed.
Lemma start_sound : sound start.
Proof. split; [constructor|split; [intros t []|reflexivity]]. Qed.

(** Whatever threads do with their handles, in any order: no thread is joined twice, and once it is
    joined nobody has a handle of it. *)
Theorem C37_once : forall l s, acts l start = Some s -> NoDup (ended s) /\ forall t, In t (ended s) -> handles s t = 0.
Proof. intros l s H. apply acts_sound in H; [|exact start_sound]. destruct H as (A & B & _). split; auto. intros t Ht. apply B; auto. Qed.
Print Assumptions C37_once.
(** A `join` under way never has to wait for another one: its next step is always possible, and it
    ends either as the one that joins the thread or with an error. *)
Theorem C37_no_hang : forall l s i t, acts l start = Some s -> nth_error (places s) i = Some (Taken t) ->
  exists s', act_ (Unwrap i) s = Some s' /\
    ((handles s t = 1 /\ ended s' = ended s ++ [t] /\ nth_error (places s') i = Some Empty /\ handles s' t = 0) \/
     (handles s t <> 1 /\ ended s' = ended s /\ nth_error (places s') i = Some (Losing t) /\
      exists s'', act_ (Give_up i) s' = Some s'')).
Proof.
  intros l s i t H E. cbn [act_]. rewrite E. assert (i < length (places s)) as L by (apply nth_error_Some; congruence).
  destruct (Nat.eqb_spec (handles s t) 1) as [D|D]; eexists; (split; [reflexivity|]).
  - left. cbn. rewrite nset_eq by auto. splits; auto.
    pose proof (total_set (of_place t) _ _ _ Empty E) as T. cbn in T. rewrite Nat.eqb_refl in T. unfold handles in *. cbn [places]. lia.
  - right. cbn. rewrite nset_eq by auto. splits; auto. eexists. reflexivity.
Qed.
Print Assumptions C37_no_hang.
(** The only handle stays so while it is being joined: no other action can make a second one, so
    that join succeeds. *)
Theorem C37_only : forall l s i t a s', acts l start = Some s -> nth_error (places s) i = Some (Taken t) -> handles s t = 1 ->
  act_ a s = Some s' -> a <> Unwrap i -> nth_error (places s') i = Some (Taken t) /\ handles s' t = 1.
Proof.
  intros l s i t a s' R E O H D. apply acts_sound in R; [|exact start_sound]. destruct R as (_ & _ & I2).
  assert (i < length (places s)) as L by (apply nth_error_Some; congruence).
  assert (t < spawned s) as LT. { destruct (Nat.lt_ge_cases t (spawned s)) as [Q|Q]; auto. apply I2 in Q. lia. }
  assert (forall j p, j <> i -> nth_error (places s) j = Some p -> of_place t p = 0) as Z.
  { intros j p Hj Hp. pose proof (total_set (of_place t) _ _ _ Empty E) as T. cbn in T. rewrite Nat.eqb_refl in T. unfold handles in O.
    assert (total (of_place t) (list_set i Empty (places s)) = 0) as Q by lia. apply (proj1 (total_0 _ _) Q). eapply set_in; eauto. }
  assert (forall j p q, j <> i -> nth_error (places s) j = Some p -> of_place t q = 0 -> forall b e,
     nth_error (places (Sys (list_set j q (places s)) b e)) i = Some (Taken t) /\ handles (Sys (list_set j q (places s)) b e) t = 1) as SET.
  { intros j p q Hj Hp Hq b e. cbn. rewrite nset_ne by auto. split; auto. pose proof (total_set (of_place t) _ _ _ q Hp) as T.
    rewrite Hq, (Z j p Hj Hp) in T. unfold handles in *. cbn. lia. }
  destruct a as [|j|j|j|j|j]; cbn [act_] in H.
  - injection H as <-. unfold handles in *. cbn. rewrite nth_error_app1, total_app, O by auto. cbn. destruct (Nat.eqb_spec (spawned s) t); [lia|]. split; auto.
  - destruct (nth_error (places s) j) as [[]|] eqn:Ej; try discriminate. injection H as <-.
    assert (j <> i) as Hj by congruence. pose proof (Z j _ Hj Ej) as Zj. cbn in Zj.
    unfold handles in *. cbn. rewrite nth_error_app1, total_app, O by auto. cbn. destruct (Nat.eqb_spec t0 t); [lia|]. split; auto.
  - destruct (nth_error (places s) j) as [[]|] eqn:Ej; try discriminate. injection H as <-. eapply SET; eauto. congruence.
  - destruct (nth_error (places s) j) as [[]|] eqn:Ej; try discriminate. injection H as <-. assert (j <> i) as Hj by congruence. eapply SET; eauto. apply (Z j _ Hj Ej).
  - destruct (nth_error (places s) j) as [[]|] eqn:Ej; try discriminate. injection H as <-.
    assert (j <> i) as Hj by congruence. destruct (Nat.eqb _ 1); eapply SET; eauto. apply (Z j _ Hj Ej).
  - destruct (nth_error (places s) j) as [[]|] eqn:Ej; try discriminate. injection H as <-. eapply SET; eauto. congruence.
Qed.
Print Assumptions C37_only.

(** ** Examples and refutations *)
(** join(go inc(7)) *)
Definition gone_ : bool :=
  match expression three (eval three 9) 9 (EGo "inc" [num 7]) Right (at_ 1) with
  | Ok (Some (VThread (Some 0)), FContinue) s' =>
      match nth_error (w_threads (r_world s')) 0 with
      | Some sp =>
          match wake (thread_run three 9 sp (thread_rt (r_world s') sp)) with
          | Some (VOk (VF64 x None)) => feq x (f_of_Z 8)
          | _ => false
          end
      | None => false
      end
  | _ => false
  end.
Example C37_result_example : gone_ = true.
Proof. vm_compute. reflexivity. Qed.
(** t := go inc(7), u := 1; join(t) *)
Definition two_ : rt := RT 0 [VThread (Some 4); VArray [vf64 (f_of_Z 1)]] [] [] [] (World [] [] []).
Example C37_example :
  join_thread (fun _ => 0) (call_join two_ (VRef 0)) = JWait 4 (spent 0 two_) /\
  join_thread (fun _ => 0) (call_join (spent 0 two_) (VRef 0)) = JNow (err_ "The Thread has already been invalidated") (spent 0 two_) /\
  (forall j v, j <> 0 -> nth_error (r_stack two_) j = Some v -> ~ has 4 v).
Proof.
  splits; try reflexivity. intros [|[|[|j]]] v D H; try (now destruct D); try discriminate.
  injection H as <-. intros Q. apply count_has in Q. now vm_compute in Q.
Qed.
(** t := go inc(7), l := [t]; join(t) *)
Definition shared_ : rt := RT 0 [VThread (Some 4); VArray [VThread (Some 4)]] [] [] [] (World [] [] []).
Example C37_shared_example : exists s,
  join_thread (fun _ => 0) (call_join shared_ (VRef 0)) = JNow (err_ "Can not access Thread because there is more than one reference to it") s.
Proof. eexists. reflexivity. Qed.
Example C37_once_example : exists s, acts [Spawn; Copy 0; Take 0; Unwrap 0; Give_up 0; Take 1; Unwrap 1] start = Some s /\ ended s = [0].
Proof. eexists. split; reflexivity. Qed.
Example C37_no_hang_example : exists s, acts [Spawn; Spawn; Take 1] start = Some s /\ nth_error (places s) 1 = Some (Taken 1) /\ handles s 1 = 1.
Proof. eexists. repeat split. Qed.

(** A shared handle is not only refused: the variable is spent, so even after the other holder is
    gone, `join` on it gives an error. *)
Theorem C37_spent_refuted : exists s1,
  join_thread (fun _ => 0) (call_join shared_ (VRef 0)) = JNow (err_ "Can not access Thread because there is more than one reference to it") s1 /\
  join_thread (fun _ => 0) (call_join (set_stack (removelast (r_stack s1)) s1) (VRef 0)) =
    JNow (err_ "The Thread has already been invalidated") (set_stack (removelast (r_stack s1)) s1).
Proof. eexists. split; reflexivity. Qed.
(** The result is not returned at all if two holders join at the same time: both find the other. *)
Theorem C37_race_refuted : exists s, acts [Spawn; Copy 0; Take 0; Take 1; Unwrap 0; Unwrap 1; Give_up 0; Give_up 1] start = Some s /\
  ended s = [] /\ handles s 0 = 0.
Proof. eexists. repeat split. Qed.
(** `join(x)` of a variable that is no thread replaces the variable by a spent handle. *)
Theorem C37_clobber_refuted : exists s1,
  join_thread (fun _ => 0) (call_join two_ (VRef 1)) = JNow (err_ "Expected `Thread`") s1 /\
  r_stack s1 = [VThread (Some 4); VThread None].
Proof. eexists. split; reflexivity. Qed.
(** A copy of an array shares the handles in it ([deep_clone] of a handle is a clone, lib.rs 312), so
    a thread's argument can share the handle of the spawner. *)
Theorem C37_clone_refuted : deep_clone 3 (r_stack shared_) (VRef 1) = DOk (VArray [VThread (Some 4)]).
Proof. reflexivity. Qed.
