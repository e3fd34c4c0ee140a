(** * C35, C36: the channels of `in f`. *)
From Coq Require Import String List Bool Arith Lia.
From Verif Require Import Float64 Syntax ChannelModel ChannelSpec ChannelProofs.
Import ListNotations.
Local Open Scope nat_scope.
Local Open Scope list_scope.

(** ** C36 *)

(** From the write of its [in] expression on, every write to the flag sets it, as long as the
    channel is open; and the channel stays in the list. *)
Theorem C36_flag : forall s c k, reachable s -> made s c k -> alive s c ->
  registered s c /\ flag_set s /\ forall j, k <= j -> j < length (flag s) -> nth j (flag s) false = true.
Proof.
  intros s c k R (h & H1 & H2) (h' & H3 & H4). assert (h' = h) by congruence. subst h'.
  destruct (i_flag s (inv_reachable s R) c h k H1 H2) as [B F]. destruct (F H4) as [F1 F2].
  split; [exact F1|]. split; [|exact F2]. unfold flag_set.
  destruct (flag s) as [|b l] eqn:Ef; [cbn in B; lia|]. rewrite <- Ef in *.
  replace (last (flag s) false) with (nth (length (flag s) - 1) (flag s) false); [apply F2; lia|].
  clear. induction (flag s) as [|x l IH]; [reflexivity|]. destruct l as [|y l]; [reflexivity|].
  cbn [length] in *. replace (S (S (length l)) - 1) with (S (S (length l) - 1)) by lia. cbn [nth last] in *. exact IH.
Qed.
Print Assumptions C36_flag.

(** Whenever no thread is inside a critical section, an open channel in the list has the flag set. *)
Theorem C36_registered : forall s c, reachable s -> lock s = None -> registered s c -> alive s c -> flag_set s.
Proof.
  intros s c R L I (h & H1 & H2). pose proof (inv_reachable s R) as HI.
  destruct (ch_store h) as [k|] eqn:Es.
  - apply (C36_flag s c k R); [exists h; auto|exists h; auto].
  - exfalso. destruct (i_unstored s HI c h I H1 Es) as [t Ht].
    assert (crit (at_pc s t) = true) as C by (rewrite Ht; reflexivity). apply (i_lock s HI) in C. congruence.
Qed.
Print Assumptions C36_registered.

(** A thread that knows of an open channel reads a set flag, whichever write it reads. *)
Theorem C36_read : forall s s' c t args k, reachable s -> knows s t c -> alive s c ->
  fire (Call t args k) s = Some s' -> nth k (flag s) false = true /\ at_pc s' t = CallLock (Msg t (calls s t) args).
Proof.
  intros s s' c t args k R (k0 & M & L) A E. pose proof E as E0. cbn [fire] in E. destruct (at_pc s t); try discriminate.
  destruct (_ && _) eqn:Ek; [|discriminate]. apply andb_prop in Ek. destruct Ek as [K1 K2].
  apply Nat.leb_le in K1. apply Nat.ltb_lt in K2.
  destruct (C36_flag s c k0 R M A) as (_ & _ & F). assert (nth k (flag s) false = true) as Hf by (apply F; lia).
  split; [exact Hf|]. injection E as <-. cbn [flag set_view count]. rewrite Hf. cbn. apply upd_same.
Qed.
Print Assumptions C36_read.

(** ** C35 *)

(** Of each thread, a channel gets messages in call order, each at most once, each with the
    arguments of that call. *)
Theorem C35_order : forall l s c t, exec l start = Some s ->
  increasing (map g_number (sent s c t)) /\
  forall m, In m (sent s c t) -> g_thread m = t /\ nth_error (called t l) (g_number m) = Some (g_args m).
Proof.
  intros l s c t E. pose proof (tidy_exec l s c t E) as T. apply tidy_app in T. destruct T as (_ & A & B).
  split; [exact A|]. intros m I. rewrite Forall_forall in B. apply B. exact I.
Qed.
Print Assumptions C35_order.

(** From when a thread knows of a channel, as long as that is open, exactly its calls are delivered:
    every one, once, in order. Full statement: without the hypothesis that the thread knows of the
    channel; false, see [C35_stale_refuted]. *)
Theorem C35_exact_partial : forall l l' s s' c t, exec l start = Some s -> exec l' s = Some s' ->
  at_pc s t = Idle -> at_pc s' t = Idle -> knows s t c -> alive s' c ->
  sent s' c t = sent s c t ++ numbered t (calls s t) (called t l').
Proof.
  intros l l' s s' c t E E' I I' K A. assert (reachable s) as R by (exists l; exact E).
  pose proof (exact_exec l' s s' c t (inv_reachable s R) (own_reachable s R) E') as X.
  rewrite !pend_idle, !app_nil_r in X by (rewrite ?I, ?I'; reflexivity). apply X; auto.
  - destruct K as (k & M & _). exists k. exact M.
  - apply knows_aware; auto. apply inv_reachable. exact R.
Qed.
Print Assumptions C35_exact_partial.

(** For every thread, when the calls read the newest write of the flag. *)
Theorem C35_exact_newest : forall l l' s s' c t k, exec l start = Some s -> exec l' s = Some s' -> newest l' s ->
  at_pc s t = Idle -> at_pc s' t = Idle -> made s c k -> alive s' c ->
  sent s' c t = sent s c t ++ numbered t (calls s t) (called t l').
Proof.
  intros l l' s s' c t k E E' N I I' M A. assert (reachable s) as R by (exists l; exact E).
  pose proof (exact_exec l' s s' c t (inv_reachable s R) (own_reachable s R) E') as X.
  rewrite !pend_idle, !app_nil_r in X by (rewrite ?I, ?I'; reflexivity). apply X; auto; [exists k; exact M|].
  clear - N M R. apply inv_reachable in R. revert s R N M.
  induction l' as [|a l IH]; intros s R N M; cbn [aware]; [exact Logic.I|]. cbn [newest] in N. destruct N as [N1 N2].
  destruct (fire a s) as [s1|] eqn:Ea; [|exact Logic.I]. split; [|apply IH; eauto using inv_fire, made_step].
  intros Hc. exists k. split; [exact M|]. destruct a; try (exfalso; apply Hc; reflexivity). cbn.
  destruct M as (h & H1 & H2). destruct (i_flag s R c h k H1 H2) as [B _]. lia.
Qed.
Print Assumptions C35_exact_newest.

(** The thread that made the channel knows of it, and so does every thread that hears from it. *)
Theorem C35_maker : forall s t c, reachable s -> at_pc s t = InStore c ->
  exists s', fire (Go t) s = Some s' /\ knows s' t c.
Proof.
  intros s t c R Ht. eexists. split; [cbn; unfold go; rewrite Ht; reflexivity|].
  destruct (i_store s (inv_reachable s R) t c Ht) as (_ & h & H1 & _).
  destruct (nth_stored_of _ c (length (flag s)) _ _ H1) as (h' & A & _ & _ & B). rewrite Nat.eqb_refl in B.
  exists (length (flag s)). split; [exists h'; split; [exact A|exact B]|]. cbn. rewrite upd_same. lia.
Qed.
Print Assumptions C35_maker.
Theorem C35_heard : forall s t u c, knows s u c -> exists s', fire (Meet t u) s = Some s' /\ knows s' t c.
Proof.
  intros s t u c (k & M & L). eexists. split; [reflexivity|]. exists k. split; [exact M|]. cbn. rewrite upd_same. lia.
Qed.
Print Assumptions C35_heard.
Theorem C35_known : forall l s s' t c, reachable s -> exec l s = Some s' -> knows s t c -> knows s' t c.
Proof.
  induction l as [|a l IH]; intros s s' t c R E K; cbn in E; [injection E as <-; exact K|].
  destruct (fire a s) as [s1|] eqn:Ea; [|discriminate]. apply (IH s1); auto.
  - destruct R as [l0 R]. exists (l0 ++ [a]). rewrite exec_app, R. cbn. rewrite Ea. reflexivity.
  - eapply knows_step; eauto. apply inv_reachable. exact R.
Qed.
Print Assumptions C35_known.

(** When a call that began to send after the channel was closed has gone through the list, the
    channel is no longer in it. (That no open channel gets lost: [C36_flag].) *)
Theorem C35_dropped : forall l s s' c t, reachable s -> exec l s = Some s' ->
  c < length (chans s) -> ~ alive s c -> lock s <> Some t -> at_pc s' t = CallDrop -> ~ registered s' c.
Proof.
  intros l s s' c t R E Hc A L Hp. pose proof (inv_reachable s R) as HI.
  assert (is_open (chans s) c = false) as O.
  { unfold is_open. destruct (nth_error (chans s) c) as [h|] eqn:Eh; [|reflexivity].
    destruct (ch_open h) eqn:Eo; [|reflexivity]. exfalso. apply A. exists h. auto. }
  assert (passed s c t) as P.
  { apply passed_out. destruct (crit (at_pc s t)) eqn:Ec; [|reflexivity]. exfalso. apply L. apply (i_lock s HI). exact Ec. }
  pose proof (passed_exec l s s' c t HI E Hc O P) as X. unfold passed in X. rewrite Hp in X. exact X.
Qed.
Print Assumptions C35_dropped.

(** No thread waits forever: whoever is under way can go on, or the holder of the lock can. *)
Theorem C35_progress : forall s t, reachable s -> at_pc s t <> Idle ->
  exists u s', fire (Go u) s = Some s' /\ (u = t \/ lock s = Some u).
Proof.
  intros s t R Ht. pose proof (inv_reachable s R) as HI.
  assert (forall u, crit (at_pc s u) = true -> exists s', fire (Go u) s = Some s') as Run.
  { intros u Hu. cbn [fire]. unfold go. destruct (at_pc s u) eqn:Eu; try discriminate Hu; try (eexists; reflexivity).
    destruct i as [|i]; [eexists; reflexivity|]. destruct (i_send s HI u m (S i) op Eu) as (A1 & A2 & _).
    destruct (nth_error (list_ s) i) as [d|] eqn:Ed; [|apply nth_error_None in Ed; lia].
    destruct (is_open _ _); eexists; reflexivity. }
  destruct (lock s) as [u|] eqn:El.
  - destruct (Run u) as [s' E]; [apply (i_lock s HI); exact El|]. exists u, s'. auto.
  - exists t. destruct (at_pc s t) eqn:Et; try (exfalso; apply Ht; reflexivity);
      try (assert (crit (at_pc s t) = true) as C by (rewrite Et; reflexivity); apply (i_lock s HI) in C; congruence).
    + cbn [fire]. unfold go. rewrite Et, El. eexists. split; [reflexivity|auto].
    + cbn [fire]. unfold go. rewrite Et, El. eexists. split; [reflexivity|auto].
Qed.
Print Assumptions C35_progress.

(** ** Examples *)

(** Thread 0 makes channels 0 and 1 and calls; channel 0 is closed; thread 1, which heard of them,
    calls. *)
Definition go4 (t : nat) : list action := [Go t; Go t; Go t; Go t].
Definition one : list value := [VStr "one"].
Definition two : list value := [VStr "two"].
Definition run1 : list action :=
  [New 0] ++ go4 0 ++ [New 0] ++ go4 0 ++ [Call 0 one 2] ++ go4 0 ++ [Go 0; Go 0; Go 0; Meet 1 0; Drop 0].
Definition run2 : list action := [Call 1 two 2] ++ go4 1 ++ [Go 1; Go 1; Go 1].
Definition run_ (l : list action) (s : state) : state := match exec l s with Some s' => s' | None => s end.
Lemma run_ok : forall l s, match exec l s with Some _ => true | None => false end = true -> exec l s = Some (run_ l s).
Proof. intros l s. unfold run_. destruct (exec l s); [reflexivity|discriminate]. Qed.
Example C35_example : exists s s', exec run1 start = Some s /\ exec run2 s = Some s' /\
  at_pc s 1 = Idle /\ at_pc s' 1 = Idle /\ knows s 1 1 /\ alive s' 1 /\ ~ alive s 0 /\
  sent s' 1 0 = [Msg 0 0 one] /\ sent s' 1 1 = [Msg 1 0 two] /\ sent s' 0 1 = [] /\ list_ s = [0; 1] /\ list_ s' = [1].
Proof.
  exists (run_ run1 start), (run_ run2 (run_ run1 start)).
  split; [apply run_ok; vm_compute; reflexivity|]. split; [apply run_ok; vm_compute; reflexivity|].
  split; [vm_compute; reflexivity|]. split; [vm_compute; reflexivity|].
  split; [exists 2; split; [eexists; split; vm_compute; reflexivity|vm_compute; lia]|].
  split; [eexists; split; vm_compute; reflexivity|]. split; [intros (h & A & B); vm_compute in A; injection A as <-; vm_compute in B; discriminate|].
  repeat split; vm_compute; reflexivity.
Qed.

(** ** Refutations *)

(** Between the push and the store, the channel is in the list and the flag is not set. *)
Theorem C36_inside_refuted : exists s c, reachable s /\ registered s c /\ alive s c /\ ~ flag_set s.
Proof.
  assert (exists s, exec [New 0; Go 0; Go 0] start = Some s /\ registered s 0 /\ alive s 0 /\ ~ flag_set s) as (s & E & H).
  { eexists. split; [reflexivity|]. split; [left; reflexivity|]. split; [eexists; split; reflexivity|discriminate]. }
  exists s, 0. split; [exists [New 0; Go 0; Go 0]; exact E|exact H].
Qed.
Print Assumptions C36_inside_refuted.

(** A call by a thread that has not heard of the channel can read the old value of the flag
    (`Ordering::Relaxed`) and is not delivered, although `in f` was complete before. *)
Theorem C35_stale_refuted : exists l s s' c k, exec l start = Some s /\ (forall t, at_pc s t = Idle) /\ made s c k /\
  exec [Call 1 one 0] s = Some s' /\ at_pc s' 1 = Idle /\ alive s' c /\ sent s' c 1 = [].
Proof.
  pose (s := run_ ([New 0] ++ go4 0) start).
  exists ([New 0] ++ go4 0), s, (run_ [Call 1 one 0] s), 0, 1. split; [apply run_ok; vm_compute; reflexivity|].
  split; [intros [|t]; vm_compute; reflexivity|].
  split; [eexists; split; vm_compute; reflexivity|]. split; [apply run_ok; vm_compute; reflexivity|]. split; [vm_compute; reflexivity|].
  split; [eexists; split; vm_compute; reflexivity|vm_compute; reflexivity].
Qed.
Print Assumptions C35_stale_refuted.
