(** * Calls keep the stacks balanced. *)
From Coq Require Import String List ZArith Bool Arith Lia.
From Verif Require Import Float64 Syntax InterpModel WfSpec SyntaxProofs BalanceBase BalanceEval.
Import ListNotations.
Local Open Scope string_scope.
Local Open Scope nat_scope.
Local Open Scope list_scope.

Section Calls.
Context (chk : bool) (E : env) (arity : string -> nat).
Notation wpq := (wp (quiet chk)).
Notation wf_v := (wf_v chk E arity).
Notation wf := (wf chk E arity).
Notation wf_item := (wf_item chk E arity).
Notation wf_clo := (wf_clo chk E arity).
Notation wf_state := (wf_state chk E arity).
Notation ready := (ready chk E arity).
Notation plus := (plus chk E arity).
Notation bal := (bal chk E arity).
Notation abv := (abv chk E arity).
Notation errs := (errs chk E arity).
Notation target := (target E).
Notation valued := (valued E).
Notation arg_ok := (arg_ok E).
Notation wfo := (wfo chk E arity).
Notation okpost := (okpost chk E arity).
Notation bpost := (bpost chk E arity).
Notation evspec := (evspec chk E arity).
Hypothesis HM : wf_mods chk E arity.
Hypothesis HX : ext_ok chk E arity.

Lemma plus_trans' : forall s0 s1 s2 d1 d2 nl1 nl2 nc1 nc2,
  plus s0 d1 nl1 nc1 s1 -> plus s1 d2 nl2 nc2 s2 -> plus s0 (d1 + d2) (nl2 ++ nl1) (nc2 ++ nc1) s2.
Proof. intros. eapply plus_trans; eauto. Qed.

Section WithEv.
Variable ev : expr -> side -> M res.
Hypothesis HE : evspec ev.

(** ** External functions *)

Lemma push_args_bp : forall args b md fi cs k s0 d s,
  thread_ok (wf md fi []) temps cs args -> plus s0 d [] [] s -> ready md fi cs s ->
  (forall s', plus s0 (d + length args) [] [] s' -> wpq k s' (bpost b s0) (errs s0)) ->
  wpq (push_args ev args k) s (bpost b s0) (errs s0).
Proof.
  induction args as [|e args IH]; intros b md fi cs k s0 d s Hw Hp Hr Hk; simpl.
  - apply Hk. rewrite Nat.add_0_r. auto.
  - destruct Hw as [Hw Hw']. unfold vexpr. apply wp_bind.
    eapply wp_mono; [apply (HE _ _ _ _ Right _ Hw Hr)| |intros; eapply plus_errs_trans; eauto].
    intros [o fl] s' H. pose proof (okpost_abv _ _ _ _ _ _ _ _ _ H) as Habv. destruct H as [H1 H2].
    cbn [fst snd] in *. pose proof (plus_abv_trans _ _ _ _ _ _ _ _ _ Hp Habv) as Habv0.
    destruct fl; destruct o as [v|]; try (apply wp_fail; apply abv_errs; assumption);
      try (apply wp_ret; split; [exact H1|exact Habv0]).
    destruct H2 as (H2 & H3 & H4).
    assert (is_swizzle e = false) as Sw.
    { destruct (is_swizzle e) eqn:S; auto. exfalso. assert (Some v = None) by auto. discriminate. }
    assert (adds e = []) as A.
    { destruct (adds e) eqn:A; auto. exfalso. assert (Some v = None) by (apply H4; left; discriminate). discriminate. }
    rewrite (adds_current_adds _ A), A in H2. simpl in H2. change (bal s s') in H2.
    assert (wf_state s') as Hs' by (apply (proj1 H2)).
    pose proof (plus_push chk E arity s' v Hs' H1) as P.
    pose proof (plus_bal _ _ _ _ _ _ _ _ _ H2 P) as P1.
    apply wp_bind. unfold push. apply wp_modify. eapply IH; [exact Hw'| | |].
    + apply (plus_trans' _ _ _ _ _ _ _ _ _ Hp P1).
    + assert (width e = 1) as W by (destruct e; auto; discriminate).
      eapply ready_temps; eauto. rewrite W. exact P1.
    + intros s2 H. apply Hk. simpl length. replace (d + S (length args)) with (d + 1 + length args) by lia. exact H.
Qed.

Lemma plus_ext_err : forall s0 k s s', plus s0 k [] [] s ->
  wf_state s' -> above (set_stack (firstn (length (r_stack s) - k) (r_stack s)) s) s' -> errs s0 s'.
Proof.
  intros s0 k s s' (A & B & C & D & F & G) Hs (H1 & H2 & H3 & H4 & H5). split; auto.
  unfold above in *. simpl in *. rewrite B, C, F, G in *. splits; auto.
  rewrite firstn_length in H3. lia.
Qed.

Lemma call_void_bp : forall md fi cs args g s,
  arity g = length args -> thread_ok (wf md fi []) temps cs args -> ready md fi cs s ->
  wpq (call_void E ev args g) s (bpost false s) (errs s).
Proof.
  intros md fi cs args g s Ha Hw Hr. unfold call_void.
  eapply push_args_bp with (d := 0); eauto; [apply bal_refl; eapply ready_wf; eauto|].
  intros s' Hp. simpl in Hp. apply wp_bind. unfold wp.
  assert (wf_state s') as Hs' by (apply (proj1 Hp)).
  pose proof (proj1 HX g s' Hs') as X.
  assert (arity g <= length (r_stack s')) as L by (destruct Hp as (_ & _ & _ & D & _); lia).
  specialize (X L). destruct (e_void E g s') as [u s2|m s2| |]; auto.
  - destruct X as (X1 & X2 & X3 & X4 & X5 & X6). destruct Hp as (A & B & C & D & F & G).
    split; [exact I|]. split; [|discriminate]. unfold BalanceBase.bal, BalanceBase.plus. simpl in *.
    splits; auto; try congruence. lia.
  - destruct X. eapply plus_ext_err; eauto. rewrite <- Ha. auto.
Qed.
Lemma ext_ret_bp : forall g k s0 s, arity g = k -> plus s0 k [] [] s ->
  wpq (v <- e_ret E g ;; ret (Some v, FContinue)) s (bpost true s0) (errs s0).
Proof.
  intros g k s0 s Ha Hp. apply wp_bind. unfold wp.
  assert (wf_state s) as Hs by (apply (proj1 Hp)).
  pose proof (proj1 (proj2 HX) g s Hs) as X.
  assert (arity g <= length (r_stack s)) as L by (destruct Hp as (_ & _ & _ & D & _); lia).
  specialize (X L). destruct (e_ret E g s) as [u s2|m s2| |]; auto.
  - destruct X as (X0 & X1 & X2 & X3 & X4 & X5 & X6). destruct Hp as (A & B & C & D & F & G).
    split; [exact X0|]. split; [|discriminate]. unfold BalanceBase.bal, BalanceBase.plus. simpl in *.
    splits; auto; try congruence. lia.
  - destruct X. eapply plus_ext_err; eauto. rewrite <- Ha. auto.
Qed.
Lemma call_return_bp : forall md fi cs args g s,
  arity g = length args -> thread_ok (wf md fi []) temps cs args -> ready md fi cs s ->
  wpq (call_return E ev args g) s (bpost true s) (errs s).
Proof.
  intros md fi cs args g s Ha Hw Hr. unfold call_return.
  eapply push_args_bp with (d := 0); eauto; [apply bal_refl; eapply ready_wf; eauto|].
  intros s' Hp. eapply ext_ret_bp; eauto.
Qed.

Lemma lazy_exit_wf : forall ls x v y, wf_v x -> wf_v v -> lazy_exit ls x v = Some y -> wf_v y.
Proof.
  induction ls as [|l ls IH]; intros x v y Hx Hv H; simpl in H; [discriminate|].
  destruct l.
  - destruct (veq v v0); [inversion H; subst; auto|eapply IH; [| |exact H]; auto].
  - destruct v; try (eapply IH; [| |exact H]; auto; fail). inversion H; subst. exact Hv.
  - destruct v; try (eapply IH; [| |exact H]; auto; fail). inversion H; subst. exact Hv.
  - destruct v; try (eapply IH; [| |exact H]; auto; fail). inversion H; subst. exact Hv.
Qed.
Lemma wp_lazy_check : forall inv i x s (Q : option value -> rt -> Prop) X, wf_state s -> wf_v x ->
  (forall o, wfo o -> (o <> None -> exists ls, nth_error inv i = Some ls /\ ls <> []) -> Q o s) ->
  wpq (lazy_check inv i x) s Q X.
Proof.
  intros inv i x s Q X Hs Hx HQ. unfold lazy_check. destruct (nth_error inv i) as [[|l ls]|] eqn:N.
  - apply wp_ret. apply HQ; [exact I|congruence].
  - apply wp_bind. apply (wp_getv chk E arity); auto. intros v Hv. apply wp_ret. apply HQ.
    + destruct (lazy_exit (l :: ls) x v) eqn:L; [|exact I]. eapply lazy_exit_wf; [| |exact L]; auto.
    + intros _. exists (l :: ls). split; congruence.
  - apply wp_ret. apply HQ; [exact I|congruence].
Qed.
Lemma push_lazy_bp : forall args inv i b md fi cs k s0 s,
  (forall j ls, nth_error inv (S j) = Some ls -> ls = []) ->
  thread_ok (wf md fi []) temps cs args -> plus s0 i [] [] s -> ready md fi cs s ->
  (forall s', plus s0 (i + length args) [] [] s' -> wpq k s' (bpost b s0) (errs s0)) ->
  wpq (push_lazy ev inv i args k) s (bpost b s0) (errs s0).
Proof.
  induction args as [|e args IH]; intros inv i b md fi cs k s0 s HL Hw Hp Hr Hk; simpl.
  - apply Hk. rewrite Nat.add_0_r. auto.
  - destruct Hw as [Hw Hw']. unfold vexpr. apply wp_bind.
    eapply wp_mono; [apply (HE _ _ _ _ Right _ Hw Hr)| |intros; eapply plus_errs_trans; eauto].
    intros [o fl] s' H. pose proof (okpost_abv _ _ _ _ _ _ _ _ _ H) as Habv. destruct H as [H1 H2].
    cbn [fst snd] in *. pose proof (plus_abv_trans _ _ _ _ _ _ _ _ _ Hp Habv) as Habv0.
    destruct fl; destruct o as [v|]; try (apply wp_fail; apply abv_errs; assumption);
      try (apply wp_ret; split; [exact H1|exact Habv0]).
    destruct H2 as (H2 & H3 & H4).
    assert (is_swizzle e = false) as Sw.
    { destruct (is_swizzle e) eqn:S; auto. exfalso. assert (Some v = None) by auto. discriminate. }
    assert (adds e = []) as A.
    { destruct (adds e) eqn:A; auto. exfalso. assert (Some v = None) by (apply H4; left; discriminate). discriminate. }
    rewrite (adds_current_adds _ A), A in H2. simpl in H2. change (bal s s') in H2.
    assert (wf_state s') as Hs' by (apply (proj1 H2)).
    pose proof (plus_push chk E arity s' v Hs' H1) as P.
    pose proof (plus_bal _ _ _ _ _ _ _ _ _ H2 P) as P1.
    apply wp_bind. apply wp_lazy_check; auto. intros o Ho Hn. destruct o as [y|].
    + destruct (Hn ltac:(discriminate)) as (ls & N & NE). destruct i as [|i].
      * apply wp_ret. split; [exact Ho|]. split; [eapply plus_bal; [exact Hp|exact H2]|discriminate].
      * exfalso. apply NE. eapply HL; eauto.
    + apply wp_bind. unfold push. apply wp_modify. eapply IH; [exact HL|exact Hw'| | |].
      * replace (S i) with (i + 1) by lia. apply (plus_trans' _ _ _ _ _ _ _ _ _ Hp P1).
      * assert (width e = 1) as W by (destruct e; auto; discriminate).
        eapply ready_temps; eauto. rewrite W. exact P1.
      * intros s2 H. apply Hk. simpl length. replace (i + S (length args)) with (S i + length args) by lia. exact H.
Qed.
Lemma call_lazy_bp : forall md fi cs args g s,
  arity g = length args -> thread_ok (wf md fi []) temps cs args -> ready md fi cs s ->
  wpq (call_lazy E ev args g) s (bpost true s) (errs s).
Proof.
  intros md fi cs args g s Ha Hw Hr. unfold call_lazy.
  eapply push_lazy_bp; eauto; [|apply bal_refl; eapply ready_wf; eauto|].
  - intros j ls N. destruct HX as (_ & _ & _ & _ & X). eapply X; eauto.
  - intros s' Hp. eapply ext_ret_bp; eauto.
Qed.
Lemma wp_lift : forall p s0 s, bal s0 s -> match p with POk v => wf_v v | PPanic w => quiet chk w | PErr _ => True end ->
  wpq (lift p) s (bpost true s0) (errs s0).
Proof.
  intros p s0 s Hb Hv. destruct p; simpl.
  - apply wp_ret. split; [exact Hv|]. split; [exact Hb|discriminate].
  - apply wp_fail. eapply plus_errs; eauto.
  - apply wp_panic. exact Hv.
Qed.
Lemma call_binop_bp : forall md fi cs args g s, all_ok (wf md fi [] cs) args -> (chk = true -> 2 <= length args) -> ready md fi cs s ->
  wpq (call_binop E ev args g) s (bpost true s) (errs s).
Proof.
  intros md fi cs args g s Hw HL Hr. unfold call_binop. destruct args as [|l [|r args]]; try (apply wp_panic; intros C; specialize (HL C); cbn in HL; lia).
  destruct Hw as (Hl & Hrr & _).
  eapply vexpr_bp; eauto; [apply bal_refl; eapply ready_wf; eauto|]. intros a s1 Ha Hp1 Hr1.
  eapply vexpr_bp; eauto. intros b s2 Hb Hp2 Hr2.
  assert (wf_state s2) as Hs2 by (apply (proj1 Hp2)).
  apply wp_bind. apply (wp_getv chk E arity); auto. intros av Hav.
  apply wp_bind. apply (wp_getv chk E arity); auto. intros bv Hbv.
  apply wp_lift; auto. destruct HX as (_ & _ & X & _). exact (X _ _ _ Hav Hbv).
Qed.
Lemma call_unop_bp : forall md fi cs args g s, all_ok (wf md fi [] cs) args -> (chk = true -> 1 <= length args) -> ready md fi cs s ->
  wpq (call_unop E ev args g) s (bpost true s) (errs s).
Proof.
  intros md fi cs args g s Hw HL Hr. unfold call_unop. destruct args as [|l args]; try (apply wp_panic; intros C; specialize (HL C); cbn in HL; lia).
  destruct Hw as (Hl & _).
  eapply vexpr_bp; eauto; [apply bal_refl; eapply ready_wf; eauto|]. intros a s1 Ha Hp1 Hr1.
  assert (wf_state s1) as Hs2 by (apply (proj1 Hp1)).
  apply wp_bind. apply (wp_getv chk E arity); auto. intros av Hav.
  apply wp_lift; auto. destruct HX as (_ & _ & _ & X & _). exact (X _ _ Hav).
Qed.

(** ** Loaded functions and closures *)

(** State while the arguments of a call are pushed; [s1] is the state after the return slot. *)
Definition args_inv (s1 : rt) (d : nat) (s : rt) : Prop :=
  abv s1 s /\ (chk = true -> plus s1 d [] [] s).

Lemma push_loaded_bp : forall args i b md fi cs k s0 r s1 d s,
  plus s0 r [] [] s1 ->
  thread_ok (wf md fi []) temps cs args -> (chk = true -> all_ok (arg_ok md fi) args) ->
  args_inv s1 d s -> ready md fi cs s ->
  (forall s', args_inv s1 (d + widths args) s' -> wpq k s' (bpost b s0) (errs s0)) ->
  wpq (push_loaded ev [] i args k) s (bpost b s0) (errs s0).
Proof.
  induction args as [|e args IH]; intros i b md fi cs k s0 r s1 d s Hp0 Hw Ha [Hi1 Hi2] Hr Hk; simpl.
  - apply Hk. simpl. rewrite Nat.add_0_r. split; auto.
  - destruct Hw as [Hw Hw']. apply wp_bind.
    assert (forall s', errs s s' -> errs s0 s') as HEr.
    { intros s' [X1 X2]. split; auto. eapply above_trans; [eapply plus_above; eauto|].
      eapply above_trans; eauto. apply Hi1. }
    assert (forall s', abv s s' -> abv s1 s') as HAb.
    { intros s' (X1 & X2 & X3). destruct Hi1 as (Y1 & Y2 & Y3). split; auto. split; [eapply above_trans; eauto|congruence]. }
    eapply wp_mono; [apply (HE _ _ _ _ Right _ Hw Hr)| |exact HEr].
    intros [o fl] s' H. pose proof (okpost_abv _ _ _ _ _ _ _ _ _ H) as Habv. destruct H as [H1 H2].
    cbn [fst snd] in *.
    assert (abv s0 s') as Habv0 by (eapply plus_abv_trans; eauto).
    destruct fl; destruct o as [v|]; try (apply wp_fail; apply abv_errs; assumption);
      try (apply wp_ret; split; [exact H1|exact Habv0]).
    + destruct H2 as (H2 & H3 & H4).
      assert (is_swizzle e = false) as Sw.
      { destruct (is_swizzle e) eqn:S; auto. exfalso. assert (Some v = None) by auto. discriminate. }
      assert (adds e = []) as A.
      { destruct (adds e) eqn:A; auto. exfalso. assert (Some v = None) by (apply H4; left; discriminate). discriminate. }
      rewrite (adds_current_adds _ A), A in H2. simpl in H2. change (bal s s') in H2.
      assert (width e = 1) as W by (destruct e; auto; discriminate).
      assert (wf_state s') as Hs' by (apply (proj1 H2)).
      pose proof (plus_push chk E arity s' v Hs' H1) as P.
      pose proof (plus_bal _ _ _ _ _ _ _ _ _ H2 P) as P1.
      apply wp_bind. unfold lazy_check.
      replace (nth_error (@nil (list lazy)) i) with (@None (list lazy)) by (destruct i; reflexivity).
      apply wp_ret. apply wp_bind. unfold push. apply wp_modify.
      eapply IH; [exact Hp0|exact Hw'| | | |].
      * intros C. apply (Ha C).
      * split; [apply HAb; eapply plus_abv; exact P1|].
        intros C. apply (plus_trans' _ _ _ _ _ _ _ _ _ (Hi2 C) P1).
      * eapply ready_temps; eauto. rewrite W. exact P1.
      * intros s2 H. apply Hk. simpl. rewrite W. replace (d + (1 + widths args)) with (d + 1 + widths args) by lia. exact H.
    + destruct H2 as (H2 & H3 & H4).
      assert (chk = true -> plus s (width e) [] [] s') as P.
      { intros C. destruct (Ha C) as [[Sw|V] _]; [eapply plus_temps; eauto|exfalso; apply H3; auto]. }
      eapply IH; [exact Hp0|exact Hw'| | | |].
      * intros C. apply (Ha C).
      * split; [apply HAb; exact Habv|].
        intros C. apply (plus_trans' _ _ _ _ _ _ _ _ _ (Hi2 C) (P C)).
      * destruct (Bool.bool_dec chk true) as [C|C].
        { eapply ready_temps; eauto. }
        { apply not_true_is_false in C. eapply ready_nochk; [exact C|].
          apply (ready_plus chk E arity md fi cs s (adds e) _ s' Hr H2). }
      * intros s2 H. apply Hk. simpl. replace (d + (width e + widths args)) with (d + width e + widths args) by lia. exact H.
Qed.

Lemma wp_push_currents : forall names s, wf_state s ->
  wpq (push_currents names) s
     (fun _ s' => plus s (length names) (frame_locals (length (r_stack s)) (rev (map Some names))) [] s') (errs s).
Proof.
  induction names as [|c names IH]; intros s Hs; simpl.
  - apply wp_ret. apply bal_refl; auto.
  - apply wp_bind, wp_gets. destruct (assoc c (r_currents s)) as [ind|]; [|apply wp_fail; eapply plus_errs; apply bal_refl; auto].
    apply wp_bind, wp_gets. apply wp_bind. unfold push_local. apply wp_modify.
    apply wp_bind. unfold push. apply wp_modify.
    set (s' := set_stack _ _).
    assert (plus s 1 [(c, length (r_stack s))] [] s') as P.
    { unfold BalanceBase.plus, s'. simpl. destruct Hs as [A B]. splits; auto.
      - split; simpl; auto. apply Forall_app. split; auto. constructor; auto. exact I.
      - rewrite app_length. reflexivity. }
    eapply wp_mono; [apply IH; apply (proj1 P)| |intros; eapply plus_errs_trans; eauto].
    intros u s2 H. pose proof (plus_trans' _ _ _ _ _ _ _ _ _ P H) as Q. simpl in Q.
    replace (frame_locals (length (r_stack s)) (rev (map Some names) ++ [Some c]))
      with (frame_locals (length (r_stack s')) (rev (map Some names)) ++ [(c, length (r_stack s))]); [exact Q|].
    rewrite frame_locals_app. simpl. rewrite app_length, !Nat.add_0_r. reflexivity.
Qed.

Lemma wp_deep_all : forall n vs s (Q : list value -> rt -> Prop) X, wf_state s -> Forall wf_v vs ->
  (forall ws, Forall wf_v ws -> Q ws s) -> wpq (deep_all n vs) s Q X.
Proof.
  intros n vs. induction vs as [|v vs IH]; intros s Q X Hs Hv HQ; simpl.
  - apply wp_ret. apply HQ. constructor.
  - inversion Hv; subst. apply wp_bind. apply (wp_deep chk E arity); auto. intros w Hw.
    apply wp_bind. apply IH; auto. intros ws Hws. apply wp_ret. apply HQ. constructor; auto.
Qed.
Lemma send_all_wf : forall chans msg qs, wf_v msg -> Forall (Forall wf_v) qs -> Forall (Forall wf_v) (send_all chans msg qs).
Proof.
  intros chans. induction chans as [|c chans IH]; intros msg qs Hm Hq; simpl; auto.
  unfold send_all in *. simpl. apply IH; auto. destruct (nth_error qs c) eqn:N; auto.
  apply Forall_list_set; auto. apply Forall_app. split; auto. eapply nth_error_Forall; eauto.
Qed.
Lemma wp_send_args : forall n fi st s, wf_state s ->
  wpq (send_args n fi st) s (fun _ s' => bal s s' /\ r_stack s' = r_stack s) (errs s).
Proof.
  intros n fi st s Hs. unfold send_args. apply wp_bind, wp_gets. apply wp_bind, wp_gets. cbv zeta.
  destruct (map snd _) as [|c chans]; [apply wp_ret; split; auto; apply bal_refl; auto|].
  apply wp_bind, wp_gets. apply wp_bind. destruct Hs as [A B].
  apply wp_deep_all; [split; auto|apply Forall_skipn; auto|]. intros ws Hws. apply wp_modify. split; auto.
  unfold BalanceBase.bal, BalanceBase.plus. simpl. splits; auto. split; simpl; auto.
  assert (wf_v (VArray ws)) as Hm by (apply wf_VArray; auto).
  exact (send_all_wf (c :: chans) (VArray ws) _ Hm B).
Qed.

Lemma push_arg_locals_eq : forall names st i s,
  push_arg_locals st i names s =
  Ok tt (set_locals (frame_locals (st + i) (rev (map Some names)) ++ r_locals s) s).
Proof.
  induction names as [|a names IH]; intros st i s; simpl.
  - unfold ret. destruct s; reflexivity.
  - unfold bind, push_local, modify. rewrite IH. f_equal. rewrite frame_locals_app.
    unfold set_locals. simpl. rewrite <- app_assoc. simpl. rewrite !Nat.add_0_r, Nat.add_1_r, Nat.add_succ_r. reflexivity.
Qed.

(** What a call must find when its body has ended: [s1] is the state after the return slot. *)
Lemma wp_leave : forall src (returns : bool) x name c s0 s1 s5,
  plus s0 (if returns then 1 else 0) [] [] s1 -> wfo x ->
  c_name c = name -> c_stack c = length (r_stack s1) -> c_local c = length (r_locals s1) ->
  c_current c = length (r_currents s1) ->
  wf_state s5 -> r_mod s5 = r_mod s0 -> r_calls s5 = c :: r_calls s0 ->
  length (r_stack s1) <= length (r_stack s5) ->
  (exists l, r_locals s5 = l ++ r_locals s1) -> (exists l, r_currents s5 = l ++ r_currents s1) ->
  (forall s (Q : unit -> rt -> Prop) (X : rt -> Prop), Q tt s -> X s -> wpq src s Q X) ->
  wpq (pop_fn name ;;; finish src returns x) s5 (bpost returns s0) (errs s0).
Proof.
  intros src returns x name c s0 s1 s5 Hp Hx Hn Hst Hl Hc Hs5 Hm Hcs Hlen [ll Hll] [lcu Hcu] Hsrc.
  apply wp_bind. unfold wp, pop_fn. rewrite Hcs, Hn, String.eqb_refl.
  unfold bind, trunc_stack, trunc_locals, trunc_currents, modify. simpl.
  rewrite Hst, Hl, Hc, Hll, Hcu, !trunc_top_app.
  set (s6 := set_currents _ _).
  assert (plus s0 (if returns then 1 else 0) [] [] s6) as P.
  { destruct Hp as (A & B & C & D & F & G). destruct Hs5 as [A1 A2].
    unfold BalanceBase.plus, s6. simpl. splits; auto.
    - split; simpl; auto. apply Forall_firstn; auto.
    - rewrite firstn_length. lia. }
  clearbody s6. change (wpq (finish src returns x) s6 (bpost returns s0) (errs s0)).
  assert (forall m, wpq (src ;;; fail m) s6 (bpost returns s0) (errs s0)) as K.
  { intros m. apply wp_bind. apply Hsrc; [apply wp_fail|]; eapply plus_errs; eauto. }
  assert (returns = true -> bal s0 (set_stack (removelast (r_stack s6)) s6)) as K2.
  { intros ->. destruct P as ([A1 A2] & B & C & D & F & G).
    unfold BalanceBase.bal, BalanceBase.plus. simpl. splits; auto.
    - split; simpl; auto. apply Forall_removelast; auto.
    - rewrite removelast_length. lia. }
  unfold finish. destruct returns.
  - destruct x as [v|].
    + assert (wpq (modify (fun s => set_stack (removelast (r_stack s)) s);;; ret (Some v, FContinue)) s6
        (bpost true s0) (errs s0)) as K3.
      { apply wp_bind, wp_modify, wp_ret. split; [exact Hx|]. split; [apply K2; auto|discriminate]. }
      destruct v; try exact K3. apply K.
    + apply wp_bind. eapply wp_pop; [exact P|]. intros v s' Hv Hb.
      assert (wpq (ret (Some v, FContinue)) s' (bpost true s0) (errs s0)) as K3.
      { apply wp_ret. split; [exact Hv|]. split; [exact Hb|discriminate]. }
      destruct v; try exact K3. apply wp_bind. apply Hsrc; [apply wp_fail|]; eapply plus_errs; eauto.
  - destruct x as [v|]; [apply K|]. apply wp_ret. split; [exact I|]. split; [exact P|discriminate].
Qed.

Lemma wp_body_flow : forall fl s (Q : unit -> rt -> Prop) (X : rt -> Prop),
  Q tt s -> X s -> wpq (body_flow fl) s Q X.
Proof. intros. destruct fl as [| |[]|[]]; simpl; try (apply wp_fail; auto); apply wp_ret; auto. Qed.

Lemma frame_locals_In : forall base cs x n, In (x, n) (frame_locals base cs) -> In (Some x) cs.
Proof.
  intros base cs x n. induction cs as [|[y|] cs IH]; simpl; auto.
  intros [H|H]; [inversion H; subst; auto|auto].
Qed.
Lemma assoc_entry : forall base names x, assoc x (frame_locals base (rev (map Some names))) <> None -> In x names.
Proof.
  intros base names x H. destruct (assoc x (frame_locals base (rev (map Some names)))) eqn:A; [|congruence].
  apply assoc_In, frame_locals_In, in_rev in A.
  apply in_map_iff in A. destruct A as (z & Z1 & Z2). inversion Z1; subst; auto.
Qed.

(** The locals pushed for a call give the same answers as the scope of its body. *)
Lemma entry_locals : forall (returns : bool) args currents st l n, disjoint_names currents args ->
  n = length l -> (returns = true -> 1 <= st) ->
  forall x,
  assoc x (firstn (length (frame_locals st (rev (map Some args)) ++
                     (if returns then [("return", st - 1)] else []) ++
                     frame_locals (st + length args) (rev (map Some currents)) ++ l) - n)
             (frame_locals st (rev (map Some args)) ++
              (if returns then [("return", st - 1)] else []) ++
              frame_locals (st + length args) (rev (map Some currents)) ++ l)) =
  assoc x (frame_locals (if returns then st - 1 else st) (entry returns args currents)).
Proof.
  intros returns args currents st l n Hd -> Hst x.
  set (A := frame_locals st (rev (map Some args))).
  set (C := frame_locals (st + length args) (rev (map Some currents))).
  set (R := if returns then [("return", st - 1)] else []).
  replace (A ++ R ++ C ++ l) with ((A ++ R ++ C) ++ l) by (rewrite <- !app_assoc; reflexivity).
  assert (length ((A ++ R ++ C) ++ l) - length l = length (A ++ R ++ C) + 0) as -> by (rewrite app_length; lia).
  rewrite firstn_app_2. simpl. rewrite app_nil_r.
  assert (frame_locals (if returns then st - 1 else st) (entry returns args currents) = C ++ A ++ R) as ->.
  { unfold entry. repeat rewrite ?map_app, ?rev_app_distr, ?frame_locals_app, ?app_length, ?rev_length, ?map_length.
    rewrite <- app_assoc. unfold C, A, R. destruct returns; simpl length; cbv iota.
    - specialize (Hst eq_refl). replace (st - 1 + 1) with st by lia. simpl. rewrite Nat.add_0_r. reflexivity.
    - rewrite Nat.add_0_r. reflexivity. }
  rewrite !assoc_app. unfold C, A.
  destruct (assoc x (frame_locals (st + length args) (rev (map Some currents)))) eqn:EC.
  - assert (In x currents) as IC by (apply (assoc_entry (st + length args)); rewrite EC; discriminate).
    specialize (Hd x IC).
    destruct (assoc x (frame_locals st (rev (map Some args)))) eqn:EA.
    { exfalso. apply Hd. right. apply (assoc_entry st). rewrite EA. discriminate. }
    unfold R. destruct returns; auto. cbn [assoc]. destruct (String.eqb "return" x) eqn:EX; auto.
    exfalso. apply Hd. left. apply String.eqb_eq in EX. auto.
  - destruct (assoc x (frame_locals st (rev (map Some args)))); auto. destruct (assoc x R); auto.
Qed.

(** From the arguments on, the state before the body of a call. *)
Lemma ready_entry : forall md fi (returns : bool) args currents s0 s1 s3 c,
  plus s0 (if returns then 1 else 0) [] [] s1 ->
  abv s1 s3 ->
  (chk = true -> plus s1 (length args + length currents)
      (frame_locals (length (r_stack s1) + length args) (rev (map Some currents))) [] s3) ->
  (chk = true -> disjoint_names currents args) ->
  c_index c = fi -> c_local c = length (r_locals s1) -> (chk = true -> nth_error (e_mods E) md <> None) ->
  ready md fi (entry returns args currents)
    (set_mod md (set_locals (frame_locals (length (r_stack s1)) (rev (map Some args)) ++
                  (if returns then [("return", length (r_stack s1) - 1)] else []) ++ r_locals s3)
       (set_calls (c :: r_calls s3) s3))).
Proof.
  intros md fi returns args currents s0 s1 s3 c Hp Ha Hchk Hd Hfi Hcl Hmod. unfold WfSpec.ready.
  simpl. splits; auto.
  - destruct (proj1 Ha). split; auto.
  - intros C. specialize (Hchk C). specialize (Hd C).
    split; [|exact (Hmod C)]. exists c, (r_calls s3), (if returns then length (r_stack s1) - 1 else length (r_stack s1)).
    destruct Hchk as (A & B & C' & D & F & G). destruct Hp as (PA & PB & PC & PD & PF & PG).
    simpl. splits; auto.
    + rewrite Hcl, F, !app_length. lia.
    + unfold entry. rewrite D, rev_length, map_length, !app_length. destruct returns; simpl; lia.
    + rewrite Hcl, F. apply entry_locals; auto. intros ->. lia.
Qed.

(** [args] can be pushed, after [s1] is reached from [s]. *)
Definition pushes (args : list expr) (b : bool) (r : nat) (s : rt) : Prop := forall k s1, plus s r [] [] s1 ->
  (forall s', args_inv s1 (widths args) s' -> wpq k s' (bpost b s) (errs s)) ->
  wpq (push_loaded ev [] 0 args k) s1 (bpost b s) (errs s).
Lemma call_loaded_pushes : forall n md args i name (loader : bool) fi' f s,
  wf_state s -> r_mod s = md -> (if loader then 0 else top_of s) = fi' ->
  target md fi' i = Some f ->
  pushes args (fn_ret f) (if fn_ret f then 1 else 0) s ->
  (chk = true -> widths args = length (fn_args f)) ->
  wpq (call_loaded E ev n args i name loader) s (bpost (fn_ret f) s) (errs s).
Proof.
  intros n md args i name loader fi' f s Hs Hmd Hfi Ht Hpush Hc.
  unfold call_loaded. apply wp_bind. unfold top_index. apply wp_gets. cbv zeta.
  apply wp_bind, wp_gets.
  rewrite Hmd.
  fold (top_of s).
  assert ((i + Z.of_nat (if loader then 0 else top_of s))%Z = (i + Z.of_nat fi')%Z) as -> by (rewrite Hfi; reflexivity).
  pose proof Ht as Ht'. unfold WfSpec.target in Ht'. cbv zeta in Ht'.
  destruct (nth_error (e_mods E) md) as [m|] eqn:Em; [|destruct (i + Z.of_nat fi' <? 0)%Z; discriminate].
  destruct (i + Z.of_nat fi' <? 0)%Z; [discriminate|]. rewrite Ht'.
  set (zi := Z.to_nat (i + Z.of_nat fi')%Z) in *.
  destruct (HM md m zi f Em Ht') as (Hlazy & Hblock & Hdis).
  assert (forall s1, plus s (if fn_ret f then 1 else 0) [] [] s1 ->
    wpq (st <- stack_len;; lc <- local_len;; cu <- current_len;;
      push_loaded ev (fn_lazy f) 0 args
        (push_currents (fn_currents f);;;
         send_args n zi st;;;
         push_fn (Call name zi st lc cu);;;
         (if fn_ret f then push_local "return" (st - 1) else ret tt);;;
         push_arg_locals st 0 (fn_args f);;;
         r <- block ev (fn_block f);; body_flow (snd r);;; pop_fn name;;; finish (caller_source E) (fn_ret f) (fst r)))
      s1 (bpost (fn_ret f) s) (errs s)) as K.
  { intros s1 Hp1. apply wp_bind, wp_gets. apply wp_bind, wp_gets. apply wp_bind, wp_gets.
    rewrite Hlazy. assert (wf_state s1) as Hs1 by (apply (proj1 Hp1)).
    apply (Hpush _ _ Hp1).
    - intros s2 [Hi1 Hi2]. simpl in Hi2.
      apply wp_bind. eapply wp_mono; [apply wp_push_currents; apply (proj1 Hi1)| |].
      2: { intros s' [X1 X2]. split; auto. eapply above_trans; [eapply plus_above; eauto|]. eapply above_trans; [|exact X2]. apply Hi1. }
      intros u s3 P3. apply wp_bind.
      assert (forall s', above s1 s' -> above s s') as Ab by (intros; eapply above_trans; [eapply plus_above; eauto|auto]).
      assert (abv s1 s3) as A3.
      { destruct Hi1 as (X1 & X2 & X3). destruct (plus_abv _ _ _ _ _ _ _ _ P3) as (Y1 & Y2 & Y3). split; auto.
        split; [eapply above_trans; eauto|congruence]. }
      eapply wp_mono; [apply wp_send_args; apply (proj1 P3)| |].
      2: { intros s' [X1 X2]. split; auto. apply Ab. eapply above_trans; [|exact X2]. apply A3. }
      intros u' s4 [B4 St4]. 
      assert (abv s1 s4) as A4.
      { destruct A3 as (X1 & X2 & X3). destruct (plus_abv _ _ _ _ _ _ _ _ B4) as (Y1 & Y2 & Y3). split; auto.
        split; [eapply above_trans; eauto|congruence]. }
      set (c := Call name zi (length (r_stack s1)) (length (r_locals s1)) (length (r_currents s1))).
      set (s5 := set_locals (frame_locals (length (r_stack s1)) (rev (map Some (fn_args f))) ++
                  (if fn_ret f then [("return", length (r_stack s1) - 1)] else []) ++ r_locals s4)
                 (set_calls (c :: r_calls s4) s4)).
      assert (s5 = set_mod md s5) as Hmd5.
      { unfold s5, set_mod, set_locals, set_calls. simpl.
        replace md with (r_mod s4); [reflexivity|].
        destruct A4 as (_ & (X & _) & _). destruct Hp1 as (_ & Y & _). congruence. }
      assert (ready md zi (entry (fn_ret f) (fn_args f) (fn_currents f)) s5) as R5.
      { rewrite Hmd5. eapply ready_entry; eauto; [|congruence].
        intros C. specialize (Hi2 C). rewrite (Hc C) in Hi2.
        pose proof (plus_trans' _ _ _ _ _ _ _ _ _ Hi2 P3) as P. rewrite app_nil_r in P. simpl in P.
        assert (length (r_stack s2) = length (r_stack s1) + length (fn_args f)) as L by (apply Hi2).
        rewrite L in P. eapply bal_plus; eauto. }
      assert (wpq (r <- block ev (fn_block f);; body_flow (snd r);;; pop_fn name;;; finish (caller_source E) (fn_ret f) (fst r))
         s5 (bpost (fn_ret f) s) (errs s)) as Body.
      { assert (above s s5) as As5.
        { apply Ab. destruct A4 as (_ & (X1 & X2 & X3 & (l2 & X4) & X5) & X6). unfold s5, above. simpl. splits; auto.
          - destruct X2 as [l X2]. exists (c :: l). rewrite X2. reflexivity.
          - rewrite X4, app_assoc, app_assoc. eauto. }
        apply wp_bind. eapply wp_mono; [eapply (wp_block chk E arity ev HE); [exact Hblock|exact R5]| |].
        2: { intros s' [X1 X2]. split; auto. eapply above_trans; eauto. }
        intros r s6 (W6 & B6 & _). apply wp_bind. apply wp_body_flow.
        2: { split; [apply (proj1 B6)|]. eapply above_trans; [exact As5|eapply plus_above; eauto]. }
        destruct A4 as (X0 & (X1 & X2 & X3 & (l4 & X4) & (l5 & X5)) & X6).
        destruct B6 as (Y0 & Y1 & Y2 & Y3 & Y4 & Y5). destruct Hp1 as (Z0 & Z1 & Z2 & Z3 & Z4 & Z5).
        unfold s5 in Y1, Y2, Y3, Y4, Y5. simpl in Y1, Y2, Y3, Y4, Y5.
        apply (wp_leave (caller_source E) (fn_ret f) (fst r) name c s s1 s6); auto; try reflexivity.
        - unfold BalanceBase.plus. splits; auto.
        - congruence.
        - rewrite Y2, X6, Z2. reflexivity.
        - lia.
        - rewrite Y4, X4, app_assoc, app_assoc. eauto.
        - rewrite Y5, X5. eauto.
        - intros sx Q X HQ HXX. unfold wp, caller_source. destruct (r_calls sx); auto.
          destruct (nth_error (e_mods E) (r_mod sx)); auto. destruct (_ <? _); auto. }
      apply wp_bind. unfold push_fn. apply wp_modify. apply wp_bind.
      assert (forall sL, sL = set_locals ((if fn_ret f then [("return", length (r_stack s1) - 1)] else []) ++ r_locals s4)
          (set_calls (c :: r_calls s4) s4) ->
        wpq (push_arg_locals (length (r_stack s1)) 0 (fn_args f);;;
            r <- block ev (fn_block f);; body_flow (snd r);;; pop_fn name;;; finish (caller_source E) (fn_ret f) (fst r))
          sL (bpost (fn_ret f) s) (errs s)) as K2.
      { intros sL ->. apply wp_bind. unfold wp at 1. rewrite push_arg_locals_eq.
        rewrite Nat.add_0_r. exact Body. }
      destruct (fn_ret f); [unfold push_local; apply wp_modify|apply wp_ret]; apply K2; reflexivity. }
  apply wp_bind. destruct (fn_ret f).
  - unfold push. apply wp_modify. apply K. apply plus_push; auto. exact I.
  - apply wp_ret. apply K; auto. apply bal_refl; auto.
Qed.
Lemma call_loaded_bp : forall n md fi cs args i name (loader : bool) fi' f s,
  ready md fi cs s -> (if loader then 0 else top_of s) = fi' ->
  target md fi' i = Some f ->
  thread_ok (wf md fi []) temps (if fn_ret f then None :: cs else cs) args ->
  (chk = true -> all_ok (arg_ok md fi) args /\ widths args = length (fn_args f)) ->
  wpq (call_loaded E ev n args i name loader) s (bpost (fn_ret f) s) (errs s).
Proof.
  intros n md fi cs args i name loader fi' f s Hr Hfi Ht Hw Hc. assert (wf_state s) as Hs by (eapply ready_wf; eauto).
  eapply (call_loaded_pushes n md); eauto; [apply Hr| |intros C; apply (Hc C)]. intros k s1 Hp1 Hk.
  assert (wf_state s1) as Hs1 by (apply (proj1 Hp1)).
  eapply push_loaded_bp with (s1 := s1) (d := 0) (cs := if fn_ret f then None :: cs else cs); eauto.
  - intros C. apply (Hc C).
  - split; [eapply plus_abv; apply bal_refl; auto|intros; apply bal_refl; auto].
  - destruct (fn_ret f); [apply (ready_plus chk E arity md fi cs s [None] [] s1 Hr); exact Hp1|eapply ready_bal; eauto].
Qed.

Lemma arg_len_widths : forall args, arg_len args = widths args.
Proof.
  intros args. unfold arg_len.
  assert (forall k, fold_left (fun n a => match a with ESwizzle inds _ => n + length inds | _ => S n end) args k
                    = k + widths args) as K; [|apply (K 0)].
  induction args as [|e args IH]; intros k; simpl; [lia|]. rewrite IH. destruct e; simpl; lia.
Qed.

Lemma call_closure_bp : forall md fi cs it args s,
  wf md fi [] cs (ECallClosure it args) -> ready md fi cs s ->
  wpq (call_closure E ev it args) s (bpost true s) (errs s).
Proof.
  intros md fi cs it args s Hw Hr.
  change (wf_item md fi [] cs it /\ thread_ok (wf md fi []) temps (None :: cs) args /\
      (chk = true -> all_ok (arg_ok md fi) args)) in Hw.
  destruct Hw as (Hit & Hargs & Hchk).
  unfold call_closure. apply wp_bind.
  eapply wp_mono; [eapply (item_bp chk E arity ev HE); [exact Hit|exact Hr]| |auto].
  intros [o fl] s' [H1 H2]. cbn [fst snd] in *.
  assert (wf_state s) as Hs by (eapply ready_wf; eauto).
  destruct fl; destruct o as [x|];
    try (apply wp_ret; split; [exact H1|exact H2]); try (apply wp_fail; apply abv_errs; apply H2).
  2: { apply wp_fail. eapply plus_errs. apply (proj1 H2). }
  destruct H2 as [Hb _]. assert (wf_state s') as Hs' by (apply (proj1 Hb)).
  assert (ready md fi cs s') as Hr' by (eapply ready_bal; eauto).
  apply wp_bind. apply (wp_getv chk E arity); auto. intros v Hv.
  destruct v; try (apply wp_fail; eapply plus_errs; eauto). destruct c as [cargs currents body].
  cbv zeta. destruct (Nat.eqb (arg_len args) (length cargs)) eqn:EL; [|apply wp_fail; eapply plus_errs; eauto].
  apply Nat.eqb_eq in EL. rewrite arg_len_widths in EL.
  set (name := match it with Item name _ _ _ _ _ => name end).
  change ((wf md0 rel [] (entry true cargs currents) body /\ (chk = true -> disjoint_names currents cargs)) /\ (chk = true -> nth_error (e_mods E) md0 <> None)) in Hv.
  destruct Hv as [[Hbody Hdis] Hmod].
  apply wp_bind. unfold push. apply wp_modify.
  pose proof (plus_push chk E arity s' VReturn Hs' I) as Pp.
  pose proof (plus_bal _ _ _ _ _ _ _ _ _ Hb Pp) as Hp1.
  pose proof (ready_push chk E arity md fi cs s' VReturn Hr' I) as Hr1.
  set (s1 := set_stack (r_stack s' ++ [VReturn]) s') in *. clearbody s1.
  apply wp_bind, wp_gets. apply wp_bind, wp_gets. apply wp_bind, wp_gets.
  assert (wf_state s1) as Hs1 by (apply (proj1 Hp1)).
  eapply push_loaded_bp with (s1 := s1) (d := 0); eauto.
  { split; [eapply plus_abv; apply bal_refl; auto|intros; apply bal_refl; auto]. }
  intros s2 [Hi1 Hi2]. simpl in Hi2.
  assert (forall s', above s1 s' -> above s s') as Ab by (intros; eapply above_trans; [eapply plus_above; eauto|auto]).
  apply wp_bind. eapply wp_mono; [apply wp_push_currents; apply (proj1 Hi1)| |].
  2: { intros sx [X1 X2]. split; auto. apply Ab. eapply above_trans; [|exact X2]. apply Hi1. }
  intros u s3 P3.
  assert (abv s1 s3) as A3.
  { destruct Hi1 as (X1 & X2 & X3). destruct (plus_abv _ _ _ _ _ _ _ _ P3) as (Y1 & Y2 & Y3). split; auto.
    split; [eapply above_trans; eauto|congruence]. }
  set (c := Call name rel (length (r_stack s1)) (length (r_locals s1)) (length (r_currents s1))).
  set (s5 := set_locals (frame_locals (length (r_stack s1)) (rev (map Some cargs)) ++
              [("return", length (r_stack s1) - 1)] ++ r_locals s3) (set_calls (c :: r_calls s3) s3)).
  assert (ready md0 rel (entry true cargs currents) (set_mod md0 s5)) as R5.
  { eapply (ready_entry md0 rel true cargs currents s s1 s3 c); eauto.
    intros C. specialize (Hi2 C). rewrite EL in Hi2.
    pose proof (plus_trans' _ _ _ _ _ _ _ _ _ Hi2 P3) as P. rewrite app_nil_r in P. simpl in P.
    assert (length (r_stack s2) = length (r_stack s1) + length cargs) as L by (apply Hi2).
    rewrite L in P. exact P. }
  apply wp_bind. unfold push_fn. apply wp_modify. apply wp_bind. unfold push_local. apply wp_modify.
  apply wp_bind. unfold wp at 1. rewrite push_arg_locals_eq. rewrite Nat.add_0_r.
  match goal with |- wpq _ ?S _ _ => change S with s5 end.
  assert (above s s5) as As5.
  { apply Ab. destruct A3 as (_ & (X1 & X2 & X3 & (l2 & X4) & X5) & X6). unfold s5, above. simpl. splits; auto.
    - destruct X2 as [l X2]. exists (c :: l). rewrite X2. reflexivity.
    - exists (frame_locals (length (r_stack s1)) (rev (map Some cargs)) ++ ("return", length (r_stack s1) - 1) :: l2).
      rewrite X4, <- app_assoc. reflexivity. }
  assert (forall s', above (set_mod md0 s5) s' -> above s5 (set_mod (r_mod s5) s')) as Am.
  { intros sx (X1 & X2 & X3 & X4 & X5). unfold above. simpl. splits; auto. }
  apply wp_bind.
  pose proof (HE md0 rel (entry true cargs currents) body Right (set_mod md0 s5) Hbody R5) as HB.
  unfold wp, expression_module. unfold wp in HB. destruct (ev body Right (set_mod md0 s5)) as [r s6|m s6| |]; auto.
  2: { destruct HB as [X1 X2]. split; [exact X1|]. eapply above_trans; [exact As5|]. apply Am. auto. }
  pose proof (okpost_abv _ _ _ _ _ _ _ _ _ HB) as A6. destruct HB as [W6 _].
  match goal with |- match ?M ?S with _ => _ end => change (wpq M S (bpost true s) (errs s)) end.
  apply wp_bind. apply wp_body_flow.
  2: { split; [apply (proj1 A6)|]. eapply above_trans; [exact As5|]. apply Am. apply A6. }
  destruct A3 as (X0 & (X1 & X2 & X3 & (l4 & X4) & (l5 & X5)) & X6).
  destruct A6 as (Y0 & (Y1 & Y2 & Y3 & (l6 & Y4) & (l7 & Y5)) & Y6). destruct Hp1 as (Z0 & Z1 & Z2 & Z3 & Z4 & Z5).
  unfold s5 in Y1, Y2, Y3, Y4, Y5, Y6. simpl in Y1, Y2, Y3, Y4, Y5, Y6.
  apply (wp_leave (ret tt) true (fst r) name c s s1); auto; try reflexivity.
  - unfold BalanceBase.plus. splits; auto.
  - simpl. congruence.
  - simpl. rewrite Y6, X6, Z2. reflexivity.
  - simpl. lia.
  - simpl. exists (l6 ++ frame_locals (length (r_stack s1)) (rev (map Some cargs)) ++ ("return", length (r_stack s1) - 1) :: l4).
    rewrite Y4, X4, <- !app_assoc. reflexivity.
  - simpl. rewrite Y5, X5, app_assoc. eauto.
Qed.

(** ** Channels and threads *)

Lemma in_expr_bp : forall md fi cs f s, (chk = true -> known E md fi f) -> ready md fi cs s -> wpq (in_expr E f) s (bpost true s) (errs s).
Proof.
  intros md fi cs f s Hk Hr. assert (wf_state s) as Hs by (eapply ready_wf; eauto). unfold in_expr. destruct f; try (apply wp_fail; eapply plus_errs; apply bal_refl; auto).
  apply wp_bind. unfold top_index. apply wp_gets. apply wp_bind, wp_gets. cbv zeta. fold (top_of s). replace (top_of s) with fi by (symmetry; apply Hr). replace (r_mod s) with md by (symmetry; apply Hr).
  unfold known, WfSpec.target in Hk. cbv zeta in Hk.
  destruct (nth_error (e_mods E) md) as [m|]; [|apply wp_panic; intros C; specialize (Hk C); destruct (_ <? 0)%Z; congruence].
  destruct (_ && _)%bool eqn:RB; [|apply wp_panic; intros C; specialize (Hk C); exfalso; destruct (Z.ltb_spec (rel + Z.of_nat fi) 0); [congruence|];
    apply nth_error_Some in Hk; apply andb_false_iff in RB; destruct RB as [RB|RB]; [apply Z.leb_gt in RB|apply Z.ltb_ge in RB]; lia]. apply wp_bind, wp_gets. apply wp_bind, wp_modify, wp_ret.
  split; [exact I|]. split; [|discriminate]. unfold BalanceBase.bal, BalanceBase.plus. simpl.
  destruct Hs as [A B]. splits; auto. split; simpl; auto. apply Forall_app. auto.
Qed.

Lemma wp_go_args : forall n args md fi cs acc s,
  all_ok (wf md fi [] cs) args -> ready md fi cs s ->
  wpq (go_args ev n args acc) s
     (fun r s' => match r with inl _ => bal s s' | inr x => wfo x /\ abv s s' end) (errs s).
Proof.
  intros n args. induction args as [|e args IH]; intros md fi cs acc s Hw Hr; simpl.
  - apply wp_ret. apply bal_refl. eapply ready_wf; eauto.
  - destruct Hw as [Hw Hw']. eapply (wp_vexpr chk E arity ev HE); [exact Hw|exact Hr| | |auto].
    + intros v s' Hv Hb Hr'. apply wp_bind. apply (wp_deep chk E arity); auto; [eapply ready_wf; eauto|]. intros w Hww.
      eapply wp_mono; [eapply IH; eauto| |].
      * intros [l|x] s2 H; [eapply plus_bal; eauto|]. destruct H. split; auto. eapply plus_abv_trans; eauto.
      * intros s2 H. eapply plus_errs_trans; eauto.
    + intros x s' Hx Ha. apply wp_ret. auto.
Qed.
Lemma go_bp : forall n md fi cs name args s, all_ok (wf md fi [] cs) args -> ready md fi cs s ->
  wpq (go_ E ev n name args) s (bpost true s) (errs s).
Proof.
  intros n md fi cs name args s Hw Hr. unfold go_. apply wp_bind, wp_gets. apply wp_bind, wp_gets.
  replace (r_mod s) with md by (symmetry; apply Hr).
  destruct (r_calls s) eqn:RC; [apply wp_panic; intros C; exfalso; exact (ready_calls _ _ _ _ _ _ _ Hr C RC)|].
  destruct (nth_error _ _) eqn:NE; [|apply wp_panic; intros C; exfalso; exact (ready_module _ _ _ _ _ _ _ Hr C NE)].
  apply wp_bind. eapply wp_mono; [eapply wp_go_args; eauto| |auto].
  intros [lx|x] s' H.
  - cbv zeta. apply wp_bind, wp_gets. apply wp_bind, wp_modify, wp_ret. split; [exact I|]. split; [|discriminate].
    destruct H as ([A A'] & B & C & D & F & G). unfold BalanceBase.bal, BalanceBase.plus. simpl. splits; auto.
    split; auto.
  - destruct H. apply wp_ret. split; auto.
Qed.
End WithEv.
End Calls.
