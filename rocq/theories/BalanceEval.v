(** * Every construct keeps the stacks balanced, given that its parts do. *)
From Coq Require Import String List ZArith Bool Arith Lia.
From Verif Require Import Float64 Syntax InterpModel WfSpec SyntaxProofs BalanceBase.
Import ListNotations.
Local Open Scope string_scope.
Local Open Scope nat_scope.
Local Open Scope list_scope.

Section Eval.
Context (chk : bool) (E : env) (arity : string -> nat).
Notation wpq := (wp (quiet chk)).
Notation wf_v := (wf_v chk E arity).
Notation wf := (wf chk E arity).
Notation wf_item := (wf_item chk E arity).
Notation wf_idx := (wf_idx chk E arity).
Notation wf_clo := (wf_clo chk E arity).
Notation wf_state := (wf_state chk E arity).
Notation ready := (ready chk E arity).
Notation plus := (plus chk E arity).
Notation bal := (bal chk E arity).
Notation abv := (abv chk E arity).
Notation errs := (errs chk E arity).
Notation target := (target E).
Notation valued := (valued E).
Notation arg_ok := (arg_ok E).

Definition wfo (o : option value) : Prop := match o with Some v => wf_v v | None => True end.
Definition names_at (n : nat) (l : list string) : list (string * nat) := map (fun x => (x, n)) l.

(** What evaluating [e] from [s] may end in. *)
Definition okpost (md fi : nat) (e : expr) (s : rt) (r : res) (s' : rt) : Prop :=
  wfo (fst r) /\
  match snd r with
  | FContinue =>
      plus s (length (adds e)) (frame_locals (length (r_stack s)) (adds e))
           (names_at (length (r_stack s)) (adds_current e)) s' /\
      (valued md fi e = true -> fst r <> None) /\
      (adds e <> [] \/ is_swizzle e = true -> fst r = None)
  | FReturn => abv s s'
  | _ => abv s s' /\ r_currents s' = r_currents s
  end.
Definition evspec (ev : expr -> side -> M res) : Prop :=
  forall md fi cs e sd s, wf md fi [] cs e -> ready md fi cs s ->
  wpq (ev e sd) s (okpost md fi e s) (errs s).

(** The same for constructs that declare nothing. *)
Definition bpost (b : bool) (s : rt) (r : res) (s' : rt) : Prop :=
  wfo (fst r) /\
  match snd r with
  | FContinue => bal s s' /\ (b = true -> fst r <> None)
  | FReturn => abv s s'
  | _ => abv s s' /\ r_currents s' = r_currents s
  end.

Lemma adds_current_adds : forall e, adds e = [] -> adds_current e = [].
Proof.
  intros e H. destruct e; auto. destruct op; auto. destruct e1; auto. destruct it; auto.
  destruct current; destruct ids; auto; discriminate.
Qed.
Lemma bpost_ok : forall md fi e s r s', adds e = [] -> is_swizzle e = false ->
  bpost (valued md fi e) s r s' -> okpost md fi e s r s'.
Proof.
  intros md fi e s r s' H H0 [H1 H2]. unfold okpost. rewrite (adds_current_adds _ H), H, H0.
  split; auto. destruct (snd r); auto. destruct H2. split; [exact H2|]. split; auto. intros [F|F]; congruence.
Qed.
Lemma bpost_weak : forall b s r s', bpost b s r s' -> bpost false s r s'.
Proof.
  intros b s r s' [A B]. split; auto. destruct (snd r); auto. destruct B. split; auto. discriminate.
Qed.
Lemma bpost_bal : forall b s0 s r s', bal s0 s -> bpost b s r s' -> bpost b s0 r s'.
Proof.
  intros b s0 s r s' H [A B]. split; auto. destruct (snd r).
  - destruct B. split; auto. eapply plus_bal; eauto.
  - eapply plus_abv_trans; eauto.
  - destruct B. split; [eapply plus_abv_trans; eauto|]. destruct H as (_ & _ & _ & _ & _ & H). simpl in H. congruence.
  - destruct B. split; [eapply plus_abv_trans; eauto|]. destruct H as (_ & _ & _ & _ & _ & H). simpl in H. congruence.
Qed.
Lemma okpost_abv : forall md fi e s r s', okpost md fi e s r s' -> abv s s'.
Proof.
  intros md fi e s r s' [A B]. destruct (snd r); auto; [|apply B|apply B]. eapply plus_abv. apply (proj1 B).
Qed.

Lemma bal_left : forall s s', bal s s' -> abv s s' /\ r_currents s' = r_currents s.
Proof. intros s s' H. split; [eapply plus_abv; eauto|]. destruct H as (_ & _ & _ & _ & _ & H). exact H. Qed.

Section WithEv.
Variable ev : expr -> side -> M res.
Hypothesis HE : evspec ev.

Lemma wp_vexpr : forall {R} md fi cs e sd msg leave k s (Q : R -> rt -> Prop) X,
  wf md fi [] cs e -> ready md fi cs s ->
  (forall v s', wf_v v -> bal s s' -> ready md fi cs s' -> wpq (k v) s' Q X) ->
  (forall x s', wfo x -> abv s s' -> wpq (leave x) s' Q X) ->
  (forall s', errs s s' -> X s') ->
  wpq (vexpr ev e sd msg leave k) s Q X.
Proof.
  intros R md fi cs e sd msg leave k s Q X Hw Hr Hk Hl HX. unfold vexpr. apply wp_bind.
  eapply wp_mono; [apply (HE _ _ _ _ sd _ Hw Hr)| |exact HX].
  intros [o fl] s' [H1 H2]. cbn [fst snd] in *. destruct o as [v|].
  - destruct fl.
    + destruct H2 as (H2 & H3 & H4).
      destruct (adds e) eqn:A.
      * rewrite (adds_current_adds _ A) in H2. apply Hk; auto. eapply ready_bal; eauto.
      * exfalso. assert (Some v = None) by (apply H4; left; discriminate). discriminate.
    + apply Hl; auto.
    + apply wp_fail. apply HX. apply abv_errs. apply H2.
    + apply wp_fail. apply HX. apply abv_errs. apply H2.
  - destruct fl.
    + apply wp_fail. apply HX. eapply plus_errs. apply (proj1 H2).
    + apply Hl; auto.
    + apply wp_fail. apply HX. apply abv_errs. apply H2.
    + apply wp_fail. apply HX. apply abv_errs. apply H2.
Qed.

(** The usual case: inside a construct entered in [s0]. *)
Lemma vexpr_bp : forall b s0 d nl nc md fi cs e sd msg k s,
  wf md fi [] cs e -> plus s0 d nl nc s -> ready md fi cs s ->
  (forall v s', wf_v v -> plus s0 d nl nc s' -> ready md fi cs s' -> wpq (k v) s' (bpost b s0) (errs s0)) ->
  wpq (vexpr ev e sd msg leave_res k) s (bpost b s0) (errs s0).
Proof.
  intros b s0 d nl nc md fi cs e sd msg k s Hw Hp Hr Hk.
  eapply wp_vexpr; eauto.
  - intros v s' A B C. apply Hk; auto. eapply bal_plus; eauto.
  - intros x s' A B. apply wp_ret. split; auto. simpl. eapply plus_abv_trans; eauto.
  - intros s' A. eapply plus_errs_trans; eauto.
Qed.

Lemma errs_plus : forall s0 d nl nc s, plus s0 d nl nc s -> errs s0 s.
Proof. intros. eapply plus_errs; eauto. Qed.

(** ** Blocks *)

Lemma wp_block_go : forall es md fi cs last s,
  thread_ok (wf md fi []) adds cs es -> ready md fi cs s -> wfo last ->
  wpq (block_go ev es last) s
     (fun r s' => wfo (fst r) /\ abv s s' /\
        (snd r = FContinue -> (es = [] -> fst r = last) /\ (lastb (valued md fi) es = true -> fst r <> None)))
     (errs s).
Proof.
  induction es as [|e es IH]; intros md fi cs last s Hw Hr Hl; simpl.
  - apply wp_ret. split; [exact Hl|]. split.
    + eapply plus_abv. apply bal_refl. eapply ready_wf; eauto.
    + intros _. split; auto. discriminate.
  - destruct Hw as [Hw Hw']. apply wp_bind.
    eapply wp_mono; [apply (HE _ _ _ _ Right _ Hw Hr)| |auto].
    intros [o fl] s' H. pose proof (okpost_abv _ _ _ _ _ _ H) as Habv. destruct H as [H1 H2].
    cbn [fst snd] in *. destruct fl; try (apply wp_ret; split; [exact H1|]; split; [exact Habv|discriminate]).
    destruct H2 as (H2 & H3 & H4).
    eapply wp_mono; [apply (IH md fi (adds e ++ cs) o s' Hw')| |].
    + eapply ready_plus; eauto.
    + exact H1.
    + intros r s'' (A & B & C). split; [exact A|]. split; [eapply plus_abv_trans; eauto|].
      intros D. destruct (C D) as [C1 C2]. split; [discriminate|].
      destruct es; [|exact C2]. intros V. rewrite (C1 eq_refl). apply H3. exact V.
    + intros s'' A. eapply plus_errs_trans; eauto.
Qed.

Lemma wp_block : forall es md fi cs s,
  thread_ok (wf md fi []) adds cs es -> ready md fi cs s ->
  wpq (block ev es) s
     (fun r s' => wfo (fst r) /\ bal s s' /\
        (snd r = FContinue -> lastb (valued md fi) es = true -> fst r <> None))
     (errs s).
Proof.
  intros es md fi cs s Hw Hr. unfold block.
  apply wp_bind, wp_gets. apply wp_bind, wp_gets. apply wp_bind, wp_gets.
  apply wp_bind. eapply wp_mono; [apply (wp_block_go es md fi cs None s Hw Hr I)| |auto].
  intros r s' (A & B & C). apply wp_cut; [apply (proj1 (proj2 B))|]. apply wp_ret.
  split; [exact A|]. split; [apply cut_bal; auto|]. intros D. apply (C D).
Qed.
Lemma block_bp : forall es md fi cs s b,
  thread_ok (wf md fi []) adds cs es -> ready md fi cs s ->
  (b = true -> lastb (valued md fi) es = true) ->
  wpq (block ev es) s (bpost b s) (errs s).
Proof.
  intros es md fi cs s b H H0 Hb. eapply wp_mono; [eapply wp_block; eauto| |auto].
  intros r s' (A & B & C). split; auto. destruct (snd r) eqn:F; [split; auto| | |]; try (apply bal_left; auto).
Qed.

(** ** Try *)

Lemma wp_try_leave : forall m tr s s0 d nl nc, (chk = true -> r_calls s0 <> []) -> wf_v m -> plus s0 d nl nc s ->
  wpq (try_leave m tr) s (bpost true s0) (errs s0).
Proof.
  intros m tr s s0 d nl nc HC H Hp. unfold try_leave. apply wp_bind, wp_gets.
  destruct (r_calls s) as [|c cs] eqn:EC; [apply wp_panic; intros C; exfalso; apply (HC C); destruct Hp as (_ & _ & Hp & _); congruence|].
  destruct (c_stack c); [apply wp_fail; eapply plus_errs; eauto|].
  (apply wp_bind, wp_slot; [noise|]). intros v Hv.
  destruct v; try (apply wp_fail; eapply plus_errs; eauto).
  apply wp_ret. split; [exact H|]. simpl. eapply plus_abv; eauto.
Qed.

Lemma try_fun_bp : forall md fi cs e sd s, wf md fi [] cs e -> ready md fi cs s ->
  wpq (try_fun ev e sd) s (bpost true s) (errs s).
Proof.
  intros md fi cs e sd s Hw Hr. unfold try_fun.
  eapply vexpr_bp; eauto; [apply bal_refl; eapply ready_wf; eauto|].
  intros v s' Hv Hp Hr'. apply wp_bind. apply (wp_getv chk E arity); auto; [eapply ready_wf; eauto|].
  intros v' Hv'. pose proof (try_msg_wf chk E arity v' Hv') as T.
  destruct (try_msg v') as [[y|m tr]|].
  - apply wp_ret. split; [exact T|]. simpl. split; [exact Hp|discriminate].
  - eapply wp_try_leave; eauto. eapply ready_calls; eauto.
  - apply wp_fail. eapply plus_errs; eauto.
Qed.

Lemma try_expr_bp : forall md fi cs e s, wf md fi [] cs e -> ready md fi cs s ->
  wpq (try_expr ev e) s (bpost true s) (errs s).
Proof.
  intros md fi cs e s Hw Hr. unfold try_expr, wp. pose proof (HE _ _ _ _ Right _ Hw Hr) as H. unfold wp in H.
  destruct (ev e Right s) as [[o fl] s'|m s'| |]; auto.
  - pose proof (okpost_abv _ _ _ _ _ _ H) as Habv. destruct H as [H1 H2]. cbn [fst snd] in *.
    destruct o as [v|]; destruct fl; try (split; [exact H1|exact H2]).
    + destruct H2 as (H2 & H3 & H4). split; [exact H1|]. simpl. split; [|discriminate].
      destruct (adds e) eqn:A; [rewrite (adds_current_adds _ A) in H2; exact H2|].
      exfalso. assert (Some v = None) by (apply H4; left; discriminate). discriminate.
    + apply abv_errs; auto.
  - destruct H as [A B]. unfold trunc_calls, trunc_stack, trunc_locals, trunc_currents, bind, modify, ret. simpl.
    rewrite (trunc_calls_above _ _ B), (trunc_locals_above _ _ B), (trunc_currents_above _ _ B).
    split; [exact I|]. simpl. split; [|discriminate].
    destruct A as [A1 A2]. destruct B as (B1 & B2 & B3 & B4 & B5).
    unfold BalanceBase.bal, BalanceBase.plus. simpl. splits; auto.
    + split; simpl; auto. apply Forall_firstn. auto.
    + rewrite firstn_length. lia.
Qed.

(** ** Literals *)

Lemma vcomp_some : forall v i, i < 4 -> vcomp v i <> None.
Proof. intros v i L. unfold vcomp. destruct i as [|[|[|[|i]]]]; [discriminate..|lia]. Qed.
Lemma wp_push_comps : forall v inds s, wf_state s -> (chk = true -> Forall (fun i => i < 4) inds) ->
  wpq (push_comps v inds) s (fun _ s' => plus s (length inds) [] [] s') (errs s).
Proof.
  intros v inds. induction inds as [|i inds IH]; intros s Hs Hi; simpl.
  - apply wp_ret. apply bal_refl. auto.
  - destruct (vcomp v i) eqn:VC; [|apply wp_panic; intros C; specialize (Hi C); inversion Hi; subst; exfalso; exact (vcomp_some _ _ H1 VC)]. apply wp_bind. unfold push. apply wp_modify.
    pose proof (plus_push chk E arity s (vf64 (f64_of_f32 f)) Hs I) as P.
    eapply wp_mono; [apply IH; [apply (proj1 P)|intros C; specialize (Hi C); inversion Hi; assumption]| |].
    + intros u s' H. apply (plus_trans _ _ _ _ _ _ _ _ _ _ _ _ P H).
    + intros s' H. eapply plus_errs_trans; eauto.
Qed.
Lemma swizzle_ok : forall md fi cs inds e s, wf md fi [] cs (ESwizzle inds e) -> ready md fi cs s ->
  wpq (swizzle ev inds e) s (okpost md fi (ESwizzle inds e) s) (errs s).
Proof.
  intros md fi cs inds e s Hw Hr. unfold swizzle.
  destruct Hw as [Hw Hi]. eapply wp_vexpr; eauto.
  - intros v s' Hv Hp Hr'. apply wp_bind. apply (wp_getv chk E arity); auto; [eapply ready_wf; eauto|].
    intros v' Hv'. destruct v'; try (apply wp_fail; eapply plus_errs; eauto).
    apply wp_bind. eapply wp_mono; [apply wp_push_comps; [eapply ready_wf; eauto|exact Hi]| |].
    + intros u s'' H. apply wp_ret. split; [exact I|]. cbn [snd fst adds adds_current names_at map].
      rewrite repeat_length, frame_locals_none. split; [eapply plus_bal; eauto|]. split; [discriminate|reflexivity].
    + intros s'' H. eapply plus_errs_trans; eauto.
  - intros x s' A B. apply wp_ret. split; [exact I|]. exact B.
Qed.

Lemma wp_link_go : forall es md fi cs acc s,
  thread_ok (wf md fi []) adds cs es -> all_ok (fun e => adds_current e = []) es -> ready md fi cs s ->
  wpq (link_go ev es acc) s
     (fun r s' => abv s s' /\
        match r with
        | inl _ => True
        | inr r => wfo (fst r) /\
            match snd r with FContinue => False | FReturn => True | _ => r_currents s' = r_currents s end
        end)
     (errs s).
Proof.
  induction es as [|e es IH]; intros md fi cs acc s Hw Hac Hr; simpl.
  - apply wp_ret. split; auto. eapply plus_abv. apply bal_refl. eapply ready_wf; eauto.
  - destruct Hw as [Hw Hw']. destruct Hac as [Hac Hac']. apply wp_bind.
    eapply wp_mono; [apply (HE _ _ _ _ Right _ Hw Hr)| |auto].
    intros [o fl] s' H. pose proof (okpost_abv _ _ _ _ _ _ H) as Habv. destruct H as [H1 H2].
    cbn [fst snd] in *.
    assert (forall acc, fl = FContinue -> wpq (link_go ev es acc) s'
       (fun r s'0 => abv s s'0 /\ match r with inl _ => True | inr r => wfo (fst r) /\
            match snd r with FContinue => False | FReturn => True | _ => r_currents s'0 = r_currents s end end) (errs s)) as K.
    { intros acc' Hfl. rewrite Hfl in H2. destruct H2 as (H2 & H3 & H4).
      eapply wp_mono; [apply (IH md fi (adds e ++ cs) acc' s' Hw' Hac')| |].
      - eapply ready_plus; eauto.
      - intros r s3 (A & B). split; [eapply plus_abv_trans; eauto|].
        assert (r_currents s' = r_currents s) as <-.
        { destruct H2 as (_ & _ & _ & _ & _ & H2). rewrite Hac in H2. exact H2. }
        exact B.
      - intros s3 A. eapply plus_errs_trans; eauto. }
    assert (wf_state s') as Hs' by (apply (proj1 Habv)).
    destruct fl; try (destruct o; apply wp_ret; split; auto; split; simpl; auto; apply H2).
    destruct o as [v|].
    + apply wp_bind. apply (wp_getv chk E arity); auto. intros v' Hv'.
      destruct (link_push acc v') eqn:L; [|apply wp_fail; apply abv_errs; auto].
      apply K; auto.
    + apply K; auto.
Qed.
Lemma link_bp : forall md fi cs es s, wf md fi [] cs (ELink es) -> ready md fi cs s ->
  wpq (link ev es) s (bpost true s) (errs s).
Proof.
  intros md fi cs es s Hw Hr. change (thread_ok (wf md fi []) adds cs es /\ all_ok (fun e => adds_current e = []) es) in Hw.
  destruct Hw as [Hw Hac]. unfold link. destruct es as [|e es].
  - apply wp_ret. split; [exact I|]. split; [|discriminate]. apply bal_refl. eapply ready_wf; eauto.
  - apply wp_bind, wp_gets. apply wp_bind, wp_gets. apply wp_bind, wp_gets. apply wp_bind.
    eapply wp_mono; [apply (wp_link_go _ _ _ _ [] _ Hw Hac Hr)| |auto].
    intros r s' (A & B). destruct r as [acc|r].
    + apply wp_cut; [apply (proj1 (proj2 A))|]. apply wp_ret. split; [exact I|]. split; [|discriminate].
      apply cut_bal; auto.
    + apply wp_ret. destruct B as [B C]. split; [exact B|]. destruct (snd r); auto. contradiction.
Qed.

Lemma object_bp : forall md fi cs kvs acc s0 s,
  all_ok (fun kv => match kv with (_, x) => wf md fi [] cs x end) kvs -> wf_v (VObject acc) ->
  bal s0 s -> ready md fi cs s -> wpq (object ev kvs acc) s (bpost true s0) (errs s0).
Proof.
  intros md fi cs kvs. induction kvs as [|[k e] kvs IH]; intros acc s0 s Hw Ha Hb Hr; simpl.
  - apply wp_ret. split; [exact Ha|]. split; [exact Hb|discriminate].
  - destruct Hw as [Hw Hw']. eapply vexpr_bp; eauto. intros v s' Hv Hp Hr'.
    destruct (assoc k acc); [apply wp_fail; eapply plus_errs; eauto|].
    apply IH; auto. rewrite wf_VObject in *. apply Forall_app. auto.
Qed.
Lemma array_bp : forall md fi cs es acc s0 s,
  all_ok (wf md fi [] cs) es -> wf_v (VArray acc) ->
  bal s0 s -> ready md fi cs s -> wpq (array ev es acc) s (bpost true s0) (errs s0).
Proof.
  intros md fi cs es. induction es as [|e es IH]; intros acc s0 s Hw Ha Hb Hr; simpl.
  - apply wp_ret. split; [exact Ha|]. split; [exact Hb|discriminate].
  - destruct Hw as [Hw Hw']. eapply vexpr_bp; eauto. intros v s' Hv Hp Hr'.
    apply IH; auto. rewrite wf_VArray in *. apply Forall_app. auto.
Qed.
Lemma array_fill_bp : forall md fi cs a b s, wf md fi [] cs a -> wf md fi [] cs b ->
  ready md fi cs s -> wpq (array_fill E ev a b) s (bpost true s) (errs s).
Proof.
  intros md fi cs a b s Ha Hb Hr. unfold array_fill.
  eapply vexpr_bp; eauto; [apply bal_refl; eapply ready_wf; eauto|]. intros v s' Hv Hp Hr'.
  eapply vexpr_bp; eauto. intros v2 s2 Hv2 Hp2 Hr2.
  apply wp_bind. apply (wp_getv chk E arity); auto; [eapply ready_wf; eauto|]. intros w Hw.
  apply wp_bind. apply (wp_getv chk E arity); auto; [eapply ready_wf; eauto|]. intros w2 Hw2.
  destruct w2; try (apply wp_fail; eapply plus_errs; eauto). cbv zeta.
  destruct (e_alloc E _); [|(apply wp_panic; noise)]. apply wp_ret. split; [|split; [exact Hp2|discriminate]].
  simpl. apply wf_VArray. apply Forall_forall. intros y Hy. apply repeat_spec in Hy. subst. auto.
Qed.

(** ** Items *)

Lemma wp_walk_index : forall lim ind s (Q : f64 -> rt -> Prop) (X : rt -> Prop),
  (forall x, Q x s) -> X s -> wpq (walk_index lim ind) s Q X.
Proof.
  intros lim ind s Q X HQ HX. unfold walk_index. destruct ind; try (apply wp_fail; auto; fail).
  - destruct (i <? lim); [|(apply wp_panic; noise)]. (apply wp_bind, wp_slot; [noise|]). intros v _.
    destruct v; try (apply wp_fail; auto; fail). apply wp_ret. auto.
  - apply wp_ret. auto.
Qed.
Lemma wp_walk : forall inds lim last p s (Q : ptr -> rt -> Prop) (X : rt -> Prop), wf_state s ->
  (forall q, Q q s) -> X s -> wpq (walk lim inds last p) s Q X.
Proof.
  induction inds as [|ind rest IH]; intros lim last p s Q X Hs HQ HX; simpl.
  - apply wp_fail; auto.
  - apply wp_bind. apply wp_walk_index; auto. intros x. apply wp_bind. apply (wp_pread chk E arity); auto. intros a Ha.
    destruct a; try (apply wp_panic; noise). destruct (index_of x (length l)); [|apply wp_fail; auto].
    apply wp_bind. apply (wp_pread chk E arity); auto. intros v Hv. destruct rest as [|i2 rest].
    + destruct v; try (apply wp_ret; auto; fail). destruct last; [apply wp_ret; auto|].
      destruct (i <? lim); [apply wp_ret; auto|(apply wp_panic; noise)].
    + destruct v; try (apply wp_fail; auto; fail).
      * destruct (i <? lim); [|(apply wp_panic; noise)]. (apply wp_bind, wp_slot; [noise|]). intros w _.
        destruct w; try (apply wp_fail; auto; fail). apply IH; auto.
      * apply IH; auto.
Qed.
Lemma wp_follow : forall last p s (Q : ptr -> rt -> Prop) (X : rt -> Prop), wf_state s ->
  (forall q, Q q s) -> wpq (follow last p) s Q X.
Proof.
  intros last p s Q X Hs HQ. unfold follow. apply wp_bind. apply (wp_pread chk E arity); auto. intros v Hv.
  destruct v; try (apply wp_ret; auto; fail). destruct last; [apply wp_ret; auto|].
  (apply wp_bind, wp_slot; [noise|]). intros w _. apply wp_ret. auto.
Qed.
Lemma wp_index_slot : forall i s (Q : nat -> rt -> Prop) (X : rt -> Prop),
  (forall q, Q q s) -> wpq (index_slot i) s Q X.
Proof.
  intros i s Q X HQ. unfold index_slot. (apply wp_bind, wp_slot; [noise|]). intros v _. destruct v; apply wp_ret; auto.
Qed.
Lemma wp_item_lookup : forall p prop start j insert last s (Q : ptr * nat -> rt -> Prop) (X : rt -> Prop),
  wf_state s -> (forall q s', bal s s' -> Q q s') -> X s ->
  wpq (item_lookup p prop start j insert last) s Q X.
Proof.
  intros p prop start j insert last s Q X Hs HQ HX. unfold item_lookup.
  assert (bal s s) as Hb by (apply bal_refl; auto).
  apply wp_bind. apply (wp_pread chk E arity); auto. intros v Hv.
  destruct v; try (apply wp_fail; auto; fail).
  - assert (forall x j', wpq (match index_of x (length l) with
        | None => fail "out of bounds"
        | Some i => q <- follow last (fst p, snd p ++ [SIdx i]) ;; ret (q, j')
        end) s Q X) as At.
    { intros x j'. destruct (index_of x (length l)); [|apply wp_fail; auto].
      apply wp_bind. apply wp_follow; auto. intros q. apply wp_ret. auto. }
    cbv zeta. destruct prop; [apply wp_fail; auto|apply At|].
    apply wp_bind. apply wp_index_slot. intros i. (apply wp_bind, wp_slot; [noise|]). intros x _.
    destruct x; try (apply wp_fail; auto; fail); [apply At|].
    apply wp_bind. apply wp_walk; auto. intros q. apply wp_ret. auto.
  - apply wp_bind.
    assert (forall kj, wpq (let p' := (fst p, snd p ++ [SKey (fst kj)]) in
      match assoc (fst kj) l with
      | None =>
          if insert && last then
            pwrite p (VObject (l ++ [(fst kj, VReturn)])) ;;; ret (p', snd kj)
          else fail "object has no key"
      | Some _ => q <- follow last p' ;; ret (q, snd kj)
      end) s Q X) as At.
    { intros [k j']. cbn [fst snd]. cbv zeta. destruct (assoc k l).
      - apply wp_bind. apply wp_follow; auto. intros q. apply wp_ret. auto.
      - destruct (insert && last); [|apply wp_fail; auto]. apply wp_bind. apply (wp_pwrite chk E arity); auto.
        + rewrite wf_VObject in *. apply Forall_app. split; auto. constructor; auto. exact I.
        + intros s' Hb'. apply wp_ret. auto. }
    destruct prop; [apply wp_ret; apply (At (_, _))|apply wp_fail; auto|].
    apply wp_bind. apply wp_index_slot. intros i. (apply wp_bind, wp_slot; [noise|]). intros x _.
    destruct x; try (apply wp_fail; auto; fail). apply wp_ret. apply (At (_, _)).
Qed.

Lemma push_ids_bp : forall ids b md fi cs k s0 d s,
  ids_ok (wf_idx md fi []) cs ids -> plus s0 d [] [] s -> ready md fi cs s ->
  (forall d' s', plus s0 d' [] [] s' -> wpq k s' (bpost b s0) (errs s0)) ->
  wpq (push_ids ev ids k) s (bpost b s0) (errs s0).
Proof.
  induction ids as [|i ids IH]; intros b md fi cs k s0 d s Hw Hp Hr Hk; simpl.
  - eapply Hk; eauto.
  - destruct Hw as [Hw Hw']. destruct i; try (eapply IH; eauto; fail).
    eapply vexpr_bp; [exact Hw|exact Hp|exact Hr|]. intros v s' Hv Hp' Hr'.
    apply wp_bind. unfold push. apply wp_modify.
    assert (wf_state s') as Hs by (eapply ready_wf; eauto).
    eapply IH; [exact Hw'| |apply ready_push; eauto|exact Hk].
    apply (plus_trans _ _ _ _ _ _ _ _ _ _ _ _ Hp' (plus_push _ _ _ _ _ Hs Hv)).
Qed.

Lemma lookup_ids_bp : forall ids i p start j insert try_ids k s0 d s, (chk = true -> r_calls s0 <> []) ->
  plus s0 d [] [] s ->
  (forall q s', plus s0 d [] [] s' -> wpq (k q) s' (bpost true s0) (errs s0)) ->
  wpq (lookup_ids ids i p start j insert try_ids k) s (bpost true s0) (errs s0).
Proof.
  induction ids as [|prop rest IH]; intros i p start j insert try_ids k s0 d s HC Hp Hk; simpl.
  - apply Hk; auto.
  - assert (wf_state s) as Hs by (apply (proj1 Hp)).
    apply wp_bind. apply wp_item_lookup; auto; [|eapply plus_errs; eauto]. intros q s' Hb.
    pose proof (bal_plus _ _ _ _ _ _ _ _ _ Hp Hb) as Hp'. cbv zeta.
    assert (wf_state s') as Hs' by (apply (proj1 Hp')).
    destruct try_ids as [|t tids]; [eapply IH; eauto|].
    destruct (Nat.eqb t i); [|eapply IH; eauto].
    apply wp_bind. apply (wp_pread chk E arity); auto. intros v Hv.
    pose proof (try_msg_wf chk E arity v Hv) as T. destruct (try_msg v) as [[y|m tr]|].
    + apply wp_bind. apply (wp_pwrite chk E arity); auto. intros s2 Hb2.
      eapply IH; eauto. eapply bal_plus; eauto.
    + eapply wp_try_leave; eauto.
    + apply wp_fail. eapply plus_errs; eauto.
Qed.

Lemma find_var_le : forall x cs k, find_var x cs = Some k -> 1 <= k <= length cs.
Proof.
  induction cs as [|[y|] cs IH]; intros k H; cbn in H; [discriminate| |].
  - destruct (String.eqb y x); [injection H as <-; cbn; lia|]. destruct (find_var x cs); [|discriminate]. injection H as <-. specialize (IH _ eq_refl). cbn. lia.
  - destruct (find_var x cs); [|discriminate]. injection H as <-. specialize (IH _ eq_refl). cbn. lia.
Qed.
Lemma find_var_frame : forall x base cs k, find_var x cs = Some k -> assoc x (frame_locals base cs) = Some (base + length cs - k).
Proof.
  induction cs as [|[y|] cs IH]; intros k H; cbn in H; [discriminate| |].
  - cbn [frame_locals assoc length]. destruct (String.eqb y x); [injection H as <-; f_equal; lia|].
    destruct (find_var x cs) as [j|] eqn:F; [|discriminate]. injection H as <-. rewrite (IH _ eq_refl). apply find_var_le in F. f_equal. lia.
  - cbn [frame_locals length]. destruct (find_var x cs) as [j|] eqn:F; [|discriminate]. injection H as <-. rewrite (IH _ eq_refl). apply find_var_le in F. f_equal. lia.
Qed.
(** Both ways find the same slot. *)
Lemma find_same : forall name k cs s, frame_ok cs s -> find_var name cs = Some k ->
  find_by_name name (Some k) s = Ok (length (r_stack s) - k) s /\ find_by_slot (Some k) s = Ok (length (r_stack s) - k) s.
Proof.
  intros name k cs s (c & rest & base & H1 & H2 & H3 & H4) F. unfold find_by_name, find_by_slot. rewrite H1.
  rewrite (proj2 (Nat.leb_le _ _) H2), H4, (find_var_frame _ _ _ _ F), <- H3. pose proof (find_var_le _ _ _ F) as L.
  rewrite (proj2 (Nat.leb_le (length (r_stack s) - k) (length (r_stack s)))) by lia. rewrite (proj2 (Nat.leb_le k (length (r_stack s)))) by lia.
  replace (length (r_stack s) - (length (r_stack s) - k)) with k by lia. rewrite Nat.eqb_refl. auto.
Qed.
Lemma wp_find_slot : forall md fi cs name sid s (Q : nat -> rt -> Prop) (X : rt -> Prop),
  (chk = true -> exists k, find_var name cs = Some k /\ sid = Some k) -> ready md fi cs s ->
  (forall i, Q i s) -> X s -> wpq (find_slot E name sid) s Q X.
Proof.
  intros md fi cs name sid s Q X HF HR HQ HX. unfold wp, find_slot. destruct (Bool.bool_dec chk true) as [C|C].
  { destruct (HF C) as (k & F & ->). destruct (proj2 (proj2 (proj2 HR)) C) as [FO _]. pose proof (ready_calls _ _ _ _ _ _ _ HR C) as N.
    destruct (find_same _ _ _ _ FO F) as [-> ->]. destruct (e_look E); auto. rewrite Nat.eqb_refl. destruct (r_calls s); [congruence|auto]. }
  assert (forall w, quiet chk w) as HC by (unfold quiet; congruence). destruct (e_look E).
  - unfold find_by_name. destruct (r_calls s); auto. destruct (Nat.leb _ _); auto. destruct (assoc _ _); [|destruct (String.eqb name "return"); auto].
    destruct (Nat.leb _ _); auto. destruct sid; auto. destruct (Nat.eqb _ _); auto.
  - unfold find_by_slot. destruct (r_calls s); auto. destruct (Nat.leb _ _); auto. destruct sid; auto. destruct (Nat.leb _ _); auto.
  - destruct (r_calls s); auto. destruct (find_by_name name sid s); auto. destruct (find_by_slot sid s); auto. destruct (Nat.eqb _ _); auto.
Qed.

Lemma item_bp : forall md fi cs it sd s, wf_item md fi [] cs it -> ready md fi cs s ->
  wpq (item_ E ev it sd) s (bpost true s) (errs s).
Proof.
  intros md fi cs it sd s Hw Hr. assert (wf_state s) as Hs by (eapply ready_wf; eauto).
  assert (bal s s) as Hb by (apply bal_refl; auto).
  destruct it as [name sid current tryf ids try_ids]. destruct Hw as [HF Hw]. unfold item_.
  apply wp_bind. eapply wp_find_slot; [exact HF|exact Hr| |eapply plus_errs; eauto]. intros i0.
  (apply wp_bind, wp_slot; [noise|]). intros v0 Hv0. cbv zeta.
  remember (match v0 with VRef r => r | _ => i0 end) as i. destruct ids as [|x ids].
  - destruct tryf.
    + (apply wp_bind, wp_slot; [noise|]). intros v Hv.
      pose proof (try_msg_wf chk E arity v (wf_slot _ _ _ _ _ _ Hs Hv)) as T.
      destruct (try_msg v) as [[y|m tr]|].
      * apply wp_ret. split; [exact T|]. split; [exact Hb|discriminate].
      * eapply wp_try_leave; eauto. eapply ready_calls; eauto.
      * apply wp_fail. eapply plus_errs; eauto.
    + apply wp_ret. split; [exact I|]. split; [exact Hb|discriminate].
  - apply wp_bind, wp_gets. eapply push_ids_bp; eauto. intros d' s' Hp'.
    eapply lookup_ids_bp; eauto; [eapply ready_calls; eauto|]. intros q s2 Hp2.
    assert (wf_state s2) as Hs2 by (apply (proj1 Hp2)).
    apply wp_bind.
    assert (forall v, wf_v v -> wpq (trunc_stack (length (r_stack s));;; ret (Some v, FContinue)) s2 (bpost true s) (errs s)) as K.
    { intros v Hv. apply wp_bind. unfold trunc_stack. apply wp_modify. apply wp_ret. split; [exact Hv|].
      split; [|discriminate].
      destruct Hp2 as ([A1 A2] & B & C & D & F & G). unfold BalanceBase.bal, BalanceBase.plus. simpl. splits; auto.
      - split; simpl; auto. apply Forall_firstn. auto.
      - rewrite firstn_length. lia. }
    destruct sd; [apply (wp_pread chk E arity); auto|apply wp_ret; apply K; exact I].
Qed.

(** ** Assignment *)

Lemma assign_val_wf : forall op a b v, wf_v a -> wf_v b -> assign_val E op a b = AOk v -> wf_v v.
Proof.
  intros op a b v Ha Hb H.
  destruct b; simpl in H; destruct a; try discriminate; try (destruct op; simpl in H; try discriminate;
    injection H as <-; first [exact Hb | exact I]; fail).
Qed.

Lemma assign_set_bp : forall md fi cs op l r s, op <> OpAssign ->
  wf md fi [] cs l -> wf md fi [] cs r -> ready md fi cs s ->
  wpq (assign E ev op l r) s (bpost false s) (errs s).
Proof.
  intros md fi cs op l r s Hop Hl Hrr Hr.
  assert (bal s s) as Hb by (apply bal_refl; eapply ready_wf; eauto).
  assert (assign E ev op l r =
      vexpr ev r Right "expected something from the right side" leave_res (fun b =>
      vexpr ev l (LeftInsert false) "expected something from the left side" leave_res (fun a =>
      p <- match a with
           | VUnsafeRef r p =>
               v <- pread (r, p) ;;
               (match v with
                | VRef i => w <- slot i ;; pwrite (r, p) w
                | _ => ret tt
                end) ;;; ret (r, p)
           | VRef i => slot i ;;; ret (i, [])
           | _ => panic "expected reference"
           end ;;
      bv <- getv b ;;
      av <- pread p ;;
      match assign_val E op av bv with
      | AOk v => pwrite p v ;;; ret (None, FContinue)
      | AErr m => fail m
      | APanic => panic "not implemented"
      end))) as -> by (destruct op; try congruence; reflexivity).
  eapply vexpr_bp; eauto. intros b s1 Hbv Hp1 Hr1.
  eapply vexpr_bp; eauto. intros a s2 Hav Hp2 Hr2.
  assert (wf_state s2) as Hs2 by (apply (proj1 Hp2)).
  assert (forall p s3, bal s s3 -> wpq (bv <- getv b ;;
      av <- pread p ;;
      match assign_val E op av bv with
      | AOk v => pwrite p v ;;; ret (None, FContinue)
      | AErr m => fail m
      | APanic => panic "not implemented"
      end) s3 (bpost false s) (errs s)) as K.
  { intros p s3 Hp3. assert (wf_state s3) as Hs3 by (apply (proj1 Hp3)).
    apply wp_bind. apply (wp_getv chk E arity); auto. intros bv Hbv'.
    apply wp_bind. apply (wp_pread chk E arity); auto. intros av Hav'.
    destruct (assign_val E op av bv) eqn:A; [|apply wp_fail; eapply plus_errs; eauto|(apply wp_panic; noise)].
    apply wp_bind. apply (wp_pwrite chk E arity); auto; [eapply assign_val_wf; [| |exact A]; auto|].
    intros s4 Hb4. apply wp_ret. split; [exact I|]. split; [|discriminate]. eapply bal_plus; eauto. }
  apply wp_bind. destruct a; try (apply wp_panic; noise).
  - (apply wp_bind, wp_slot; [noise|]). intros v _. apply wp_ret. apply K; auto.
  - apply wp_bind. apply (wp_pread chk E arity); auto. intros v Hv.
    apply wp_bind. destruct v; try (apply wp_ret; apply wp_ret; apply K; auto; fail).
    (apply wp_bind, wp_slot; [noise|]). intros w Hw. apply (wp_pwrite chk E arity); auto; [eapply wf_slot; eauto|].
    intros s3 Hb3. apply wp_ret. apply K. eapply bal_plus; eauto.
Qed.

Lemma assign_decl_ok : forall md fi cs l r s, wf md fi [] cs (EAssign OpAssign l r) -> ready md fi cs s ->
  wpq (assign E ev OpAssign l r) s (okpost md fi (EAssign OpAssign l r) s) (errs s).
Proof.
  intros md fi cs l r s Hw Hr.
  assert (bal s s) as Hb by (apply bal_refl; eapply ready_wf; eauto).
  unfold assign. destruct l; try (apply wp_fail; eapply plus_errs; eauto).
  destruct it as [name sid current tryf ids try_ids]. destruct ids as [|x ids].
  - change (wf md fi [] cs r) in Hw.
    eapply wp_vexpr; eauto.
    + intros v s' Hv Hb' Hr'. assert (wf_state s') as Hs' by (apply (proj1 Hb')).
      apply wp_bind.
      assert (forall w, wf_v w -> wpq (n <- stack_len;; push_local name n;;;
          (if current then push_current name n else ret tt);;; push w;;; ret (None, FContinue)) s'
          (okpost md fi (EAssign OpAssign (EItem (Item name sid current tryf [] try_ids)) r) s) (errs s)) as K.
      { intros w Hw'. apply wp_bind, wp_gets. apply wp_bind. unfold push_local. apply wp_modify.
        apply wp_bind.
        destruct Hb' as (A & B & C & D & F & G). rewrite Nat.add_0_r in D.
        assert (forall cu, wpq (push w;;; ret (None, FContinue))
           (set_currents (cu ++ r_currents s) (set_locals ((name, length (r_stack s')) :: r_locals s') s'))
           (fun r s'0 => wfo (fst r) /\ snd r = FContinue /\ fst r = None /\
              plus s 1 [(name, length (r_stack s))] cu s'0) (errs s)) as K2.
        { intros cu. apply wp_bind. unfold push. apply wp_modify. apply wp_ret. splits; auto. exact I.
          unfold BalanceBase.plus. simpl. splits; auto.
          - destruct A. split; simpl; auto. apply Forall_app. auto.
          - rewrite app_length. simpl. lia.
          - rewrite D, F. reflexivity. }
        destruct current.
        - unfold push_current. apply wp_modify. specialize (K2 [(name, length (r_stack s'))]).
          match type of K2 with wpq _ ?S _ _ => match goal with |- wpq _ ?S' _ _ => replace S' with S
            by (unfold set_currents, set_locals; simpl; rewrite G; reflexivity) end end.
          eapply wp_mono; [exact K2| |auto]. intros [o fl] s2 (K3 & K4 & K5 & K6).
          cbn [fst snd] in *. subst. split; [exact I|]. cbn -[BalanceBase.plus]. rewrite Nat.add_0_r.
          rewrite D in K6. split; [exact K6|]. split; [discriminate|reflexivity].
        - apply wp_ret. specialize (K2 []).
          match type of K2 with wpq _ ?S _ _ => match goal with |- wpq _ ?S' _ _ => replace S' with S
            by (unfold set_currents, set_locals; simpl; simpl in G; rewrite <- G; reflexivity) end end.
          eapply wp_mono; [exact K2| |auto]. intros [o fl] s2 (K3 & K4 & K5 & K6).
          cbn [fst snd] in *. subst. split; [exact I|]. cbn -[BalanceBase.plus]. rewrite Nat.add_0_r.
          split; [exact K6|]. split; [discriminate|reflexivity]. }
      destruct v; try (apply wp_ret; apply K; exact Hv).
      (apply wp_slot; [noise|]). intros w Hw'. apply K. eapply wf_slot; eauto.
    + intros x s' A B. apply wp_ret. split; [exact A|]. exact B.
  - change (wf_item md fi [] cs (Item name sid current tryf (x :: ids) try_ids) /\ wf md fi [] cs r) in Hw.
    destruct Hw as [Hwl Hwr].
    eapply wp_mono with (Q := bpost false s) (X := errs s); [| |auto].
    2: { intros. apply bpost_ok; auto. }
    eapply vexpr_bp; eauto. intros v s1 Hv Hp1 Hr1.
    assert (wf_state s1) as Hs1 by (apply (proj1 Hp1)).
    apply wp_bind.
    assert (forall w, wf_v w -> wpq (vexpr ev (EItem (Item name sid current tryf (x :: ids) try_ids)) (LeftInsert true)
       "expected something from the left side" leave_res (fun a =>
              match a with
              | VUnsafeRef r p => pwrite (r, p) w ;;; ret (None, FContinue)
              | _ => panic "expected unsafe reference"
              end)) s1 (bpost false s) (errs s)) as K.
    { intros w Hw. eapply vexpr_bp; eauto. intros a s2 Ha Hp2 Hr2.
      destruct a; try (apply wp_panic; noise). apply wp_bind. apply (wp_pwrite chk E arity); auto; [apply (proj1 Hp2)|].
      intros s3 Hb3. apply wp_ret. split; [exact I|]. split; [|discriminate]. eapply bal_plus; eauto. }
    destruct v; try (apply wp_ret; apply K; exact Hv).
    (apply wp_slot; [noise|]). intros w Hw'. apply K. eapply wf_slot; eauto.
Qed.

(** ** If *)

Lemma else_if_bp : forall md fi cs conds blocks eb b s0 s,
  all_ok (wf md fi [] cs) conds -> all_ok (thread_ok (wf md fi []) adds cs) blocks ->
  match eb with Some b => thread_ok (wf md fi []) adds cs b | None => True end ->
  (b = true -> forallb (lastb (valued md fi)) blocks = true /\
     match eb with Some b => lastb (valued md fi) b = true | None => False end) ->
  bal s0 s -> ready md fi cs s ->
  wpq (else_if ev conds blocks eb) s (bpost b s0) (errs s0).
Proof.
  intros md fi cs conds. induction conds as [|c conds IH]; intros blocks eb b s0 s Hc Hbl Heb Hv Hb Hr.
  - simpl. destruct eb as [eb|].
    + eapply wp_mono; [eapply block_bp with (b := b); eauto|intros; eapply bpost_bal; eauto|intros; eapply plus_errs_trans; eauto].
      intros F. apply (Hv F).
    + apply wp_ret. split; [exact I|]. split; [exact Hb|]. intros F. destruct (Hv F) as [_ []].
  - destruct blocks as [|bl blocks].
    + simpl. destruct eb as [eb|].
      * eapply wp_mono; [eapply block_bp with (b := b); eauto|intros; eapply bpost_bal; eauto|intros; eapply plus_errs_trans; eauto].
        intros F. apply (Hv F).
      * apply wp_ret. split; [exact I|]. split; [exact Hb|]. intros F. destruct (Hv F) as [_ []].
    + simpl. destruct Hc as [Hc Hc']. destruct Hbl as [Hbl Hbl'].
      eapply vexpr_bp; eauto. intros v s1 Hv1 Hp1 Hr1.
      apply wp_bind. apply (wp_getv chk E arity); auto; [apply (proj1 Hp1)|]. intros v' Hv'.
      destruct v'; try (apply wp_fail; eapply plus_errs; eauto). destruct b0.
      * eapply wp_mono; [eapply block_bp with (b := b); eauto|intros; eapply bpost_bal; eauto|intros; eapply plus_errs_trans; eauto].
        intros F. destruct (Hv F) as [F1 _]. simpl in F1. apply andb_true_iff in F1. tauto.
      * apply IH; auto. intros F. destruct (Hv F) as [F1 F2]. simpl in F1. apply andb_true_iff in F1. tauto.
Qed.
Lemma if_bp : forall md fi cs c tb conds blocks eb s,
  wf md fi [] cs (EIf c tb conds blocks eb) -> ready md fi cs s ->
  wpq (if_expr ev c tb conds blocks eb) s (bpost (valued md fi (EIf c tb conds blocks eb)) s) (errs s).
Proof.
  intros md fi cs c tb conds blocks eb s Hw Hr.
  change (wf md fi [] cs c /\ thread_ok (wf md fi []) adds cs tb /\ all_ok (wf md fi [] cs) conds /\
    all_ok (thread_ok (wf md fi []) adds cs) blocks /\
    match eb with Some b => thread_ok (wf md fi []) adds cs b | None => True end) in Hw.
  destruct Hw as (Hc & Htb & Hcs & Hbs & Heb).
  assert (bal s s) as Hb by (apply bal_refl; eapply ready_wf; eauto).
  unfold if_expr. eapply vexpr_bp; eauto. intros v s1 Hv1 Hp1 Hr1.
  apply wp_bind. apply (wp_getv chk E arity); auto; [apply (proj1 Hp1)|]. intros v' Hv'.
  destruct v'; try (apply wp_fail; eapply plus_errs; eauto).
  assert (valued md fi (EIf c tb conds blocks eb) = true -> lastb (valued md fi) tb = true /\
     forallb (lastb (valued md fi)) blocks = true /\
     match eb with Some b => lastb (valued md fi) b = true | None => False end) as V.
  { simpl. intros F. rewrite !andb_true_iff in F. destruct F as [[F1 F2] F3]. splits; auto. destruct eb; congruence. }
  destruct b.
  - eapply wp_mono; [apply (block_bp tb md fi cs s1 (valued md fi (EIf c tb conds blocks eb))); auto; intros F; apply (V F)
      |intros; eapply bpost_bal; eauto|intros; eapply plus_errs_trans; eauto].
  - eapply else_if_bp; eauto. intros F. destruct (V F) as (F1 & F2 & F3). auto.
Qed.

(** ** Vectors *)

Lemma ready_nochk : forall md fi cs cs' s, chk = false -> ready md fi cs s -> ready md fi cs' s.
Proof. intros md fi cs cs' s H (A & B & C & D). unfold WfSpec.ready. splits; auto. congruence. Qed.

Lemma plus_temps : forall s e s', is_swizzle e = true ->
  plus s (length (adds e)) (frame_locals (length (r_stack s)) (adds e)) (names_at (length (r_stack s)) (adds_current e)) s' ->
  plus s (width e) [] [] s'.
Proof.
  intros s e s' H H0. destruct e; try discriminate. cbn [adds adds_current names_at map width] in *.
  rewrite repeat_length, frame_locals_none in H0. exact H0.
Qed.
Lemma ready_temps : forall md fi cs s e s', ready md fi cs s -> plus s (width e) [] [] s' ->
  ready md fi (temps e ++ cs) s'.
Proof.
  intros md fi cs s e s' H H0. eapply ready_plus; eauto. unfold temps. rewrite repeat_length, frame_locals_none. exact H0.
Qed.

(** Evaluating an argument: it takes [width] slots. *)
Lemma wp_arg : forall md fi cs e sd s (Q : res -> rt -> Prop) (X : rt -> Prop),
  wf md fi [] cs e -> arg_ok md fi e -> ready md fi cs s ->
  (forall o s', wfo o -> (match o with Some v => plus s (width e) [] [] (set_stack (r_stack s' ++ [v]) s') /\ bal s s' /\ width e = 1 | None => plus s (width e) [] [] s' end) -> Q (o, FContinue) s') ->
  (forall o fl s', wfo o -> fl <> FContinue -> abv s s' -> Q (o, fl) s') ->
  (forall s', errs s s' -> X s') ->
  wpq (ev e sd) s Q X.
Proof.
  intros md fi cs e sd s Q X Hw Ha Hr HQ HQ' HX.
  eapply wp_mono; [apply (HE _ _ _ _ sd _ Hw Hr)| |exact HX].
  intros [o fl] s' H. pose proof (okpost_abv _ _ _ _ _ _ H) as Habv. destruct H as [H1 H2]. cbn [fst snd] in *.
  destruct fl; try (apply HQ'; auto; discriminate). apply HQ; auto. destruct H2 as (H2 & H3 & H4).
  destruct o as [v|].
  - assert (is_swizzle e = false) as S.
    { destruct (is_swizzle e) eqn:S; auto. exfalso. assert (Some v = None) by auto. discriminate. }
    assert (adds e = []) as A.
    { destruct (adds e) eqn:A; auto. exfalso. assert (Some v = None) by (apply H4; left; discriminate). discriminate. }
    rewrite (adds_current_adds _ A), A in H2. simpl in H2. change (bal s s') in H2.
    assert (width e = 1) as W by (destruct e; auto; discriminate). splits; auto.
    + rewrite W. eapply plus_bal; [exact H2|]. apply plus_push; auto. apply (proj1 H2).
  - destruct Ha as [S|V]; [|exfalso; apply H3; auto]. eapply plus_temps; eauto.
Qed.

Lemma push_comp_args_bp : forall args sd cap md fi cs k s0 d s,
  thread_ok (wf md fi []) temps cs args -> all_ok (arg_ok md fi) args ->
  plus s0 d [] [] s -> ready md fi cs s ->
  match cap with Some st => st = length (r_stack s0) /\ fills d args = true | None => d + widths args = 4 end ->
  (forall s', plus s0 4 [] [] s' -> wpq k s' (bpost true s0) (errs s0)) ->
  wpq (push_comp_args ev sd cap args k) s (bpost true s0) (errs s0).
Proof.
  induction args as [|e args IH]; intros sd cap md fi cs k s0 d s Hw Ha Hp Hr Hc Hk; simpl.
  - destruct cap; [destruct Hc; discriminate|]. apply Hk. simpl in Hc. rewrite Nat.add_0_r in Hc. subst. auto.
  - destruct Hw as [Hw Hw']. destruct Ha as [Ha Ha']. apply wp_bind.
    eapply wp_arg; eauto.
    + intros o s' Ho Hs'.
      assert (forall s2, plus s (width e) [] [] s2 ->
         wpq (n <- stack_len ;;
          match cap with
          | Some st =>
              if n <? st then panic "overflow" else
              if 3 <? n - st then k else push_comp_args ev sd cap args k
          | None => push_comp_args ev sd cap args k
          end) s2 (bpost true s0) (errs s0)) as K.
      { intros s2 H2. apply wp_bind, wp_gets.
        pose proof (plus_trans _ _ _ _ _ _ _ _ _ _ _ _ Hp H2) as Hp2. simpl in Hp2.
        pose proof (ready_temps _ _ _ _ _ _ Hr H2) as Hr2.
        destruct cap as [st|].
        - destruct Hc as [-> Hc]. cbn [fills] in Hc. cbv zeta in Hc.
          assert (length (r_stack s2) = length (r_stack s0) + (d + width e)) as L by (apply Hp2).
          destruct (length (r_stack s2) <? length (r_stack s0)) eqn:F1; [apply Nat.ltb_lt in F1; lia|].
          destruct (3 <? length (r_stack s2) - length (r_stack s0)) eqn:F2.
          + apply Nat.ltb_lt in F2. destruct (d + width e <? 4) eqn:F3; [apply Nat.ltb_lt in F3; lia|].
            apply Nat.eqb_eq in Hc. apply Hk. rewrite Hc in Hp2. exact Hp2.
          + apply Nat.ltb_ge in F2. destruct (d + width e <? 4) eqn:F3; [|apply Nat.ltb_ge in F3; lia].
            eapply IH; eauto.
        - eapply IH; eauto. simpl in Hc. lia. }
      destruct o as [v|].
      * cbn [fst]. apply wp_bind. unfold push. apply wp_modify. apply K. apply Hs'.
      * cbn [fst]. apply wp_bind, wp_ret. apply K. exact Hs'.
    + intros o fl s' Ho Hfl Habv. pose proof (plus_abv_trans _ _ _ _ _ _ _ _ _ Hp Habv) as Habv0.
      destruct fl; try congruence; destruct o; try (apply wp_fail; apply abv_errs; auto);
      apply wp_ret; split; auto.
    + intros s' H. eapply plus_errs_trans; eauto.
Qed.

Lemma wp_pop : forall s0 d s (Q : value -> rt -> Prop) X, plus s0 (S d) [] [] s ->
  (forall v s', wf_v v -> plus s0 d [] [] s' -> Q v s') -> wpq pop s Q X.
Proof.
  intros s0 d s Q X ([A A'] & B & C & D & F & G) HQ. unfold wp, pop.
  destruct (rev (r_stack s)) as [|v l] eqn:R; [apply (f_equal (@length value)) in R; rewrite rev_length in R; cbn in R; lia|]. apply HQ.
  - assert (In v (r_stack s)) by (apply in_rev; rewrite R; left; reflexivity).
    rewrite Forall_forall in A. auto.
  - unfold BalanceBase.plus. simpl. splits; auto.
    + split; simpl; auto. apply Forall_removelast. auto.
    + rewrite removelast_length. lia.
Qed.
Lemma wp_pop_num : forall args i s0 d s (Q : f64 -> rt -> Prop), plus s0 (S d) [] [] s ->
  (forall v s', plus s0 d [] [] s' -> Q v s') -> wpq (pop_num args i) s Q (errs s0).
Proof.
  intros args i s0 d s Q Hp HQ. unfold pop_num. apply wp_bind. eapply wp_pop; eauto. intros v s' Hv Hp'.
  apply wp_bind. apply (wp_getv chk E arity); auto; [apply (proj1 Hp')|]. intros v' Hv'.
  unfold arg_fail. destruct v'; try (destruct (i <? length args); [apply wp_fail; eapply plus_errs; eauto|(apply wp_panic; noise)]).
  apply wp_ret. auto.
Qed.
Lemma wp_pop_vec : forall args i s0 d s (Q : vec4 -> rt -> Prop), plus s0 (S d) [] [] s ->
  (forall v s', plus s0 d [] [] s' -> Q v s') -> wpq (pop_vec args i) s Q (errs s0).
Proof.
  intros args i s0 d s Q Hp HQ. unfold pop_vec. apply wp_bind. eapply wp_pop; eauto. intros v s' Hv Hp'.
  apply wp_bind. apply (wp_getv chk E arity); auto; [apply (proj1 Hp')|]. intros v' Hv'.
  unfold arg_fail. destruct v'; try (destruct (i <? length args); [apply wp_fail; eapply plus_errs; eauto|(apply wp_panic; noise)]).
  apply wp_ret. auto.
Qed.
Lemma vec4_bp : forall md fi cs args sd s, wf md fi [] cs (EVec4 args) -> ready md fi cs s ->
  wpq (vec4_ ev args sd) s (bpost true s) (errs s).
Proof.
  intros md fi cs args sd s H0 Hr.
  change (thread_ok (wf md fi []) temps cs args /\ all_ok (arg_ok md fi) args /\ fills 0 args = true) in H0.
  destruct H0 as (Hw & Ha & Hf). unfold vec4_. apply wp_bind, wp_gets.
  eapply push_comp_args_bp with (d := 0); eauto; [apply bal_refl; eapply ready_wf; eauto|].
  intros s4 H4. apply wp_bind. eapply wp_pop_num; eauto. intros w s3 H3. apply wp_bind.
  eapply wp_pop_num; eauto. intros z s2 H2. apply wp_bind. eapply wp_pop_num; eauto. intros y s1 H1.
  apply wp_bind. eapply wp_pop_num; eauto. intros x s5 H5. apply wp_ret. split; [exact I|].
  split; [exact H5|discriminate].
Qed.
Lemma mat4_bp : forall md fi cs args sd s, wf md fi [] cs (EMat4 args) -> ready md fi cs s ->
  wpq (mat4_ ev args sd) s (bpost true s) (errs s).
Proof.
  intros md fi cs args sd s H0 Hr.
  change (thread_ok (wf md fi []) temps cs args /\ all_ok (arg_ok md fi) args /\ widths args = 4) in H0.
  destruct H0 as (Hw & Ha & Hf). unfold mat4_.
  eapply push_comp_args_bp with (d := 0); eauto; [apply bal_refl; eapply ready_wf; eauto|].
  intros s4 H4. apply wp_bind. eapply wp_pop_vec; eauto. intros w s3 H3. apply wp_bind.
  eapply wp_pop_vec; eauto. intros z s2 H2. apply wp_bind. eapply wp_pop_vec; eauto. intros y s1 H1.
  apply wp_bind. eapply wp_pop_vec; eauto. intros x s5 H5. apply wp_ret. split; [exact I|].
  split; [exact H5|discriminate].
Qed.
End WithEv.
End Eval.
