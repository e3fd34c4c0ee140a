(** * Loops keep the stacks balanced. *)
From Coq Require Import String List ZArith Bool Arith Lia.
From Verif Require Import Float64 Syntax InterpModel WfSpec SyntaxProofs BalanceBase BalanceEval.
Import ListNotations.
Local Open Scope string_scope.
Local Open Scope nat_scope.
Local Open Scope list_scope.

#[global] Arguments BNext {A}. #[global] Arguments BStop {A}. #[global] Arguments BRet {A}.
#[global] Arguments BBreak {A}. #[global] Arguments BCont {A}.
#[global] Arguments LDone {A}. #[global] Arguments LRet {A}.
#[global] Arguments GOk {A}. #[global] Arguments GRet {A}.

Section Loops.
Context (chk : bool) (E : env) (arity : string -> nat).
Notation wpq := (wp (quiet chk)).
Notation wf_v := (wf_v chk E arity).
Notation wf := (wf chk E arity).
Notation wf_state := (wf_state chk E arity).
Notation ready := (ready chk E arity).
Notation plus := (plus chk E arity).
Notation bal := (bal chk E arity).
Notation abv := (abv chk E arity).
Notation errs := (errs chk E arity).
Notation valued := (valued E).
Notation wfo := (wfo chk E arity).
Notation okpost := (okpost chk E arity).
Notation bpost := (bpost chk E arity).
Notation evspec := (evspec chk E arity).

(** More on the stack, but no more current objects. *)
Definition leftc (s s' : rt) : Prop := abv s s' /\ r_currents s' = r_currents s.

Lemma bal_leftc : forall s s', bal s s' -> leftc s s'.
Proof. exact (bal_left chk E arity). Qed.
Lemma leftc_trans : forall s0 s1 s2, leftc s0 s1 -> leftc s1 s2 -> leftc s0 s2.
Proof.
  intros s0 s1 s2 [(A1 & A2 & A3) A4] [(B1 & B2 & B3) B4]. split; [|congruence].
  split; [exact B1|]. split; [eapply above_trans; eauto|congruence].
Qed.
Lemma leftc_abv : forall s0 s1 s2, leftc s0 s1 -> abv s1 s2 -> abv s0 s2.
Proof.
  intros s0 s1 s2 [(A1 & A2 & A3) A4] (B1 & B2 & B3).
  split; [exact B1|]. split; [eapply above_trans; eauto|congruence].
Qed.
Lemma leftc_errs : forall s0 s1 s2, leftc s0 s1 -> errs s1 s2 -> errs s0 s2.
Proof. intros s0 s1 s2 [(A1 & A2 & A3) A4] (B1 & B2). split; [exact B1|]. eapply above_trans; eauto. Qed.
Lemma leftc_plus : forall s0 s1 d nl s2, leftc s0 s1 -> plus s1 d nl [] s2 -> leftc s0 s2.
Proof.
  intros s0 s1 d nl s2 H P. eapply leftc_trans; eauto. split; [eapply plus_abv; eauto|].
  destruct P as (_ & _ & _ & _ & _ & P). exact P.
Qed.
Lemma ready_left : forall md fi cs s0 s, ready md fi cs s0 -> leftc s0 s -> (chk = true -> bal s0 s) -> ready md fi cs s.
Proof.
  intros md fi cs s0 s Hr H Hb. destruct (Bool.bool_dec chk true) as [C|C].
  - eapply ready_bal; eauto.
  - destruct H as [(A1 & (A2 & _) & A3) _]. destruct Hr as (R1 & R2 & R3 & R4). unfold WfSpec.ready, top_of in *.
    rewrite A3, A2. splits; auto. intros; congruence.
Qed.

(** What an iteration may give. *)
Definition bodypost {A} (PA : A -> Prop) (s : rt) (b : bstep A) (s' : rt) : Prop :=
  match b with
  | BNext a | BStop a | BBreak _ a | BCont _ a => PA a /\ leftc s s'
  | BRet x => wfo x /\ abv s s'
  end.
(** How a loop may end. *)
Definition lpost {A} (PA : A -> Prop) (s : rt) (r : lres A) (s' : rt) : Prop :=
  match r with
  | LDone a fl => PA a /\ fl <> FReturn /\ bal s s'
  | LRet x => wfo x /\ abv s s'
  end.

Lemma wp_loop : forall {A} (PA : A -> Prop) n label sB test body next a s,
  PA a -> bal sB s ->
  (forall s, bal sB s -> wpq test s (fun o s' => bal sB s' /\ wfo o) (errs sB)) ->
  (forall v a s, wf_v v -> PA a -> bal sB s -> wpq (body v a) s (bodypost PA s) (errs s)) ->
  (forall s, leftc sB s -> wpq next s (fun _ s' => leftc sB s') (errs sB)) ->
  wpq (loop n label (length (r_stack sB)) (length (r_locals sB)) test body next a) s
     (fun r s' => match r with
        | LDone a fl => PA a /\ fl <> FReturn /\ leftc sB s'
        | LRet x => wfo x /\ abv sB s'
        end) (errs sB).
Proof.
  intros A PA. induction n as [|n IH]; intros label sB test body next a s Ha Hb Ht Hbody Hn; [apply wp_oof|].
  cbn [loop]. apply wp_bind. eapply wp_mono; [apply Ht; auto| |auto].
  intros o s1 [Hb1 Ho]. destruct o as [ind|].
  2: { apply wp_ret. splits; auto; [discriminate|]. apply bal_leftc; auto. }
  apply wp_bind. eapply wp_mono; [apply (Hbody ind a s1); auto| |].
  2: { intros s2 X. eapply plus_errs_trans; eauto. }
  intros b s2 Hbp. cbv zeta.
  assert (forall a', PA a' -> leftc sB s2 ->
    wpq (ok <- next ;;
        if ok : bool then
          trunc_stack (length (r_stack sB)) ;;; trunc_locals (length (r_locals sB)) ;;;
          loop n label (length (r_stack sB)) (length (r_locals sB)) test body next a'
        else ret (LDone a' FContinue)) s2
     (fun r s' => match r with
        | LDone a fl => PA a /\ fl <> FReturn /\ leftc sB s'
        | LRet x => wfo x /\ abv sB s'
        end) (errs sB)) as Adv.
  { intros a' Ha' Hl. apply wp_bind. eapply wp_mono; [apply Hn; auto| |auto].
    intros ok s3 H3. destruct ok.
    - apply wp_cut2; [apply H3|]. apply IH; auto. destruct H3. apply cut2_bal; auto.
    - apply wp_ret. splits; auto. discriminate. }
  pose proof (bal_leftc _ _ Hb1) as L1.
  destruct b as [a'|a'|x|l a'|l a']; simpl in Hbp; destruct Hbp as [P1 P2].
  - apply Adv; auto. eapply leftc_trans; eauto.
  - apply wp_ret. splits; auto; [discriminate|]. eapply leftc_trans; eauto.
  - apply wp_ret. split; auto. eapply leftc_abv; eauto.
  - apply wp_ret. splits; auto; [destruct (concerns label l); discriminate|]. eapply leftc_trans; eauto.
  - destruct (concerns label l).
    + apply Adv; auto. eapply leftc_trans; eauto.
    + apply wp_ret. splits; auto; [discriminate|]. eapply leftc_trans; eauto.
Qed.

Lemma wp_count_test : forall st stop sB s, bal sB s ->
  wpq (count_test st stop) s (fun o s' => bal sB s' /\ wfo o) (errs sB).
Proof.
  intros st stop sB s Hb. unfold count_test. (apply wp_bind, wp_slot; [noise|]). intros v Hv.
  destruct v; try (apply wp_fail; eapply plus_errs; eauto). apply wp_ret. split; auto. destruct (flt x stop); exact I.
Qed.
Lemma wp_count_next : forall st sB s, leftc sB s -> wpq (count_next st) s (fun _ s' => leftc sB s') (errs sB).
Proof.
  intros st sB s Hb. unfold count_next. (apply wp_bind, wp_slot; [noise|]). intros v Hv.
  assert (wf_state s) as Hs by (apply (proj1 Hb)).
  assert (wf_v v) as Hwv by (eapply wf_slot; eauto).
  destruct v; try (apply wp_fail; apply abv_errs; apply (proj1 Hb)).
  apply wp_bind, wp_modify, wp_ret. eapply leftc_trans; [exact Hb|]. apply bal_leftc. apply bal_set; auto.
Qed.
Lemma wp_recv : forall ch s (Q : option value -> rt -> Prop) X, wf_state s ->
  (forall o s', wfo o -> bal s s' -> Q o s') -> wpq (recv ch) s Q X.
Proof.
  intros ch s Q X Hs HQ. unfold wp, recv. destruct (nth_error (w_queues (r_world s)) ch) as [[|m q]|] eqn:N.
  - apply HQ; [exact I|apply bal_refl; auto].
  - destruct Hs as [A B]. pose proof (nth_error_Forall _ _ _ _ B N) as F. inversion F; subst. apply HQ; [exact H1|].
    unfold BalanceBase.bal, BalanceBase.plus. simpl. splits; auto. split; simpl; auto. apply Forall_list_set; auto.
  - apply HQ; [exact I|apply bal_refl; auto].
Qed.
Lemma wp_in_next : forall ch st sB s, leftc sB s -> wpq (in_next ch st) s (fun _ s' => leftc sB s') (errs sB).
Proof.
  intros ch st sB s Hb. unfold in_next. apply wp_bind. apply wp_recv; [apply (proj1 Hb)|]. intros o s1 Ho Hb1.
  assert (leftc sB s1) as L1 by (eapply leftc_trans; [exact Hb|apply bal_leftc; auto]).
  destruct o as [v|].
  - (apply wp_bind, wp_slot; [noise|]). intros w Hw. apply wp_bind, wp_modify, wp_ret.
    eapply leftc_trans; [exact L1|]. apply bal_leftc. apply bal_set; auto. apply (proj1 L1).
  - apply wp_ret. auto.
Qed.

Section WithEv.
Variable ev : expr -> side -> M res.
Hypothesis HE : evspec ev.

(** A counter pushed under a name. *)
Lemma plus_counter : forall s name v, wf_state s -> wf_v v ->
  plus s 1 [(name, length (r_stack s))] []
    (set_stack (r_stack s ++ [v]) (set_locals ((name, length (r_stack s)) :: r_locals s) s)).
Proof.
  intros s name v [A B] Hv. unfold BalanceBase.plus. simpl. splits; auto.
  - split; simpl; auto. apply Forall_app. auto.
  - rewrite app_length. reflexivity.
Qed.

Lemma wp_for_n_core : forall {A} (PA : A -> Prop) n label md fi cs name start stop body a s,
  match start with Some x => wf md fi [] cs x | None => True end -> wf md fi [] cs stop ->
  ready md fi cs s -> PA a ->
  (forall st v a s, wf_v v -> PA a -> ready md fi (Some name :: cs) s -> wpq (body st v a) s (bodypost PA s) (errs s)) ->
  wpq (for_n_core ev n label name start stop body a) s (lpost PA s) (errs s).
Proof.
  intros A PA n label md fi cs name start stop body a s Hst Hsp Hr Ha Hbody.
  unfold for_n_core. apply wp_bind, wp_gets. apply wp_bind, wp_gets. cbv zeta.
  match goal with |- wpq (match start with Some e => num_expr ev e ?G | None => _ end) _ _ _ => set (go := G) end.
  assert (forall x s1, bal s s1 -> wpq (go x) s1 (lpost PA s) (errs s)) as Go.
  { intros x s1 Hb1. assert (ready md fi cs s1) as Hr1 by (eapply ready_bal; eauto).
    unfold go, num_expr. eapply (wp_vexpr chk E arity ev HE); eauto.
    - intros v s2 Hv Hb2 Hr2. assert (bal s s2) as Hb by (eapply plus_bal; eauto).
      apply wp_bind. apply (wp_getv chk E arity); auto; [eapply ready_wf; eauto|]. intros v' Hv'.
      destruct v'; try (apply wp_fail; eapply plus_errs; eauto).
      apply wp_bind, wp_gets. apply wp_bind. unfold push_local. apply wp_modify.
      apply wp_bind. unfold push. apply wp_modify. cbn [r_stack set_locals].
      pose proof (plus_counter s2 name (vf64 x) (ready_wf _ _ _ _ _ _ _ Hr2) I) as P.
      set (sB := set_stack _ _) in *. apply wp_bind, wp_gets. apply wp_bind, wp_gets. apply wp_bind.
      assert (ready md fi (Some name :: cs) sB) as HrB.
      { apply (ready_plus chk E arity md fi cs s2 [Some name] [] sB Hr2). simpl. rewrite Nat.add_0_r. exact P. }
      assert (wf_state sB) as HsB by (apply (proj1 P)).
      pose proof (plus_bal _ _ _ _ _ _ _ _ _ Hb P) as P0.
      eapply wp_mono; [apply (wp_loop PA n label sB); auto| |].
      + apply bal_refl; auto.
      + intros. apply wp_count_test; auto.
      + intros w a' s3 Hw Ha' Hb3. apply Hbody; auto. eapply ready_bal; eauto.
      + intros. apply wp_count_next; auto.
      + intros r s3 H3. destruct r as [a' fl|y].
        * destruct H3 as (H3 & H4 & H5). 
          assert (leftc s s3) as L.
          { eapply leftc_trans; [|exact H5]. split; [eapply plus_abv; eauto|]. destruct P0 as (_ & _ & _ & _ & _ & P0). exact P0. }
          apply wp_cut2; [apply L|]. apply wp_ret. split; [|split]; auto. destruct L. apply cut2_bal; auto.
        * apply wp_ret. destruct H3. split; auto. eapply plus_abv_trans; eauto.
      + intros s3 H3. eapply plus_errs_trans; eauto.
    - intros y s2 Hy H2. apply wp_ret. split; auto. eapply plus_abv_trans; eauto.
    - intros s2 H2. eapply plus_errs_trans; eauto. }
  assert (bal s s) as B0 by (apply bal_refl; eapply ready_wf; eauto).
  destruct start as [e|]; [|apply Go; auto].
  unfold num_expr. eapply (wp_vexpr chk E arity ev HE); eauto.
  - intros v s2 Hv Hb2 Hr2. apply wp_bind. apply (wp_getv chk E arity); auto; [eapply ready_wf; eauto|]. intros v' Hv'.
    destruct v'; try (apply wp_fail; eapply plus_errs; eauto). apply Go; auto.
  - intros y s2 Hy H2. apply wp_ret. split; auto.
Qed.

Lemma wp_for_in_core : forall {A} (PA : A -> Prop) n label md fi cs name iter body a s,
  wf md fi [] cs iter -> ready md fi cs s -> PA a ->
  (forall st v a s, wf_v v -> PA a -> ready md fi (Some name :: cs) s -> wpq (body st v a) s (bodypost PA s) (errs s)) ->
  wpq (for_in_core ev n label name iter body a) s
    (fun o s' => match o with Some r => lpost PA s r s' | None => bal s s' end) (errs s).
Proof.
  intros A PA n label md fi cs name iter body a s Hit Hr Ha Hbody.
  unfold for_in_core. apply wp_bind, wp_gets. apply wp_bind, wp_gets.
  eapply (wp_vexpr chk E arity ev HE); eauto.
  - intros v s1 Hv Hb1 Hr1. apply wp_bind. apply (wp_getv chk E arity); auto; [eapply ready_wf; eauto|]. intros v' Hv'.
    destruct v'; try (apply wp_fail; eapply plus_errs; eauto).
    apply wp_bind. apply wp_recv; [eapply ready_wf; eauto|]. intros o s2 Ho Hb2'.
    assert (bal s s2) as Hb by (eapply plus_bal; eauto). assert (ready md fi cs s2) as Hr2 by (eapply ready_bal; eauto).
    destruct o as [m|]; [|apply wp_ret; auto].
    apply wp_bind, wp_gets. apply wp_bind. unfold push_local. apply wp_modify.
    apply wp_bind. unfold push. apply wp_modify. cbn [r_stack set_locals].
    pose proof (plus_counter s2 name m (ready_wf _ _ _ _ _ _ _ Hr2) Ho) as P.
    set (sB := set_stack _ _) in *. apply wp_bind, wp_gets. apply wp_bind, wp_gets. apply wp_bind.
    assert (ready md fi (Some name :: cs) sB) as HrB.
    { apply (ready_plus chk E arity md fi cs s2 [Some name] [] sB Hr2). simpl. rewrite Nat.add_0_r. exact P. }
    assert (wf_state sB) as HsB by (apply (proj1 P)).
    pose proof (plus_bal _ _ _ _ _ _ _ _ _ Hb P) as P0.
    eapply wp_mono; [apply (wp_loop PA n label sB); auto| |].
    + apply bal_refl; auto.
    + intros s3 H3. apply wp_ret. split; auto; try exact I.
    + intros w a' s3 Hw Ha' Hb3. apply Hbody; auto. eapply ready_bal; eauto.
    + intros. apply wp_in_next; auto.
    + intros r s3 H3. destruct r as [a' fl|y].
      * destruct H3 as (H3 & H4 & H5). 
        assert (leftc s s3) as L.
        { eapply leftc_trans; [|exact H5]. split; [eapply plus_abv; eauto|]. destruct P0 as (_ & _ & _ & _ & _ & P0). exact P0. }
        apply wp_cut2; [apply L|]. apply wp_ret. split; [|split]; auto. destruct L. apply cut2_bal; auto.
      * apply wp_ret. destruct H3. split; auto. eapply plus_abv_trans; eauto.
    + intros s3 H3. eapply plus_errs_trans; eauto.
  - intros y s2 Hy H2. apply wp_ret. split; auto.
Qed.

(** Bodies *)
Lemma wp_block_body : forall {A} (PA : A -> Prop) md fi cs b some none a s,
  thread_ok (wf md fi []) adds cs b -> ready md fi cs s -> PA a ->
  (forall v s', wf_v v -> bal s s' -> wpq (some a v) s' (bodypost PA s) (errs s)) ->
  (forall s', bal s s' -> wpq (none a) s' (bodypost PA s) (errs s)) ->
  wpq (block_body ev b some none a) s (bodypost PA s) (errs s).
Proof.
  intros A PA md fi cs b some none a s Hw Hr Ha Hs Hn. unfold block_body. apply wp_bind.
  eapply wp_mono; [eapply (wp_block chk E arity ev HE); eauto| |auto].
  intros [o fl] s' (H1 & H2 & _). cbn [fst snd] in *.
  destruct fl; destruct o as [v|]; auto; try (apply wp_ret; split; auto; try (apply bal_leftc; auto); eapply plus_abv; eauto).
Qed.

Definition best_ok (a : f64 * option (list value)) : Prop := match snd a with Some l => Forall wf_v l | None => True end.
Definition find_ok (a : bool * option (list value)) : Prop := match snd a with Some l => Forall wf_v l | None => True end.
Lemma add_ind_ok : forall sec i, match sec with Some l => Forall wf_v l | None => True end -> wf_v i ->
  match add_ind sec i with Some l => Forall wf_v l | None => True end.
Proof. intros [l|] i H Hi; simpl; [apply Forall_app; auto|constructor; auto]. Qed.
Lemma sec_f64 : forall x sec, wf_v (VF64 x sec) <-> match sec with Some l => Forall wf_v l | None => True end.
Proof. intros x [l|]; [|split; auto]. change (all_ok wf_v l <-> Forall wf_v l). apply all_ok_Forall. Qed.
Lemma sec_bool : forall x sec, wf_v (VBool x sec) <-> match sec with Some l => Forall wf_v l | None => True end.
Proof. intros x [l|]; [|split; auto]. change (all_ok wf_v l <-> Forall wf_v l). apply all_ok_Forall. Qed.

Definition any {A} (_ : A) : Prop := True.
Lemma wp_skip : forall {A} (PA : A -> Prop) (a : A) s0 s, PA a -> bal s0 s -> wpq (skip_none a) s (bodypost PA s0) (errs s0).
Proof. intros. apply wp_ret. split; auto. apply bal_leftc; auto. Qed.
Lemma wp_need : forall {A} (PA : A -> Prop) (a : A) s0 s, bal s0 s -> wpq (need_value a) s (bodypost PA s0) (errs s0).
Proof. intros. apply wp_fail. eapply plus_errs; eauto. Qed.
Lemma wp_num_step : forall f a v s0 s, wf_v v -> bal s0 s -> wpq (num_step f a v) s (bodypost any s0) (errs s0).
Proof.
  intros f a v s0 s Hv Hb. unfold num_step. apply wp_bind. apply (wp_getv chk E arity); auto; [apply (proj1 Hb)|].
  intros v' Hv'. destruct v'; try (apply wp_fail; eapply plus_errs; eauto). apply wp_ret. split; [exact I|apply bal_leftc; auto].
Qed.
Lemma wp_vec_step : forall f a v s0 s, wf_v v -> bal s0 s -> wpq (vec_step f a v) s (bodypost any s0) (errs s0).
Proof.
  intros f a v s0 s Hv Hb. unfold vec_step. apply wp_bind. apply (wp_getv chk E arity); auto; [apply (proj1 Hb)|].
  intros v' Hv'. destruct v'; try (apply wp_fail; eapply plus_errs; eauto). apply wp_ret. split; [exact I|apply bal_leftc; auto].
Qed.
Lemma wp_best_step : forall better ind a v s0 s, wf_v v -> bal s0 s -> best_ok a ->
  (forall s (Q : value -> rt -> Prop) X, wf_state s -> (forall i, wf_v i -> Q i s) -> wpq ind s Q X) ->
  wpq (best_step better ind a v) s (bodypost best_ok s0) (errs s0).
Proof.
  intros better ind a v s0 s Hv Hb Ha Hi. unfold best_step. apply wp_bind. apply (wp_getv chk E arity); auto; [apply (proj1 Hb)|].
  intros v' Hv'. destruct v'; try (apply wp_fail; eapply plus_errs; eauto).
  destruct (fis_nan (fst a) || better (fst a) x)%bool.
  - apply wp_bind. apply Hi; [apply (proj1 Hb)|]. intros i Hwi. apply wp_ret. split; [|apply bal_leftc; auto].
    apply add_ind_ok; auto. apply (proj1 (sec_f64 x sec) Hv').
  - apply wp_ret. split; auto. apply bal_leftc; auto.
Qed.
Lemma wp_find_step : forall want ind a v s0 s, wf_v v -> bal s0 s -> find_ok a ->
  (forall s (Q : value -> rt -> Prop) X, wf_state s -> (forall i, wf_v i -> Q i s) -> wpq ind s Q X) ->
  wpq (find_step want ind a v) s (bodypost find_ok s0) (errs s0).
Proof.
  intros want ind a v s0 s Hv Hb Ha Hi. unfold find_step. apply wp_bind. apply (wp_getv chk E arity); auto; [apply (proj1 Hb)|].
  intros v' Hv'. destruct v'; try (apply wp_fail; eapply plus_errs; eauto).
  destruct (Bool.eqb b want).
  - apply wp_bind. apply Hi; [apply (proj1 Hb)|]. intros i Hwi. apply wp_ret. split; [|apply bal_leftc; auto].
    apply add_ind_ok; auto. apply (proj1 (sec_bool b sec) Hv').
  - apply wp_ret. split; auto. apply bal_leftc; auto.
Qed.
Lemma wp_sift_step : forall a v s0 s, wf_v v -> bal s0 s -> Forall wf_v a ->
  wpq (sift_step a v) s (bodypost (Forall wf_v) s0) (errs s0).
Proof. intros. apply wp_ret. split; [apply Forall_app; auto|apply bal_leftc; auto]. Qed.

Lemma wp_done : forall {A} (PA : A -> Prop) b fin r s0 s, lpost PA s0 r s ->
  (forall a, PA a -> wfo (fin a) /\ (b = true -> fin a <> None)) ->
  wpq (done fin r) s (bpost b s0) (errs s0).
Proof.
  intros A PA b fin r s0 s H Hf. unfold done. destruct r as [a fl|x].
  - destruct H as (H1 & H2 & H3). destruct (Hf a H1) as [F1 F2]. apply wp_ret. split; [exact F1|].
    cbn [snd fst]. destruct fl; try congruence; [split; auto|apply bal_leftc; auto|apply bal_leftc; auto].
  - destruct H. apply wp_ret. split; auto.
Qed.

(** Link loops *)
Lemma wp_link_items : forall items md fi cs acc s,
  thread_ok (wf md fi []) adds cs items -> all_ok (fun e => adds_current e = []) items -> ready md fi cs s ->
  wpq (link_items ev items acc) s (bodypost any s) (errs s).
Proof.
  induction items as [|e items IH]; intros md fi cs acc s Hw Hac Hr; simpl.
  - apply wp_ret. split; [exact I|]. apply bal_leftc. apply bal_refl. eapply ready_wf; eauto.
  - destruct Hw as [Hw Hw']. destruct Hac as [Hac Hac']. apply wp_bind.
    eapply wp_mono; [apply (HE _ _ _ _ Right _ Hw Hr)| |auto].
    intros [o fl] s' H. pose proof (okpost_abv _ _ _ _ _ _ _ _ _ H) as Habv. destruct H as [H1 H2].
    cbn [fst snd] in *.
    assert (forall acc, fl = FContinue -> wpq (link_items ev items acc) s' (bodypost any s) (errs s)) as K.
    { intros acc' ->. destruct H2 as (H2 & _ & _). rewrite Hac in H2.
      assert (leftc s s') as L by (eapply leftc_plus; [apply bal_leftc, bal_refl; eapply ready_wf; eauto|exact H2]).
      eapply wp_mono; [apply (IH md fi (adds e ++ cs) acc' s' Hw' Hac')| |].
      - eapply ready_plus; eauto.
      - intros b s3 B. destruct b; destruct B as [B1 B2]; split; auto;
        first [exact (leftc_trans _ _ _ L B2)|exact (leftc_abv _ _ _ L B2)].
      - intros s3 B. eapply leftc_errs; eauto. }
    destruct fl; try (destruct o; apply wp_ret; split; auto; fail);
      try (destruct o; (apply wp_ret; split; [exact I|exact H2])).
    destruct o as [v|]; [|apply K; auto].
    apply wp_bind. apply (wp_getv chk E arity); auto; [apply (proj1 Habv)|]. intros v' Hv'.
    destruct (link_push acc v'); [apply K; auto|apply wp_fail; apply abv_errs; auto].
Qed.
Lemma wp_pass_on : forall r s0 s, lpost (@any (list lelem)) s0 r s -> wpq (ret (pass_on r)) s (bodypost any s0) (errs s0).
Proof.
  intros r s0 s H. apply wp_ret. destruct r as [a fl|x]; simpl.
  - destruct H as (H1 & H2 & H3). destruct fl; try congruence; split; auto; apply bal_leftc; auto.
  - exact H.
Qed.
Lemma sub_link_n_lp : forall d n md fi cs label name start stop b a s,
  wf md fi [] cs (EForN KLink label name start stop b) -> ready md fi cs s ->
  wpq (sub_link_n ev d n label name start stop b a) s (lpost any s) (errs s).
Proof.
  induction d as [|d IH]; intros n md fi cs label name start stop b a s Hw Hr;
  change (match start with Some x => wf md fi [] cs x | None => True end /\ wf md fi [] cs stop /\
      thread_ok (wf md fi []) adds (Some name :: cs) b /\ (chk = true -> KLink = KLink -> link_body b)) in Hw; destruct Hw as (W1 & W2 & W3 & W4);
  cbn [sub_link_n]; eapply wp_for_n_core; eauto; try exact I; intros st v a' s' Hv _ Hr';
  (destruct b as [|e b]; [apply wp_panic; intros C; destruct (W4 C eq_refl)|]; destruct W3 as [W3 _]; destruct e; try (apply wp_panic; intros C; destruct (W4 C eq_refl));
   [match type of W3 with WfSpec.wf _ _ _ _ _ _ _ (ELink ?l) =>
      change (thread_ok (wf md fi []) adds (Some name :: cs) l /\ all_ok (fun e => adds_current e = []) l) in W3 end;
    destruct W3; eapply wp_link_items; eauto|]; destruct k; try (apply wp_panic; intros C; destruct (W4 C eq_refl))).
  - apply wp_oof.
  - apply wp_bind. eapply wp_mono; [eapply IH; eauto| |auto]. intros r s2 H2. apply wp_pass_on; auto.
Qed.
Lemma sub_link_in_lp : forall d n md fi cs label name iter b a s,
  wf md fi [] cs (EForIn KLink label name iter b) -> ready md fi cs s ->
  wpq (sub_link_in ev d n label name iter b a) s (lpost any s) (errs s).
Proof.
  induction d as [|d IH]; intros n md fi cs label name iter b a s Hw Hr;
  change (wf md fi [] cs iter /\ thread_ok (wf md fi []) adds (Some name :: cs) b /\
      (chk = true -> KLink <> KSumVec4 /\ KLink <> KProdVec4 /\ (KLink = KLink -> link_body_in b))) in Hw; destruct Hw as (W2 & W3 & W4');
  assert (W4 : chk = true -> KLink = KLink -> link_body_in b) by (intros C; apply (W4' C)); clear W4';
  cbn [sub_link_in]; apply wp_bind;
  (eapply wp_mono; [eapply (wp_for_in_core any); eauto; try exact I|
    intros o s1 H1; destruct o; apply wp_ret; [exact H1|split; [exact I|split; [discriminate|exact H1]]]|auto]);
  intros st v a' s' Hv _ Hr';
  (destruct b as [|e b]; [apply wp_panic; intros C; destruct (W4 C eq_refl)|]; destruct W3 as [W3 _]; destruct e; try (apply wp_panic; intros C; destruct (W4 C eq_refl));
   [match type of W3 with WfSpec.wf _ _ _ _ _ _ _ (ELink ?l) =>
      change (thread_ok (wf md fi []) adds (Some name :: cs) l /\ all_ok (fun e => adds_current e = []) l) in W3 end;
    destruct W3; eapply wp_link_items; eauto|]; destruct k; try (apply wp_panic; intros C; destruct (W4 C eq_refl))).
  - apply wp_oof.
  - apply wp_bind. eapply wp_mono; [eapply IH; eauto| |auto]. intros r s2 H2. apply wp_pass_on; auto.
Qed.
Lemma wp_link_done : forall r s0 s, lpost (@any (list lelem)) s0 r s -> wpq (link_done r) s (bpost true s0) (errs s0).
Proof.
  intros r s0 s H. destruct r as [a fl|x]; simpl.
  - destruct H as (H1 & H2 & H3). destruct fl; try congruence; apply wp_ret; split; try exact I; cbn [snd fst].
    + split; [auto|discriminate].
    + apply bal_leftc; auto.
    + apply bal_leftc; auto.
  - destruct H. apply wp_ret. split; auto.
Qed.

Lemma for_n_bp : forall n k md fi cs label name start stop b s,
  wf md fi [] cs (EForN k label name start stop b) -> ready md fi cs s ->
  wpq (for_n ev n k label name start stop b) s (bpost (valued md fi (EForN k label name start stop b)) s) (errs s).
Proof.
  intros n k md fi cs label name start stop b s Hw Hr.
  assert (Hw' := Hw).
  change (match start with Some x => wf md fi [] cs x | None => True end /\ wf md fi [] cs stop /\
      thread_ok (wf md fi []) adds (Some name :: cs) b /\ (chk = true -> k = KLink -> link_body b)) in Hw. destruct Hw as (W1 & W2 & W3 & _).
  assert (forall v s (Q : value -> rt -> Prop) (X : rt -> Prop), wf_v v -> wf_state s -> (forall i, wf_v i -> Q i s) -> wpq (ret v) s Q X) as Hret
    by (intros; apply wp_ret; auto).
  destruct k; cbn [for_n WfSpec.valued]; apply wp_bind.
  1: eapply wp_mono; [eapply (wp_for_n_core any); eauto; try exact I|intros r s' H; eapply (wp_done any); eauto; intros; split; [exact I|discriminate]|auto];
     intros; eapply (wp_block_body any); eauto; try exact I; intros; [apply wp_ret; split; [exact I|apply bal_leftc; auto]|apply wp_skip; auto; exact I].
  all: try (eapply wp_mono; [eapply (wp_for_n_core any); eauto; try exact I|intros r s' H; eapply (wp_done any); eauto; intros; split; [exact I|discriminate]|auto];
     intros; eapply (wp_block_body any); eauto; try exact I; intros; [first [apply wp_num_step|apply wp_vec_step]; auto|apply wp_need; auto]; fail).
  all: try (eapply wp_mono; [eapply (wp_for_n_core best_ok); eauto; try exact I|intros r s' H; eapply (wp_done best_ok); eauto; intros [x sec] Hx; split; [apply sec_f64; exact Hx|discriminate]|auto];
     intros; eapply (wp_block_body best_ok); eauto; intros; [apply wp_best_step; auto|apply wp_need; auto]; fail).
  all: try (eapply wp_mono; [eapply (wp_for_n_core find_ok); eauto; try exact I|intros r s' H; eapply (wp_done find_ok); eauto; intros [x sec] Hx; split; [apply sec_bool; exact Hx|discriminate]|auto];
     intros; eapply (wp_block_body find_ok); eauto; intros; [apply wp_find_step; auto|apply wp_need; auto]; fail).
  - eapply wp_mono; [eapply (wp_for_n_core (Forall wf_v)); eauto|intros r s' H; eapply (wp_done (Forall wf_v)); eauto; intros x Hx; split; [apply wf_VArray; exact Hx|discriminate]|auto].
     intros; eapply (wp_block_body (Forall wf_v)); eauto; intros; [apply wp_sift_step; auto|apply wp_need; auto].
  - eapply wp_mono; [eapply sub_link_n_lp; eauto|intros; apply wp_link_done; auto|auto].
Qed.

Lemma wp_done_in : forall {A} (PA : A -> Prop) fin r s0 s,
  match r with Some r => lpost PA s0 r s | None => bal s0 s end ->
  (forall a, PA a -> wfo (fin a)) ->
  wpq (done_in fin r) s (bpost false s0) (errs s0).
Proof.
  intros A PA fin r s0 s H Hf. destruct r as [r|]; simpl.
  - eapply wp_done; eauto. intros; split; auto. discriminate.
  - apply wp_ret. split; [exact I|]. split; auto. discriminate.
Qed.

Lemma for_in_bp : forall n k md fi cs label name iter b s,
  wf md fi [] cs (EForIn k label name iter b) -> ready md fi cs s ->
  wpq (for_in ev n k label name iter b) s (bpost (valued md fi (EForIn k label name iter b)) s) (errs s).
Proof.
  intros n k md fi cs label name iter b s Hw Hr.
  assert (Hw' := Hw).
  change (wf md fi [] cs iter /\ thread_ok (wf md fi []) adds (Some name :: cs) b /\
    (chk = true -> k <> KSumVec4 /\ k <> KProdVec4 /\ (k = KLink -> link_body_in b))) in Hw. destruct Hw as (W2 & W3 & W4).
  assert (forall i s (Q : value -> rt -> Prop) (X : rt -> Prop), wf_state s -> (forall i, wf_v i -> Q i s) -> wpq (slot i) s Q X) as Hslot.
  { intros i s1 Q X Hs HQ. (apply wp_slot; [noise|]). intros v Hv. apply HQ. eapply wf_slot; eauto. }
  destruct k; cbn [for_in WfSpec.valued]; try (apply wp_panic; intros C; destruct (W4 C) as (A & B & _); congruence); apply wp_bind.
  1: eapply wp_mono; [eapply (wp_for_in_core any); eauto; try exact I|intros r s' H; eapply (wp_done_in any); eauto; intros; exact I|auto];
     intros; eapply (wp_block_body any); eauto; try exact I; intros; [apply wp_ret; split; [exact I|apply bal_leftc; auto]|apply wp_skip; auto; exact I].
  all: try (eapply wp_mono; [eapply (wp_for_in_core any); eauto; try exact I|intros r s' H; eapply (wp_done_in any); eauto; intros; exact I|auto];
     intros; eapply (wp_block_body any); eauto; try exact I; intros; [apply wp_num_step; auto|apply wp_skip; auto; exact I]; fail).
  all: try (eapply wp_mono; [eapply (wp_for_in_core best_ok); eauto; try exact I|intros r s' H; eapply (wp_done_in best_ok); eauto; intros [x sec] Hx; apply sec_f64; exact Hx|auto];
     intros; eapply (wp_block_body best_ok); eauto; intros; [apply wp_best_step; auto|apply wp_need; auto]; fail).
  all: try (eapply wp_mono; [eapply (wp_for_in_core find_ok); eauto; try exact I|intros r s' H; eapply (wp_done_in find_ok); eauto; intros [x sec] Hx; apply sec_bool; exact Hx|auto];
     intros; eapply (wp_block_body find_ok); eauto; intros; [apply wp_find_step; auto|apply wp_need; auto]; fail).
  - eapply wp_mono; [eapply (wp_for_in_core (Forall wf_v)); eauto|intros r s' H; eapply (wp_done_in (Forall wf_v)); eauto; intros x Hx; apply wf_VArray; exact Hx|auto].
     intros; eapply (wp_block_body (Forall wf_v)); eauto; intros; [apply wp_sift_step; auto|apply wp_need; auto].
  - eapply wp_mono; [eapply sub_link_in_lp; eauto|intros; apply wp_link_done; auto|auto].
Qed.

(** The C-style loop *)
Lemma for_loop_lp : forall n label md fi cs cond step_ b sB s,
  wf md fi [] cs cond -> wf md fi [] cs step_ -> thread_ok (wf md fi []) adds cs b ->
  adds_current step_ = [] -> (chk = true -> adds step_ = []) ->
  ready md fi cs sB -> leftc sB s -> (chk = true -> bal sB s) ->
  wpq (for_loop ev n label (length (r_stack sB)) (length (r_locals sB)) cond step_ b) s
     (fun r s' => match r with
        | LDone _ fl => fl <> FReturn /\ leftc sB s'
        | LRet x => wfo x /\ abv sB s'
        end) (errs sB).
Proof.
  induction n as [|n IH]; intros label md fi cs cond step_ b sB s Wc Ws Wb Hac Had HrB Hl Hb; [apply wp_oof|].
  cbn [for_loop]. cbv zeta.
  assert (ready md fi cs s) as Hr by (eapply ready_left; eauto).
  assert (forall (k : M (lres unit)) s1, leftc sB s1 -> (chk = true -> bal sB s1) ->
     (forall s2, leftc sB s2 -> (chk = true -> bal sB s2) -> wpq k s2
       (fun r s' => match r with
        | LDone _ fl => fl <> FReturn /\ leftc sB s'
        | LRet x => wfo x /\ abv sB s'
        end) (errs sB)) ->
     wpq (r <- ev step_ Right ;;
        match r with
        | (None, FContinue) => k
        | (x, FReturn) => ret (LRet x)
        | _ => fail "expected nothing from for step"
        end) s1
       (fun r s' => match r with
        | LDone _ fl => fl <> FReturn /\ leftc sB s'
        | LRet x => wfo x /\ abv sB s'
        end) (errs sB)) as Step.
  { intros k s1 Hl1 Hb1 Hk. pose proof (ready_left md fi cs sB s1 HrB Hl1 Hb1) as Hr1.
    apply wp_bind. eapply wp_mono; [apply (HE _ _ _ _ Right _ Ws Hr1)| |].
    2: { intros s2 H2. eapply leftc_errs; eauto. }
    intros [o fl] s2 H. pose proof (okpost_abv _ _ _ _ _ _ _ _ _ H) as Habv. destruct H as [H1 H2].
    cbn [fst snd] in *. pose proof (leftc_abv _ _ _ Hl1 Habv) as Ha.
    destruct fl; destruct o; try (apply wp_fail; apply abv_errs; auto; fail); try (apply wp_ret; split; auto; fail).
    destruct H2 as (H2 & _ & _). rewrite Hac in H2. apply Hk.
    - eapply leftc_plus; [exact Hl1|exact H2].
    - intros C. rewrite (Had C) in H2. eapply bal_plus; [apply Hb1; auto|]. exact H2. }
  eapply (wp_vexpr chk E arity ev HE); eauto.
  2: { intros x s1 Hx H1. apply wp_ret. split; auto. eapply leftc_abv; eauto. }
  2: { intros s1 H1. eapply leftc_errs; eauto. }
  intros v s1 Hv Hb1 Hr1.
  assert (leftc sB s1) as Hl1 by (eapply leftc_trans; [exact Hl|apply bal_leftc; auto]).
  assert (chk = true -> bal sB s1) as Hc1 by (intros; eapply plus_bal; [apply Hb; auto|exact Hb1]).
  destruct v; try (apply wp_fail; apply abv_errs; apply Hl1).
  destruct b0; [|apply wp_ret; split; [discriminate|auto]].
  apply wp_bind. eapply wp_mono; [eapply (wp_block chk E arity ev HE); eauto| |].
  2: { intros s2 H2. eapply leftc_errs; eauto. }
  intros [o fl] s2 (H1 & H2 & _). cbn [fst snd] in *.
  assert (leftc sB s2) as Hl2 by (eapply leftc_trans; [exact Hl1|apply bal_leftc; auto]).
  assert (chk = true -> bal sB s2) as Hc2 by (intros; eapply plus_bal; [apply Hc1; auto|exact H2]).
  destruct fl as [| |l|l].
  - assert (forall s3, leftc sB s3 -> wpq (trunc_stack (length (r_stack sB)) ;;; trunc_locals (length (r_locals sB)) ;;;
         for_loop ev n label (length (r_stack sB)) (length (r_locals sB)) cond step_ b) s3
       (fun r s' => match r with
        | LDone _ fl => fl <> FReturn /\ leftc sB s'
        | LRet x => wfo x /\ abv sB s'
        end) (errs sB)) as K.
    { intros s3 H3. apply wp_cut2; [apply H3|]. assert (bal sB (cut2 sB s3)) as B3 by (destruct H3; apply cut2_bal; auto).
      eapply IH; eauto. apply bal_leftc; auto. }
    destruct o; apply Step; auto.
  - destruct o; apply wp_ret; split; auto; apply Hl2.
  - destruct o; apply wp_ret; split; auto; destruct (concerns label l); discriminate.
  - assert (wpq (if concerns label l
       then r <- ev step_ Right;;
            match r with
            | (None, FContinue) => for_loop ev n label (length (r_stack sB)) (length (r_locals sB)) cond step_ b
            | (x, FReturn) => ret (LRet x)
            | _ => fail "expected nothing from for step"
            end
       else ret (LDone tt (FContinueLoop l))) s2
       (fun r s' => match r with
        | LDone _ fl => fl <> FReturn /\ leftc sB s'
        | LRet x => wfo x /\ abv sB s'
        end) (errs sB)) as K.
    { destruct (concerns label l); [|apply wp_ret; split; [discriminate|auto]].
      apply Step; auto. intros s3 H3 H4. eapply IH; eauto. }
    destruct o; exact K.
Qed.
Lemma for_expr_bp : forall n label md fi cs init cond step_ b s,
  wf md fi [] cs (EFor label init cond step_ b) -> ready md fi cs s ->
  wpq (for_expr ev n label init cond step_ b) s (bpost false s) (errs s).
Proof.
  intros n label md fi cs init cond step_ b s Hw Hr.
  change (wf md fi [] cs init /\ wf md fi [] (adds init ++ cs) cond /\ wf md fi [] (adds init ++ cs) step_ /\
      thread_ok (wf md fi []) adds (adds init ++ cs) b /\
      adds_current init = [] /\ adds_current step_ = [] /\ (chk = true -> adds step_ = [])) in Hw.
  destruct Hw as (W1 & W2 & W3 & W4 & W5 & W6 & W7).
  unfold for_expr. apply wp_bind, wp_gets. apply wp_bind, wp_gets. apply wp_bind.
  eapply wp_mono; [apply (HE _ _ _ _ Right _ W1 Hr)| |auto].
  intros [o fl] s1 H. pose proof (okpost_abv _ _ _ _ _ _ _ _ _ H) as Habv. destruct H as [H1 H2].
  cbn [fst snd] in *.
  destruct fl; destruct o; try (apply wp_fail; apply abv_errs; auto; fail); try (apply wp_ret; split; auto; fail).
  destruct H2 as (H2 & _ & _). apply wp_bind, wp_gets. apply wp_bind, wp_gets. apply wp_bind.
  assert (ready md fi (adds init ++ cs) s1) as Hr1 by (eapply ready_plus; eauto). rewrite W5 in H2.
  assert (wf_state s1) as Hs1 by (eapply ready_wf; eauto).
  assert (leftc s s1) as L1.
  { split; auto. destruct H2 as (_ & _ & _ & _ & _ & H2). exact H2. }
  eapply wp_mono; [apply (for_loop_lp n label md fi (adds init ++ cs) cond step_ b s1 s1); auto| |].
  - apply bal_leftc, bal_refl; auto.
  - intros; apply bal_refl; auto.
  - intros r s2 H. destruct r as [u fl|x].
    + destruct H as [H3 H4]. assert (leftc s s2) as L2 by (eapply leftc_trans; eauto).
      apply wp_cut2; [apply L2|]. apply wp_ret. assert (bal s (cut2 s s2)) as B by (destruct L2; apply cut2_bal; auto).
      split; [exact I|]. cbn [snd fst]. destruct fl; try congruence; [split; [auto|discriminate]|apply bal_leftc; auto|apply bal_leftc; auto].
    + destruct H. apply wp_ret. split; auto. simpl. eapply leftc_abv; eauto.
  - intros s2 H. eapply leftc_errs; eauto.
Qed.
End WithEv.
End Loops.
