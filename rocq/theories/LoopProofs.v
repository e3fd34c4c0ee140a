(** * Loops: the evaluator runs exactly the passes of the specification. *)
From Coq Require Import String List ZArith Bool Arith Lia.
From Verif Require Import Float64 FloatProofs Syntax InterpModel BalanceBase BalanceLoops ControlSpec LoopSpec P_Control.
Import ListNotations.
Local Open Scope string_scope.
Local Open Scope nat_scope.
Local Open Scope list_scope.

Lemma bind_ok : forall {A B} (m : M A) (k : A -> M B) s b s',
  bind m k s = Ok b s' <-> exists a s1, m s = Ok a s1 /\ k a s1 = Ok b s'.
Proof.
  intros. unfold bind. destruct (m s) as [a s1|e s1|w|] eqn:H.
  - split; [intros; exists a, s1; auto|intros (a' & s1' & H1 & H2); inversion H1; subst; auto].
  - split; [discriminate|intros (a' & s1' & H1 & H2); discriminate].
  - split; [discriminate|intros (a' & s1' & H1 & H2); discriminate].
  - split; [discriminate|intros (a' & s1' & H1 & H2); discriminate].
Qed.
Lemma ret_ok : forall {A} (a b : A) s s', ret a s = Ok b s' <-> b = a /\ s' = s.
Proof. intros. unfold ret. split; [intros H; inversion H; auto|intros [-> ->]; auto]. Qed.
Lemma fail_ok : forall {A} e (b : A) s s', fail e s = Ok b s' <-> False.
Proof. intros. unfold fail. split; [discriminate|tauto]. Qed.
Lemma getv_iff : forall x v s s', getv x s = Ok v s' <-> s' = s /\ denotes s x v.
Proof.
  intros x v s s'. pose proof (getv_denotes x s) as H. split.
  - intros F. rewrite F in H. auto.
  - intros [-> D]. apply getv_ok. auto.
Qed.
Lemma concerns_break : forall label l, concerns label l = true <-> acts_on label (FBreak l).
Proof.
  intros label [l|]; simpl; [|tauto]. destruct label as [y|]; [|split; discriminate].
  split; [intros H; apply String.eqb_eq in H; subst; auto|intros H; inversion H; apply String.eqb_refl].
Qed.
Lemma concerns_cont : forall label l, concerns label l = true <-> acts_on label (FContinueLoop l).
Proof. intros. rewrite concerns_break. destruct l; simpl; tauto. Qed.

(** [part]: what an unfinished pass leaves behind. *)
Inductive folds {A} (part : A -> option value -> A) (absorb : A -> pass -> A -> Prop) : A -> list pass -> A -> Prop :=
| Fo_nil : forall a, folds part absorb a [] a
| Fo_done : forall a p a1 log a', p_flow p = FContinue -> absorb a p a1 -> folds part absorb a1 log a' ->
    folds part absorb a (p :: log) a'
| Fo_skip : forall a p log a', p_flow p <> FContinue -> folds part absorb (part a (p_val p)) log a' ->
    folds part absorb a (p :: log) a'.

Section Loop.
Context {A : Type} (body : M res) (part : A -> option value -> A) (halt : value -> Prop) (label : option string) (st lc : nat)
  (test : M (option value)) (next : M bool)
  (some : value -> A -> value -> M (bstep A)) (none : A -> M (bstep A))
  (more over : rt -> Prop) (pos : rt -> rt -> option value) (nextp : rt -> option rt -> Prop)
  (absorb : A -> pass -> A -> Prop).
Definition tr (s : rt) : rt :=
  RT (r_mod s) (firstn st (r_stack s)) (r_calls s) (trunc_top lc (r_locals s)) (r_currents s) (r_world s).
Definition bodyf (ind : value) (a : A) : M (bstep A) :=
  r <- body ;;
  match r with
  | (Some x, FContinue) => some ind a x
  | (None, FContinue) => none a
  | (x, FReturn) => ret (BRet x)
  | (x, FBreak l) => ret (BBreak l (part a x))
  | (x, FContinueLoop l) => ret (BCont l (part a x))
  end.

Context
  (Hmore : forall s ind s', test s = Ok (Some ind) s' -> s' = s /\ more s)
  (Hmore' : forall s, more s -> exists ind, test s = Ok (Some ind) s)
  (Hover : forall s s', test s = Ok None s' -> s' = s /\ over s)
  (Hover' : forall s, over s -> test s = Ok None s)
  (Hnext : forall s s', next s = Ok true s' -> nextp s (Some (tr s')))
  (Hnext' : forall s s2, nextp s (Some s2) -> exists s', next s = Ok true s' /\ s2 = tr s')
  (Hlast : forall s s', next s = Ok false s' -> s' = s /\ nextp s None)
  (Hlast' : forall s, nextp s None -> next s = Ok false s)
  (Hsome : forall s ind a x s1 b s2, test s = Ok (Some ind) s -> 
     (some ind a x s1 = Ok b s2 <-> s2 = s1 /\ exists a', absorb a (Pass (pos s s1) (Some x) FContinue s1) a' /\
        ((b = BStop a' /\ halts halt s1 x) \/ (b = BNext a' /\ ~ halts halt s1 x))))
  (Hnone : forall s a s1 b s2,
     none a s1 = Ok b s2 <-> s2 = s1 /\ exists a', absorb a (Pass (pos s s1) None FContinue s1) a' /\ b = BNext a').

Lemma trunc_ok : forall {B} (k : M B) s, (trunc_stack st ;;; trunc_locals lc ;;; k) s = k (tr s).
Proof. reflexivity. Qed.

Lemma loop_sound : forall n a s a' fl s',
  loop n label st lc test bodyf next a s = Ok (LDone a' fl) s' ->
  exists log, iterates (runs body) halt label more over pos nextp s log fl s' /\ folds part absorb a log a'.
Proof.
  induction n as [|n IH]; intros a s a' fl s' H; [discriminate|]. cbn [loop] in H.
  apply bind_ok in H. destruct H as ([ind|] & s0 & Ht & H).
  2: { apply ret_ok in H. destruct H as [H ->]. inversion H; subst. destruct (Hover _ _ Ht) as [-> Ho].
       exists []. split; constructor; auto. }
  destruct (Hmore _ _ _ Ht) as [-> Hm]. apply bind_ok in H. destruct H as (b & s1 & Hb & H).
  unfold bodyf in Hb. apply bind_ok in Hb. destruct Hb as ([r rf] & s1' & Hr & Hb).
  assert (forall a1 p, ((match p_flow p with FContinue => absorb a p a1 | _ => a1 = part a (p_val p) end) ->
     p_val p = r -> p_flow p = rf -> p_after p = s1 -> p_ind p = pos s s1 ->
     (rf = FContinue -> forall v, r = Some v -> ~ halts halt s1 v) -> body s = Ok (r, rf) s1 ->
     (rf = FContinue \/ exists l, rf = FContinueLoop l /\ acts_on label (FContinueLoop l)) ->
     (ok <- next ;; if ok : bool then trunc_stack st ;;; trunc_locals lc ;;; loop n label st lc test bodyf next a1
                    else ret (LDone a1 FContinue)) s1 = Ok (LDone a' fl) s' ->
     exists log, iterates (runs body) halt label more over pos nextp s log fl s' /\ folds part absorb a log a')) as ADV.
  { intros a1 [pi pv pf pa] Hab E1 E2 E3 E4 Hh Hbd Hcase Ha. simpl in E1, E2, E3, E4. subst.
    apply bind_ok in Ha. destruct Ha as ([|] & s2 & Hn & Ha).
    - rewrite trunc_ok in Ha. destruct (IH _ _ _ _ _ Ha) as (log & Hi & Hf).
      exists (Pass (pos s s1) r rf s1 :: log). destruct Hcase as [->|(l & -> & Hl)].
      + specialize (Hh eq_refl). simpl in Hab. split; [eapply It_next; eauto|eapply Fo_done; eauto].
      + simpl in Hab. subst. split; [eapply It_continue; eauto|apply Fo_skip; auto; discriminate].
    - apply ret_ok in Ha. destruct Ha as [Ha ->]. inversion Ha; subst. destruct (Hlast _ _ Hn) as [-> Hl].
      exists [Pass (pos s s1) r rf s1]. destruct Hcase as [->|(l & -> & Hl2)].
      + specialize (Hh eq_refl). simpl in Hab. split; [eapply It_last; eauto|eapply Fo_done; eauto; constructor].
      + simpl in Hab. subst. split; [eapply It_continue_last; eauto|apply Fo_skip; [discriminate|constructor]]. }
  destruct rf.
  - destruct r as [x|].
    + apply (Hsome s) in Hb; auto. destruct Hb as (-> & a1 & Hab & [[-> Hh]|[-> Hh]]).
      * apply ret_ok in H. destruct H as [H ->]. inversion H; subst.
        exists [Pass (pos s s1') (Some x) FContinue s1']. split; [eapply It_halt; eauto|eapply Fo_done; eauto; constructor].
      * eapply (ADV a1 (Pass (pos s s1') (Some x) FContinue s1')); auto. intros _ v Hv. inversion Hv; subst; auto.
    + apply (Hnone s) in Hb. destruct Hb as (-> & a1 & Hab & ->).
      eapply (ADV a1 (Pass (pos s s1') None FContinue s1')); auto. discriminate.
  - assert (b = BRet r) as -> by (destruct r; apply ret_ok in Hb; tauto). apply ret_ok in H. destruct H; discriminate.
  - assert (b = BBreak l (part a r) /\ s1 = s1') as [-> ->] by (destruct r; apply ret_ok in Hb; tauto).
    apply ret_ok in H. destruct H as [H ->]. inversion H; subst. clear H.
    exists [Pass (pos s s1') r (FBreak l) s1']. split; [|apply Fo_skip; [discriminate|constructor]].
    destruct (concerns label l) eqn:C.
    + eapply It_break; eauto. apply concerns_break; auto.
    + eapply It_outer; eauto; try discriminate. intros D. apply concerns_break in D. congruence.
  - assert (b = BCont l (part a r) /\ s1 = s1') as [-> ->] by (destruct r; apply ret_ok in Hb; tauto).
    destruct (concerns label l) eqn:C.
    + eapply (ADV (part a r) (Pass (pos s s1') r (FContinueLoop l) s1')); auto; try discriminate; [reflexivity|].
      right. exists l. split; auto. apply concerns_cont; auto.
    + apply ret_ok in H. destruct H as [H ->]. inversion H; subst. clear H.
      exists [Pass (pos s s1') r (FContinueLoop l) s1']. split; [|apply Fo_skip; [discriminate|constructor]].
      eapply It_outer; eauto; try discriminate. intros D. apply concerns_cont in D. congruence.
Qed.

Lemma loop_complete : forall s log fl s', iterates (runs body) halt label more over pos nextp s log fl s' ->
  forall n a a', folds part absorb a log a' -> length log < n ->
  loop n label st lc test bodyf next a s = Ok (LDone a' fl) s'.
Proof.
  intros s log fl s' H. induction H; intros n a a' Hf Hl; destruct n as [|n]; simpl in Hl; try lia; cbn [loop].
  - apply bind_ok. exists None, s. split; auto. inversion Hf; subst. reflexivity.
  - destruct (Hmore' _ H) as (ind & Ht). apply bind_ok. exists (Some ind), s. split; auto.
    inversion Hf; subst; simpl in *; [|congruence]. apply bind_ok. exists (BNext a1), s1. split.
    + unfold bodyf. apply bind_ok. exists (r, FContinue), s1. split; auto. destruct r as [x|].
      * eapply Hsome; eauto. split; auto. exists a1. split; auto.
      * eapply (Hnone s); eauto.
    + destruct (Hnext' _ _ H2) as (s3 & Hn & ->). apply bind_ok. exists true, s3. split; auto.
      rewrite trunc_ok. apply IHiterates; auto. lia.
  - destruct (Hmore' _ H) as (ind & Ht). apply bind_ok. exists (Some ind), s. split; auto.
    inversion Hf; subst; simpl in *; [|congruence]. match goal with F : folds _ _ _ [] _ |- _ => inversion F; subst end.
    apply bind_ok. exists (BNext a'), s1. split.
    + unfold bodyf. apply bind_ok. exists (r, FContinue), s1. split; auto. destruct r as [x|].
      * eapply Hsome; eauto. split; auto. exists a'. split; auto.
      * eapply (Hnone s); eauto.
    + apply bind_ok. exists false, s1. split; auto.
  - destruct (Hmore' _ H) as (ind & Ht). apply bind_ok. exists (Some ind), s. split; auto.
    inversion Hf; subst; simpl in *; [|congruence]. match goal with F : folds _ _ _ [] _ |- _ => inversion F; subst end.
    apply bind_ok. exists (BStop a'), s1. split; [|reflexivity].
    unfold bodyf. apply bind_ok. exists (Some v, FContinue), s1. split; auto.
    eapply Hsome; eauto. split; auto. exists a'. split; auto.
  - destruct (Hmore' _ H) as (ind & Ht). apply bind_ok. exists (Some ind), s. split; auto.
    inversion Hf; subst; simpl in *; [congruence|].
    apply bind_ok. exists (BCont l (part a r)), s1. split.
    + unfold bodyf. apply bind_ok. exists (r, FContinueLoop l), s1. split; auto. destruct r; reflexivity.
    + cbv beta iota. apply concerns_cont in H1. rewrite H1. 
      destruct (Hnext' _ _ H2) as (s3 & Hn & ->). apply bind_ok. exists true, s3. split; auto.
      rewrite trunc_ok. apply IHiterates; auto. lia.
  - destruct (Hmore' _ H) as (ind & Ht). apply bind_ok. exists (Some ind), s. split; auto.
    inversion Hf; subst; simpl in *; [congruence|]. match goal with F : folds _ _ _ [] _ |- _ => inversion F; subst end.
    apply bind_ok. exists (BCont l (part a r)), s1. split.
    + unfold bodyf. apply bind_ok. exists (r, FContinueLoop l), s1. split; auto. destruct r; reflexivity.
    + cbv beta iota. apply concerns_cont in H1. rewrite H1. apply bind_ok. exists false, s1. split; auto.
  - destruct (Hmore' _ H) as (ind & Ht). apply bind_ok. exists (Some ind), s. split; auto.
    inversion Hf; subst; simpl in *; [congruence|]. match goal with F : folds _ _ _ [] _ |- _ => inversion F; subst end.
    apply bind_ok. exists (BBreak l (part a r)), s1. split.
    + unfold bodyf. apply bind_ok. exists (r, FBreak l), s1. split; auto. destruct r; reflexivity.
    + cbv beta iota. apply concerns_break in H1. rewrite H1. reflexivity.
  - destruct (Hmore' _ H) as (ind & Ht). apply bind_ok. exists (Some ind), s. split; auto.
    inversion Hf; subst; simpl in *; [congruence|]. match goal with F : folds _ _ _ [] _ |- _ => inversion F; subst end.
    destruct fl; try congruence.
    + apply bind_ok. exists (BBreak l (part a r)), s1. split.
      * unfold bodyf. apply bind_ok. exists (r, FBreak l), s1. split; auto. destruct r; reflexivity.
      * cbv beta iota. destruct (concerns label l) eqn:C; [apply concerns_break in C; contradiction|reflexivity].
    + apply bind_ok. exists (BCont l (part a r)), s1. split.
      * unfold bodyf. apply bind_ok. exists (r, FContinueLoop l), s1. split; auto. destruct r; reflexivity.
      * cbv beta iota. destruct (concerns label l) eqn:C; [apply concerns_cont in C; contradiction|reflexivity].
Qed.
End Loop.

(** ** The two ways to count passes *)

Definition keep {A} (a : A) (r : option value) : A := a.

Section Frames.
Context (E : env) (n : nat).
Let ev := eval E n.
Let run := fun e => ev e Right.
Definition blk (b : list expr) : M res := block ev b.

Lemma slot_ok : forall i s v s', slot i s = Ok v s' <-> s' = s /\ nth_error (r_stack s) i = Some v.
Proof.
  intros. unfold slot. destruct (nth_error (r_stack s) i) eqn:F; split; intros H.
  - inversion H; subst; auto.
  - destruct H as [-> H]. congruence.
  - discriminate.
  - destruct H; congruence.
Qed.

Section Count.
Context {A : Type} (halt : value -> Prop) (label : option string)
  (some : value -> A -> value -> M (bstep A)) (none : A -> M (bstep A)) (absorb : A -> pass -> A -> Prop)
  (b : list expr).
Context
  (Hsome : forall x a v s1 bs s2,
     (some (VF64 x None) a v s1 = Ok bs s2 <-> s2 = s1 /\ exists a', absorb a (Pass (Some (VF64 x None)) (Some v) FContinue s1) a' /\
        ((bs = BStop a' /\ halts halt s1 v) \/ (bs = BNext a' /\ ~ halts halt s1 v))))
  (Hnone : forall p a s1 bs s2,
     none a s1 = Ok bs s2 <-> s2 = s1 /\ exists a', absorb a (Pass p None FContinue s1) a' /\ bs = BNext a').

Section At.
Context (st lc : nat) (stop : f64).
Lemma count_more_ok : forall s ind s', count_test st stop s = Ok (Some ind) s' ->
  s' = s /\ count_more st stop s.
Proof.
  intros s ind s' H. unfold count_test in H. apply bind_ok in H. destruct H as (v & s1 & H1 & H2).
  apply slot_ok in H1. destruct H1 as [-> H1]. unfold count_more, counter. rewrite H1.
  destruct v; try (apply fail_ok in H2; contradiction). apply ret_ok in H2. destruct H2 as [H2 ->]. split; auto.
  exists x. destruct (flt x stop); try discriminate. auto.
Qed.
Lemma count_more_ind : forall s, count_more st stop s -> exists x,
  count_test st stop s = Ok (Some (VF64 x None)) s /\ counter st s = Some x.
Proof.
  intros s (x & H1 & H2). exists x. split; auto. unfold counter in H1. unfold count_test, bind, slot.
  destruct (nth_error (r_stack s) (st - 1)) as [[]|]; try discriminate. inversion H1; subst. rewrite H2. reflexivity.
Qed.
Lemma count_ind : forall s ind s', count_test st stop s = Ok (Some ind) s' -> exists x,
  ind = VF64 x None /\ counter st s = Some x.
Proof.
  intros s ind s' H. unfold count_test in H. apply bind_ok in H. destruct H as (v & s1 & H1 & H2).
  apply slot_ok in H1. destruct H1 as [-> H1]. unfold counter. rewrite H1.
  destruct v; try (apply fail_ok in H2; contradiction). apply ret_ok in H2. destruct H2 as [H2 ->].
  exists x. destruct (flt x stop); inversion H2. auto.
Qed.
Lemma count_over_ok : forall s s', count_test st stop s = Ok None s' -> s' = s /\ count_over st stop s.
Proof.
  intros s s' H. unfold count_test in H. apply bind_ok in H. destruct H as (v & s1 & H1 & H2).
  apply slot_ok in H1. destruct H1 as [-> H1]. unfold count_over, counter. rewrite H1.
  destruct v; try (apply fail_ok in H2; contradiction). apply ret_ok in H2. destruct H2 as [H2 ->]. split; auto.
  exists x. destruct (flt x stop); try discriminate. auto.
Qed.
Lemma count_over_ok' : forall s, count_over st stop s -> count_test st stop s = Ok None s.
Proof.
  intros s (x & H1 & H2). unfold counter in H1. unfold count_test, bind, slot.
  destruct (nth_error (r_stack s) (st - 1)) as [[]|]; try discriminate. inversion H1; subst. rewrite H2. reflexivity.
Qed.
Lemma count_next_ok : forall s s', count_next st s = Ok true s' -> count_next_pass st lc s (Some (tr st lc s')).
Proof.
  intros s s' H. unfold count_next in H. apply bind_ok in H. destruct H as (v & s1 & H1 & H2).
  apply slot_ok in H1. destruct H1 as [-> H1]. destruct v; try (apply fail_ok in H2; contradiction).
  inversion H2; subst. exists x, sec. split; auto.
Qed.
Lemma count_next_ok' : forall s s2, count_next_pass st lc s (Some s2) ->
  exists s', count_next st s = Ok true s' /\ s2 = tr st lc s'.
Proof.
  intros s s2 (x & sec & H1 & H2). inversion H2; subst. unfold count_next, bind, slot. rewrite H1. eexists. split; reflexivity.
Qed.
Lemma count_last_ok : forall s s', count_next st s = Ok false s' -> s' = s /\ count_next_pass st lc s None.
Proof.
  intros s s' H. unfold count_next in H. apply bind_ok in H. destruct H as (v & s1 & H1 & H2).
  apply slot_ok in H1. destruct H1 as [-> H1]. destruct v; try (apply fail_ok in H2; contradiction). discriminate.
Qed.
Lemma count_last_ok' : forall s, count_next_pass st lc s None -> count_next st s = Ok false s.
Proof. intros s (x & sec & H1 & H2). discriminate. Qed.

Lemma count_some : forall s ind a x s1 bs s2, count_test st stop s = Ok (Some ind) s ->
  (some ind a x s1 = Ok bs s2 <-> s2 = s1 /\ exists a', absorb a (Pass (count_pos st s s1) (Some x) FContinue s1) a' /\
     ((bs = BStop a' /\ halts halt s1 x) \/ (bs = BNext a' /\ ~ halts halt s1 x))).
Proof.
  intros s ind a x s1 bs s2 Ht. destruct (count_ind _ _ _ Ht) as (y & -> & C). unfold count_pos. rewrite C. simpl. apply Hsome.
Qed.

Definition count_iter := iterates (runs (blk b)) halt label (count_more st stop) (count_over st stop) (count_pos st) (count_next_pass st lc).
Definition count_loop (a : A) := loop n label st lc (count_test st stop) (bodyf (blk b) keep some none) (count_next st) a.
Lemma count_sound : forall a s a' fl s', count_loop a s = Ok (LDone a' fl) s' ->
  exists log, count_iter s log fl s' /\ folds keep absorb a log a'.
Proof.
  intros a s a' fl s' H. eapply (loop_sound (blk b) keep halt label st lc (count_test st stop) (count_next st) some none
    (count_more st stop) (count_over st stop) (count_pos st) (count_next_pass st lc) absorb); eauto.
  - apply count_more_ok.
  - apply count_over_ok.
  - apply count_next_ok.
  - apply count_last_ok.
  - apply count_some.
Qed.
Lemma count_complete : forall s log fl s', count_iter s log fl s' ->
  forall a a', folds keep absorb a log a' -> length log < n -> count_loop a s = Ok (LDone a' fl) s'.
Proof.
  intros s log fl s' H a a' Hf Hl.
  eapply (loop_complete (blk b) keep halt label st lc (count_test st stop) (count_next st) some none
    (count_more st stop) (count_over st stop) (count_pos st) (count_next_pass st lc) absorb); eauto.
  - intros s0 H0. destruct (count_more_ind _ H0) as (x & H1 & _). eauto.
  - apply count_over_ok'.
  - apply count_next_ok'.
  - apply count_last_ok'.
  - apply count_some.
Qed.
End At.

Lemma num_expr_ok : forall {B} e (k : f64 -> M (lres B)) (s s' : rt) a fl,
  num_expr ev e k s = Ok (LDone a fl) s' <-> exists z s1, gives_num run e s z s1 /\ k z s1 = Ok (LDone a fl) s'.
Proof.
  intros B e k s s' a fl. unfold num_expr, vexpr. rewrite bind_ok. split.
  - intros ([x xf] & s1 & H1 & H2). destruct x as [x|], xf; try (apply fail_ok in H2; contradiction);
      try (apply ret_ok in H2; destruct H2; discriminate).
    apply bind_ok in H2. destruct H2 as (v & s2 & H2 & H3). apply getv_iff in H2. destruct H2 as [-> D].
    destruct v; try (apply fail_ok in H3; contradiction). exists x0, s1. split; auto. exists x, sec. auto.
  - intros (z & s1 & (x & sec & H1 & D) & H2). exists (Some x, FContinue), s1. split; auto.
    apply bind_ok. exists (VF64 z sec), s1. split; auto. apply getv_iff. auto.
Qed.

Context (name : string) (start : option expr) (stop : expr).
Definition count_core (a : A) : M (lres A) :=
  for_n_core ev n label name start stop (fun _ ind => block_body ev b (some ind) none) a.

Lemma count_core_ok : forall a s a' fl s',
  count_core a s = Ok (LDone a' fl) s' <->
  exists x z s1 s2, range run start stop s x z s1 /\
    count_loop (S (length (r_stack s1))) (S (length (r_locals s1))) z a (started name (VF64 x None) s1) = Ok (LDone a' fl) s2 /\
    s' = back_to s s2.
Proof.
  intros a s a' fl s'. unfold count_core, for_n_core.
  assert (forall x s0, (
    num_expr ev stop (fun y => i <- stack_len ;; push_local name i ;;; push (vf64 x) ;;;
      st <- stack_len ;; lc <- local_len ;;
      r <- loop n label st lc (count_test st y) (fun ind => block_body ev b (some ind) none) (count_next st) a ;;
      match r with
      | LDone a fl => trunc_stack (length (r_stack s)) ;;; trunc_locals (length (r_locals s)) ;;; ret (LDone a fl)
      | LRet x => ret (LRet x)
      end) s0 = Ok (LDone a' fl) s' <->
    exists z s1 s2, gives_num run stop s0 z s1 /\
      count_loop (S (length (r_stack s1))) (S (length (r_locals s1))) z a (started name (VF64 x None) s1) = Ok (LDone a' fl) s2 /\
      s' = back_to s s2)) as HG.
  { intros x s0. rewrite num_expr_ok. split.
    - intros (z & s1 & Hz & H). exists z, s1.
      unfold bind, stack_len, local_len, gets, push_local, push, modify in H. simpl in H.
      rewrite app_length in H. simpl in H. rewrite Nat.add_1_r in H.
      match type of H with match ?L with _ => _ end = _ => change L with
        (count_loop (S (length (r_stack s1))) (S (length (r_locals s1))) z a (started name (VF64 x None) s1)) in H end.
      destruct (count_loop _ _ _ _ _) as [[a1 f1|x1] s2|e2 s2|w|] eqn:EL; try discriminate.
      exists s2. inversion H; subst. auto.
    - intros (z & s1 & s2 & Hz & HL & ->). exists z, s1. split; auto.
      unfold bind, stack_len, local_len, gets, push_local, push, modify. simpl.
      rewrite app_length. simpl. rewrite Nat.add_1_r.
      match goal with |- match ?L with _ => _ end = _ => change L with
        (count_loop (S (length (r_stack s1))) (S (length (r_locals s1))) z a (started name (VF64 x None) s1)) end.
      rewrite HL. reflexivity. }
  unfold bind at 1 2, stack_len at 1, local_len at 1, gets at 1 2.
  destruct start as [e|]; simpl range.
  - rewrite num_expr_ok. split.
    + intros (x & s0 & Hx & H). apply HG in H. destruct H as (z & s1 & s2 & H1 & H2 & H3).
      exists x, z, s1, s2. split; eauto.
    + intros (x & z & s1 & s2 & (s0 & Hx & Hz) & H2 & H3). exists x, s0. split; auto. apply HG. exists z, s1, s2. auto.
  - split.
    + intros H. apply HG in H. destruct H as (z & s1 & s2 & H1 & H2 & H3). exists (f_of_Z 0), z, s1, s2. split; auto.
    + intros (x & z & s1 & s2 & (-> & Hz) & H2 & H3). apply HG. exists z, s1, s2. auto.
Qed.
End Count.

Section Receive.
Context {A : Type} (halt : value -> Prop) (label : option string)
  (some : nat -> A -> value -> M (bstep A)) (none : A -> M (bstep A)) (absorb : A -> pass -> A -> Prop)
  (b : list expr).
Context
  (Hsome : forall st a v s1 bs s2,
     (some st a v s1 = Ok bs s2 <-> s2 = s1 /\ exists a', absorb a (Pass (nth_error (r_stack s1) (st - 1)) (Some v) FContinue s1) a' /\
        ((bs = BStop a' /\ halts halt s1 v) \/ (bs = BNext a' /\ ~ halts halt s1 v))))
  (Hnone : forall p a s1 bs s2,
     none a s1 = Ok bs s2 <-> s2 = s1 /\ exists a', absorb a (Pass p None FContinue s1) a' /\ bs = BNext a').

Lemma recv_some : forall ch s m s', recv ch s = Ok (Some m) s' <-> taken ch s m s'.
Proof.
  intros ch s m s'. unfold recv, taken. destruct (nth_error (w_queues (r_world s)) ch) as [[|m' q]|]; split; intros H;
    try discriminate; try (destruct H as (q' & H & _); discriminate).
  - inversion H; subst. exists q. auto.
  - destruct H as (q' & H & ->). inversion H; subst. reflexivity.
Qed.
Lemma recv_none : forall ch s s', recv ch s = Ok None s' <-> s' = s /\ empty_queue ch s.
Proof.
  intros ch s s'. unfold recv, empty_queue. destruct (nth_error (w_queues (r_world s)) ch) as [[|m' q]|]; split; intros H;
    try discriminate; try (destruct H; subst; reflexivity).
  - inversion H; subst. split; auto. discriminate.
  - destruct H as [-> H]. exfalso. eapply H; eauto.
  - inversion H; subst. split; auto. discriminate.
Qed.

Section At.
Context (st lc ch : nat).
Lemma in_next_ok : forall s s', in_next ch st s = Ok true s' -> in_next_pass st lc ch s (Some (tr st lc s')).
Proof.
  intros s s' H. unfold in_next in H. apply bind_ok in H. destruct H as ([m|] & s1 & H1 & H2); [|apply ret_ok in H2; destruct H2; discriminate].
  apply recv_some in H1. apply bind_ok in H2. destruct H2 as (v & s2 & H2 & H3). apply slot_ok in H2. destruct H2 as [-> H2].
  inversion H3; subst. exists m, s1. split; auto. split; [|reflexivity].
  destruct H1 as (q & _ & ->). simpl in H2. apply nth_error_Some. congruence.
Qed.
Lemma in_next_ok' : forall s s2, in_next_pass st lc ch s (Some s2) -> exists s', in_next ch st s = Ok true s' /\ s2 = tr st lc s'.
Proof.
  intros s s2 (m & s1 & H1 & H2 & ->). pose proof H1 as (q & _ & Hs1). apply recv_some in H1.
  assert (exists v, nth_error (r_stack s1) (st - 1) = Some v) as (v & Hv).
  { subst s1. simpl. destruct (nth_error (r_stack s) (st - 1)) eqn:F; [eauto|]. apply nth_error_None in F. lia. }
  eexists. split.
  - unfold in_next. apply bind_ok. exists (Some m), s1. split; auto. unfold bind, slot. rewrite Hv. reflexivity.
  - reflexivity.
Qed.
Lemma in_last_ok : forall s s', in_next ch st s = Ok false s' -> s' = s /\ in_next_pass st lc ch s None.
Proof.
  intros s s' H. unfold in_next in H. apply bind_ok in H. destruct H as ([m|] & s1 & H1 & H2).
  - apply bind_ok in H2. destruct H2 as (v & s2 & H2 & H3). discriminate.
  - apply recv_none in H1. apply ret_ok in H2. destruct H1 as [-> H1], H2 as [_ ->]. auto.
Qed.
Lemma in_last_ok' : forall s, in_next_pass st lc ch s None -> in_next ch st s = Ok false s.
Proof. intros s H. unfold in_next. apply bind_ok. exists None, s. split; [apply recv_none; auto|reflexivity]. Qed.

Definition in_iter := iterates (runs (blk b)) halt label (fun _ => True) (fun _ => False) (in_pos st) (in_next_pass st lc ch).
Definition in_loop (a : A) :=
  loop n label st lc (ret (Some VReturn)) (bodyf (blk b) keep (fun _ => some st) none) (in_next ch st) a.
Lemma in_sound : forall a s a' fl s', in_loop a s = Ok (LDone a' fl) s' ->
  exists log, in_iter s log fl s' /\ folds keep absorb a log a'.
Proof.
  intros a s a' fl s' H. eapply (loop_sound (blk b) keep halt label st lc (ret (Some VReturn)) (in_next ch st) (fun _ => some st) none
    (fun _ => True) (fun _ => False) (in_pos st) (in_next_pass st lc ch) absorb); eauto.
  - intros s0 ind s1 H0. apply ret_ok in H0. tauto.
  - intros s0 s1 H0. apply ret_ok in H0. destruct H0. discriminate.
  - apply in_next_ok.
  - apply in_last_ok.
  all: intros s0 ind a0 x s1 bs s2 _; unfold in_pos; apply Hsome.
Qed.
Lemma in_complete : forall s log fl s', in_iter s log fl s' ->
  forall a a', folds keep absorb a log a' -> length log < n -> in_loop a s = Ok (LDone a' fl) s'.
Proof.
  intros s log fl s' H a a' Hf Hl.
  eapply (loop_complete (blk b) keep halt label st lc (ret (Some VReturn)) (in_next ch st) (fun _ => some st) none
    (fun _ => True) (fun _ => False) (in_pos st) (in_next_pass st lc ch) absorb); eauto.
  all: try (intros s0 H0; eexists; reflexivity); try tauto; try apply in_next_ok'; try apply in_last_ok'.
  all: intros s0 ind a0 x s1 bs s2 _; unfold in_pos; apply Hsome.
Qed.
End At.

Context (name : string) (iter : expr).
Definition in_core (a : A) : M (option (lres A)) :=
  for_in_core ev n label name iter (fun st _ => block_body ev b (some st) none) a.

(** The channel expression gives channel [ch]. *)
Lemma in_core_ok : forall a s a' fl s',
  in_core a s = Ok (Some (LDone a' fl)) s' <->
  exists x s0 ch m s1 s2, run iter s = Ok (Some x, FContinue) s0 /\ denotes s0 x (VIn ch) /\ taken ch s0 m s1 /\
    in_loop (S (length (r_stack s1))) (S (length (r_locals s1))) ch a (started name m s1) = Ok (LDone a' fl) s2 /\
    s' = back_to s s2.
Proof.
  intros a s a' fl s'. unfold in_core, for_in_core.
  unfold bind at 1 2, stack_len at 1, local_len at 1, gets at 1 2.
  unfold vexpr. rewrite bind_ok. split.
  - intros ([x xf] & s0 & H1 & H2). destruct x as [x|], xf; try (apply fail_ok in H2; contradiction);
      try (apply ret_ok in H2; destruct H2; discriminate).
    apply bind_ok in H2. destruct H2 as (v & s0' & H2 & H3). apply getv_iff in H2. destruct H2 as [-> D].
    destruct v; try (apply fail_ok in H3; contradiction). apply bind_ok in H3. destruct H3 as ([m|] & s1 & H3 & H4);
      [|apply ret_ok in H4; destruct H4; discriminate].
    apply recv_some in H3.
    unfold bind, stack_len, local_len, gets, push_local, push, modify in H4. simpl in H4.
    rewrite app_length in H4. simpl in H4. rewrite Nat.add_1_r in H4.
    match type of H4 with match ?L with _ => _ end = _ => change L with
      (in_loop (S (length (r_stack s1))) (S (length (r_locals s1))) ch a (started name m s1)) in H4 end.
    destruct (in_loop _ _ _ _ _) as [[a1 f1|x1] s2|e2 s2|w|] eqn:EL; try discriminate.
    inversion H4; subst. exists x, s0, ch, m, s1, s2. auto.
  - intros (x & s0 & ch & m & s1 & s2 & H1 & D & H3 & HL & ->). exists (Some x, FContinue), s0. split; auto.
    apply bind_ok. exists (VIn ch), s0. split; [apply getv_iff; auto|].
    apply bind_ok. exists (Some m), s1. split; [apply recv_some; auto|].
    unfold bind, stack_len, local_len, gets, push_local, push, modify. simpl.
    rewrite app_length. simpl. rewrite Nat.add_1_r.
    match goal with |- match ?L with _ => _ end = _ => change L with
      (in_loop (S (length (r_stack s1))) (S (length (r_locals s1))) ch a (started name m s1)) end.
    rewrite HL. reflexivity.
Qed.
Lemma in_core_none : forall a s s',
  in_core a s = Ok None s' <->
  exists x ch, run iter s = Ok (Some x, FContinue) s' /\ denotes s' x (VIn ch) /\ empty_queue ch s'.
Proof.
  intros a s s'. unfold in_core, for_in_core.
  unfold bind at 1 2, stack_len at 1, local_len at 1, gets at 1 2.
  unfold vexpr. rewrite bind_ok. split.
  - intros ([x xf] & s0 & H1 & H2). destruct x as [x|], xf; try (apply fail_ok in H2; contradiction);
      try (apply ret_ok in H2; destruct H2; discriminate).
    apply bind_ok in H2. destruct H2 as (v & s0' & H2 & H3). apply getv_iff in H2. destruct H2 as [-> D].
    destruct v; try (apply fail_ok in H3; contradiction). apply bind_ok in H3. destruct H3 as ([m|] & s1 & H3 & H4).
    + exfalso. unfold bind, stack_len, local_len, gets, push_local, push, modify in H4. simpl in H4.
      match type of H4 with match ?L with _ => _ end = _ => destruct L as [[a1 f1|x1] s2|e2 s2|w|] end; discriminate.
    + apply recv_none in H3. destruct H3 as [-> H3]. apply ret_ok in H4. destruct H4 as [_ ->]. exists x, ch. auto.
  - intros (x & ch & H1 & D & H3). exists (Some x, FContinue), s'. split; auto.
    apply bind_ok. exists (VIn ch), s'. split; [apply getv_iff; auto|].
    apply bind_ok. exists None, s'. split; [apply recv_none; auto|reflexivity].
Qed.
End Receive.
End Frames.

(** ** The kinds of loops *)

(** What a pass adds: [g] reads the pass, [R] adds it; [skip]: a pass without value adds nothing. *)
Definition ab {A B} (skip : bool) (g : pass -> B -> Prop) (R : A -> B -> A -> Prop) (a : A) (p : pass) (a' : A) : Prop :=
  (exists t, g p t /\ R a t a') \/ (skip = true /\ p_val p = None /\ a' = a).
Inductive chain {A B} (R : A -> B -> A -> Prop) : A -> list B -> A -> Prop :=
| Ch_nil : forall a, chain R a [] a
| Ch_cons : forall a t a1 l a', R a t a1 -> chain R a1 l a' -> chain R a (t :: l) a'.

Lemma folds_chain : forall {A B} skip (g : pass -> B -> Prop) (R : A -> B -> A -> Prop)
  (Hg : forall p t, g p t -> p_val p <> None) log a a',
  folds keep (ab skip g R) a log a' <-> exists l, gives skip g log l /\ chain R a l a'.
Proof.
  intros A B skip g R Hg log a a'. unfold gives. split.
  - intros H. induction H.
    + exists []. split; constructor.
    + destruct IHfolds as (l & H2 & H3). simpl. unfold counted at 1. rewrite H.
      destruct H0 as [(t & Gt & Rt)|(-> & Nv & ->)].
      * specialize (Hg _ _ Gt). destruct (p_val p); [|congruence]. exists (t :: l). split; econstructor; eauto.
      * rewrite Nv. exists l. auto.
    + destruct IHfolds as (l & H2 & H3). exists l. split; auto. simpl. unfold counted at 1.
      destruct (p_flow p); auto. congruence.
  - intros (l & H1 & H2). revert a l H1 H2. induction log as [|p log IH]; intros a l H1 H2.
    + inversion H1; subst. inversion H2; subst. constructor.
    + simpl in H1. unfold counted at 1 in H1. destruct (p_flow p) eqn:F; try (apply Fo_skip; [congruence|eapply IH; eauto]).
      destruct (p_val p) eqn:V.
      * inversion H1; subst. inversion H2; subst. eapply Fo_done; eauto. left. eauto.
      * destruct skip; simpl in H1.
        -- eapply Fo_done; eauto. right. auto.
        -- inversion H1; subst. exfalso. eapply Hg; eauto.
Qed.
Lemma chain_fold : forall {A B} (f : A -> B -> A) l a a',
  chain (fun a t a' => a' = f a t) a l a' <-> a' = fold_left f l a.
Proof.
  induction l as [|t l IH]; intros a a'; split; intros H.
  - inversion H; auto.
  - subst. constructor.
  - inversion H; subst. apply IH; auto.
  - econstructor; eauto. apply IH; auto.
Qed.
Lemma chain_snoc : forall {A B} (R : A -> B -> A -> Prop) l a t a',
  chain R a (l ++ [t]) a' <-> exists a1, chain R a l a1 /\ R a1 t a'.
Proof.
  induction l as [|u l IH]; intros a t a'; simpl; split.
  - intros H. inversion H; subst. inversion H5; subst. exists a. split; auto. constructor.
  - intros (a1 & H1 & H2). inversion H1; subst. econstructor; eauto. constructor.
  - intros H. inversion H; subst. apply IH in H5. destruct H5 as (a2 & H6 & H7). exists a2. split; auto. econstructor; eauto.
  - intros (a1 & H1 & H2). inversion H1; subst. econstructor; eauto. apply IH. eauto.
Qed.

Definition Rbest (better : f64 -> f64 -> bool) (a : f64 * option (list value))
  (t : option value * f64 * option (list value)) (a' : f64 * option (list value)) : Prop :=
  if fis_nan (fst a) || better (fst a) (number t) then
    exists i, fst (fst t) = Some i /\ a' = (number t, add_ind (snd t) i)
  else a' = a.
Definition Rfind (want : bool) (a : bool * option (list value))
  (t : option value * bool * option (list value)) (a' : bool * option (list value)) : Prop :=
  if Bool.eqb (snd (fst t)) want then exists i, fst (fst t) = Some i /\ a' = (want, add_ind (snd t) i) else a' = a.

Lemma nan_eq : forall x, fis_nan x = true -> x = fnan.
Proof. intros [] H; try discriminate. reflexivity. Qed.

Lemma best_chain : forall before,
  (forall a b, before a b = true -> fis_nan a = false /\ fis_nan b = false) ->
  (forall a, before a a = false) ->
  (forall a b c, before a b = true -> before b c = true -> before a c = true) ->
  (forall a b c, before a b = true -> fis_nan c = false -> before a c = true \/ before c b = true) ->
  forall l m sec, chain (Rbest (fun old new => before new old)) (fnan, None) l (m, sec) -> best before l m sec.
Proof.
  intros before Hnan Hirr Htr Hcmp l. induction l as [|t l IH] using rev_ind; intros m sec H.
  - inversion H; subst. unfold best. simpl. auto.
  - apply chain_snoc in H. destruct H as ([m0 sec0] & H1 & H2). specialize (IH _ _ H1).
    unfold best in *. rewrite forallb_app. simpl. rewrite rev_app_distr. simpl.
    unfold Rbest in H2. simpl in H2. destruct t as [[i y] sc]. unfold number in *. simpl in *.
    destruct (forallb _ l) eqn:Fl.
    + destruct IH as [-> _]. simpl in H2. destruct H2 as (p & -> & H2). inversion H2; subst m sec.
      destruct (fis_nan y) eqn:Ny; simpl.
      * split; [apply nan_eq; auto|]. exists p. split; auto. destruct sc; auto.
      * exists l, p, sc, []. rewrite forallb_forall in Fl. split; auto. split; auto. split; [destruct sc; auto|]. split.
        -- intros e He. apply in_app_iff in He. destruct He as [He|[<-|[]]]; simpl; auto.
           destruct (before (snd (fst e)) y) eqn:Q; auto. apply Hnan in Q. rewrite (Fl _ He) in Q. destruct Q. discriminate.
        -- intros e He Ne. rewrite (Fl _ He) in Ne. discriminate.
    + simpl. destruct IH as (l1 & i0 & sc0 & l2 & -> & Nm & -> & Hall & Hfirst). rewrite Nm in H2. simpl in H2.
      destruct (before y m0) eqn:Q.
      * destruct H2 as (p & -> & H2). inversion H2; subst m sec.
        exists (l1 ++ (Some i0, m0, sc0) :: l2), p, sc, []. split; auto.
        split; [apply Hnan in Q; tauto|]. split; [destruct sc; auto|]. split.
        -- intros e He. apply in_app_iff in He. destruct He as [He|[<-|[]]]; simpl; auto.
           destruct (before (snd (fst e)) y) eqn:Q2; auto. rewrite <- (Hall _ He). symmetry. eapply Htr; eauto.
        -- intros e He Ne. destruct (Hcmp _ _ _ Q Ne) as [|Q2]; auto. rewrite (Hall _ He) in Q2. discriminate.
      * inversion H2; subst m sec. exists l1, i0, sc0, (l2 ++ [(i, y, sc)]). split; [rewrite <- app_assoc; auto|].
        split; auto. split; auto. split; auto.
        intros e He. apply in_app_iff in He. destruct He as [He|[<-|[]]]; simpl; auto.
Qed.
Lemma min_chain : forall l m sec, chain (Rbest (fun m x => flt x m)) (fnan, None) l (m, sec) -> best flt l m sec.
Proof.
  apply (best_chain flt); intros.
  - split; [eapply flt_nan_l|eapply flt_nan_r]; eauto.
  - apply flt_irrefl.
  - eapply flt_trans; eauto.
  - apply flt_cmp; auto.
Qed.
Lemma max_chain : forall l m sec, chain (Rbest (fun m x => flt m x)) (fnan, None) l (m, sec) -> best (fun a b => flt b a) l m sec.
Proof.
  apply (best_chain (fun a b => flt b a)); intros.
  - split; [eapply flt_nan_r|eapply flt_nan_l]; eauto.
  - apply flt_irrefl.
  - eapply flt_trans; eauto.
  - destruct (flt_cmp _ _ _ H H0); auto.
Qed.

(** The first value that ends the loop is the last one. *)
Lemma halted : forall (body : rt -> res -> rt -> Prop) halt label more over pos next s log fl s' want l,
  (forall v sec, halt (VBool v sec) <-> v = want) ->
  iterates body halt label more over pos next s log fl s' -> gives false gave_bool log l ->
  Forall (fun e => snd (fst e) = negb want) l \/
  exists l1 i sc, l = l1 ++ [(i, want, sc)] /\ Forall (fun e => snd (fst e) = negb want) l1.
Proof.
  intros body halt label more over pos next s log fl s' want l Hw H. revert l. unfold gives.
  assert (forall p e s1 r, gave_bool p e -> p = Pass p.(p_ind) r FContinue s1 ->
    (forall v, r = Some v -> ~ halts halt s1 v) -> snd (fst e) = negb want) as HN.
  { intros p e s1 r G Ep HH. inversion G; subst. inversion Ep; subst. simpl.
    destruct (Bool.bool_dec y want) as [->|Hd]; [|destruct y, want; simpl in *; congruence].
    exfalso. eapply HH; [reflexivity|]. exists (VBool want sec). split; auto. apply Hw. auto. }
  induction H; intros ll Hl; simpl in Hl; try (unfold counted in Hl at 1; simpl in Hl).
  - inversion Hl; subst. left. constructor.
  - destruct r as [v|]; simpl in Hl; inversion Hl as [|p0 e0 ps0 es0 G0 F0]; subst; [|inversion G0].
    pose proof (HN _ _ s1 _ G0 eq_refl H1) as Hy. destruct (IHiterates _ F0) as [HF|(l1 & i & sc & -> & HF)].
    + left. constructor; auto.
    + right. exists (e0 :: l1), i, sc. split; auto.
  - destruct r as [v|]; simpl in Hl; inversion Hl as [|p0 e0 ps0 es0 G0 F0]; subst; [|inversion G0].
    inversion F0; subst. left. constructor; auto. eapply (HN _ _ s1 _ G0 eq_refl); eauto.
  - inversion Hl as [|p0 e0 ps0 es0 G0 F0]; subst. inversion F0; subst. destruct e0 as [[i y] sc]. right. exists [], i, sc.
    split; [|constructor]. inversion G0; subst. simpl. destruct H1 as (w & D & Hh).
    assert (w = VBool y sc) as -> by (eapply denotes_fun; eauto). apply Hw in Hh. subst. reflexivity.
  - auto.
  - inversion Hl; subst. left. constructor.
  - inversion Hl; subst. left. constructor.
  - destruct fl; try congruence; inversion Hl; subst; left; constructor.
Qed.
Lemma find_chain : forall want l r sec,
  (Forall (fun e => snd (fst e) = negb want) l \/
   exists l1 i sc, l = l1 ++ [(i, want, sc)] /\ Forall (fun e => snd (fst e) = negb want) l1) ->
  chain (Rfind want) (negb want, None) l (r, sec) -> first_hit want l r sec.
Proof.
  intros want.
  assert (forall l a a', Forall (fun e => snd (fst e) = negb want) l -> chain (Rfind want) a l a' -> a' = a) as HF.
  { intros l a a' H. revert a. induction H as [|t l Ht H IH]; intros a C; inversion C as [|a0 t0 a1 l1 a2 HR0 HC0]; subst; auto.
    specialize (IH _ HC0). subst. unfold Rfind in HR0. rewrite Ht in HR0.
    assert (Bool.eqb (negb want) want = false) as Q by (destruct want; auto). rewrite Q in HR0. auto. }
  assert (forall l, Forall (fun e => snd (fst e) = negb want) l ->
    forallb (fun e : option value * bool * option (list value) => negb (Bool.eqb (snd (fst e)) want)) l = true) as HB.
  { intros l H. apply forallb_forall. intros e He. rewrite Forall_forall in H. rewrite (H _ He). destruct want; auto. }
  intros l r sec [H|(l1 & i & sc & -> & H)] C; unfold first_hit.
  - rewrite HB; auto. apply HF in C; auto. inversion C. auto.
  - apply chain_snoc in C. destruct C as (a1 & C & HR). apply HF in C; auto. subst a1.
    rewrite forallb_app, HB; auto. simpl. unfold Rfind in HR. simpl in HR.
    assert (Bool.eqb want want = true) as Q by (destruct want; auto). rewrite Q in *. simpl.
    destruct HR as (p & -> & HR). inversion HR; subst. split; auto. exists l1, p, sc, []. split; auto.
    split; [destruct sc; auto|]. rewrite Forall_forall in H. auto.
Qed.

(** ** One kind of loop *)
Definition none_ok {A} (skip : bool) : A -> M (bstep A) := if skip then skip_none else need_value.

Section Kind.
Context {A B : Type} (skip : bool) (g : pass -> B -> Prop) (R : A -> B -> A -> Prop) (halt : value -> Prop)
  (Hg : forall p t, g p t -> p_val p <> None).
(** [f] adds a value, given how to find the position of the pass. *)
Context (f : M value -> A -> value -> M (bstep A)).
Context (Hf : forall (ind : M value) i a v s1 bs s2, (forall j s2, ind s1 = Ok j s2 <-> s2 = s1 /\ i = Some j) ->
   (f ind a v s1 = Ok bs s2 <-> s2 = s1 /\ exists a', ab skip g R a (Pass i (Some v) FContinue s1) a' /\
      ((bs = BStop a' /\ halts halt s1 v) \/ (bs = BNext a' /\ ~ halts halt s1 v)))).

Lemma kind_none : forall p a s1 bs s2, none_ok skip a s1 = Ok bs s2 <->
  s2 = s1 /\ exists a', ab skip g R a (Pass p None FContinue s1) a' /\ bs = BNext a'.
Proof.
  intros p a s1 bs s2. unfold none_ok, skip_none, need_value, ab. destruct skip.
  - rewrite ret_ok. split.
    + intros [-> ->]. split; auto. exists a. split; auto.
    + intros (-> & a' & [(t & Gt & _)|(_ & _ & ->)] & ->); auto. apply Hg in Gt. simpl in Gt. congruence.
  - rewrite fail_ok. split; [tauto|]. intros (-> & a' & [(t & Gt & _)|(Hk & _)] & ->); [|discriminate].
    apply Hg in Gt. simpl in Gt. congruence.
Qed.
Lemma kind_count_some : forall x a v s1 bs s2,
  f (ret (VF64 x None)) a v s1 = Ok bs s2 <-> s2 = s1 /\ exists a', ab skip g R a (Pass (Some (VF64 x None)) (Some v) FContinue s1) a' /\
      ((bs = BStop a' /\ halts halt s1 v) \/ (bs = BNext a' /\ ~ halts halt s1 v)).
Proof.
  intros. apply Hf. intros. rewrite ret_ok. split; [intros [-> ->]; auto|intros [-> H]; inversion H; auto].
Qed.
Lemma kind_in_some : forall st a v s1 bs s2,
  f (slot (st - 1)) a v s1 = Ok bs s2 <-> s2 = s1 /\ exists a', ab skip g R a (Pass (nth_error (r_stack s1) (st - 1)) (Some v) FContinue s1) a' /\
      ((bs = BStop a' /\ halts halt s1 v) \/ (bs = BNext a' /\ ~ halts halt s1 v)).
Proof. intros. apply Hf. intros. apply slot_ok. Qed.

Context (E : env) (n : nat) (label : option string) (name : string) (b : list expr) (init : A) (fin : A -> option value).

Lemma kind_count_sound : forall start stop s r fl s',
  (r <- count_core E n label (fun ind => f (ret ind)) (none_ok skip) b name start stop init ;; done fin r) s = Ok (r, fl) s' ->
  fl <> FReturn ->
  exists x z s1 log s2 l a', range (fun e => eval E n e Right) start stop s x z s1 /\
    count_iter E n halt label b (S (length (r_stack s1))) (S (length (r_locals s1))) z (started name (VF64 x None) s1) log fl s2 /\
    gives skip g log l /\ chain R init l a' /\ r = fin a' /\ s' = back_to s s2.
Proof.
  intros start stop s r fl s' H Hfl. apply bind_ok in H. destruct H as ([a' fl'|x] & s0 & H1 & H2).
  2: { apply ret_ok in H2. destruct H2 as [H2 _]. inversion H2; subst. congruence. }
  apply ret_ok in H2. destruct H2 as [H2 ->]. inversion H2; subst.
  apply count_core_ok in H1. destruct H1 as (x & z & s1 & s2 & Hr & HL & ->).
  destruct (count_sound E n halt label _ _ (ab skip g R) b kind_count_some kind_none _ _ _ _ _ _ _ _ HL) as (log & Hi & Hfo).
  apply folds_chain in Hfo; auto. destruct Hfo as (l & Hgv & Hc). exists x, z, s1, log, s2, l, a'. splits; auto.
Qed.
Lemma kind_count_complete : forall start stop s x z s1 log fl s2 l a',
  range (fun e => eval E n e Right) start stop s x z s1 ->
  count_iter E n halt label b (S (length (r_stack s1))) (S (length (r_locals s1))) z (started name (VF64 x None) s1) log fl s2 ->
  gives skip g log l -> chain R init l a' -> length log < n ->
  (r <- count_core E n label (fun ind => f (ret ind)) (none_ok skip) b name start stop init ;; done fin r) s = Ok (fin a', fl) (back_to s s2).
Proof.
  intros start stop s x z s1 log fl s2 l a' Hr Hi Hgv Hc Hl. apply bind_ok. exists (LDone a' fl), (back_to s s2). split; [|reflexivity].
  apply count_core_ok. exists x, z, s1, s2. splits; auto.
  eapply (count_complete E n halt label _ _ (ab skip g R) b kind_count_some kind_none); eauto. apply folds_chain; eauto.
Qed.
Lemma kind_in_sound : forall iter s r fl s',
  (r <- in_core E n label (fun st => f (slot (st - 1))) (none_ok skip) b name iter init ;; done_in fin r) s = Ok (r, fl) s' ->
  fl <> FReturn ->
  (exists x ch, eval E n iter Right s = Ok (Some x, FContinue) s' /\ denotes s' x (VIn ch) /\ empty_queue ch s' /\ r = None /\ fl = FContinue) \/
  exists x s0 ch m s1 log s2 l a', eval E n iter Right s = Ok (Some x, FContinue) s0 /\ denotes s0 x (VIn ch) /\ taken ch s0 m s1 /\
    in_iter E n halt label b (S (length (r_stack s1))) (S (length (r_locals s1))) ch (started name m s1) log fl s2 /\
    gives skip g log l /\ chain R init l a' /\ r = fin a' /\ s' = back_to s s2.
Proof.
  intros iter s r fl s' H Hfl. apply bind_ok in H. destruct H as ([[a' fl'|x]|] & s0 & H1 & H2).
  2: { apply ret_ok in H2. destruct H2 as [H2 _]. inversion H2; subst. congruence. }
  - right. apply ret_ok in H2. destruct H2 as [H2 ->]. inversion H2; subst.
    apply in_core_ok in H1. destruct H1 as (x & s0' & ch & m & s1 & s2 & Hx & D & Ht & HL & ->).
    destruct (in_sound E n halt label _ _ (ab skip g R) b kind_in_some kind_none _ _ _ _ _ _ _ _ HL) as (log & Hi & Hfo).
    apply folds_chain in Hfo; auto. destruct Hfo as (l & Hgv & Hc). exists x, s0', ch, m, s1, log, s2, l, a'. splits; auto.
  - left. apply ret_ok in H2. destruct H2 as [H2 ->]. inversion H2; subst. apply in_core_none in H1.
    destruct H1 as (x & ch & Hx & D & He). exists x, ch. splits; auto.
Qed.
Lemma kind_in_complete : forall iter s x s0 ch m s1 log fl s2 l a',
  eval E n iter Right s = Ok (Some x, FContinue) s0 -> denotes s0 x (VIn ch) -> taken ch s0 m s1 ->
  in_iter E n halt label b (S (length (r_stack s1))) (S (length (r_locals s1))) ch (started name m s1) log fl s2 ->
  gives skip g log l -> chain R init l a' -> length log < n ->
  (r <- in_core E n label (fun st => f (slot (st - 1))) (none_ok skip) b name iter init ;; done_in fin r) s = Ok (fin a', fl) (back_to s s2).
Proof.
  intros iter s x s0 ch m s1 log fl s2 l a' Hx D Ht Hi Hgv Hc Hl. apply bind_ok. exists (Some (LDone a' fl)), (back_to s s2). split; [|reflexivity].
  apply in_core_ok. exists x, s0, ch, m, s1, s2. splits; auto.
  eapply (in_complete E n halt label _ _ (ab skip g R) b kind_in_some kind_none); eauto. apply folds_chain; eauto.
Qed.
End Kind.

(** ** The steps *)
Definition gave_any (p : pass) (t : unit) : Prop := p_val p <> None.
Definition never (v : value) : Prop := False.
Lemma not_never : forall s v, ~ halts never s v.
Proof. intros s v (w & _ & []). Qed.

Lemma for_f : forall (ind : M value) (i : option value) (a : unit) v s1 bs s2,
  (forall j s2, ind s1 = Ok j s2 <-> s2 = s1 /\ i = Some j) ->
  ((fun (_ : M value) (a : unit) (_ : value) => ret (BNext a)) ind a v s1 = Ok bs s2 <-> s2 = s1 /\ exists a', ab true gave_any (fun a t a' => a' = a) a (Pass i (Some v) FContinue s1) a' /\
      ((bs = BStop a' /\ halts never s1 v) \/ (bs = BNext a' /\ ~ halts never s1 v))).
Proof.
  intros ind i a v s1 bs s2 _. rewrite ret_ok. split.
  - intros [-> ->]. split; auto. exists a. split; [left; exists tt; split; [discriminate|auto]|right; split; auto; apply not_never].
  - intros (-> & a' & H & [[_ C]|[-> _]]); [destruct (not_never _ _ C)|]. destruct a, a'. auto.
Qed.
Lemma num_f : forall skip f (ind : M value) i a v s1 bs s2,
  (forall j s2, ind s1 = Ok j s2 <-> s2 = s1 /\ i = Some j) ->
  ((fun _ : M value => num_step f) ind a v s1 = Ok bs s2 <-> s2 = s1 /\ exists a', ab skip gave_num (fun a t a' => a' = f a (number t)) a (Pass i (Some v) FContinue s1) a' /\
      ((bs = BStop a' /\ halts never s1 v) \/ (bs = BNext a' /\ ~ halts never s1 v))).
Proof.
  intros skip f ind i a v s1 bs s2 _. unfold num_step. rewrite bind_ok. split.
  - intros (w & s3 & H1 & H2). apply getv_iff in H1. destruct H1 as [-> D]. destruct w; try (apply fail_ok in H2; contradiction).
    apply ret_ok in H2. destruct H2 as [-> ->]. split; auto. exists (f a x). split.
    + left. exists (i, x, sec). split; auto. constructor; auto.
    + right. split; auto. apply not_never.
  - intros (-> & a' & [(t & G & ->)|(_ & C & _)] & [[_ C2]|[-> _]]); try (destruct (not_never _ _ C2)); try discriminate.
    inversion G; subst. exists (VF64 y sec), s1. split; [apply getv_iff; auto|reflexivity].
Qed.
Lemma vec_f : forall f (ind : M value) i a v s1 bs s2,
  (forall j s2, ind s1 = Ok j s2 <-> s2 = s1 /\ i = Some j) ->
  ((fun _ : M value => vec_step f) ind a v s1 = Ok bs s2 <-> s2 = s1 /\ exists a', ab false gave_vec (fun a t a' => a' = vmap2 f a t) a (Pass i (Some v) FContinue s1) a' /\
      ((bs = BStop a' /\ halts never s1 v) \/ (bs = BNext a' /\ ~ halts never s1 v))).
Proof.
  intros f ind i a v s1 bs s2 _. unfold vec_step. rewrite bind_ok. split.
  - intros (w & s3 & H1 & H2). apply getv_iff in H1. destruct H1 as [-> D]. destruct w; try (apply fail_ok in H2; contradiction).
    apply ret_ok in H2. destruct H2 as [-> ->]. split; auto. eexists. split.
    + left. eexists. split; [|reflexivity]. constructor; eauto.
    + right. split; auto. apply not_never.
  - intros (-> & a' & [(t & G & ->)|(_ & C & _)] & [[_ C2]|[-> _]]); try (destruct (not_never _ _ C2)); try discriminate.
    inversion G; subst. eexists _, s1. split; [apply getv_iff; eauto|reflexivity].
Qed.
Lemma sift_f : forall (ind : M value) i a v s1 bs s2,
  (forall j s2, ind s1 = Ok j s2 <-> s2 = s1 /\ i = Some j) ->
  ((fun _ : M value => sift_step) ind a v s1 = Ok bs s2 <-> s2 = s1 /\ exists a', ab false gave_raw (fun a t a' => a' = a ++ [t]) a (Pass i (Some v) FContinue s1) a' /\
      ((bs = BStop a' /\ halts never s1 v) \/ (bs = BNext a' /\ ~ halts never s1 v))).
Proof.
  intros ind i a v s1 bs s2 _. unfold sift_step. rewrite ret_ok. split.
  - intros [-> ->]. split; auto. eexists. split; [left; exists v; split; [constructor|reflexivity]|right; split; auto; apply not_never].
  - intros (-> & a' & [(t & G & ->)|(_ & C & _)] & [[_ C2]|[-> _]]); try (destruct (not_never _ _ C2)); try discriminate.
    inversion G; subst. auto.
Qed.
Lemma best_f : forall better (ind : M value) i a v s1 bs s2,
  (forall j s2, ind s1 = Ok j s2 <-> s2 = s1 /\ i = Some j) ->
  (best_step better ind a v s1 = Ok bs s2 <-> s2 = s1 /\ exists a', ab false gave_num (Rbest better) a (Pass i (Some v) FContinue s1) a' /\
      ((bs = BStop a' /\ halts never s1 v) \/ (bs = BNext a' /\ ~ halts never s1 v))).
Proof.
  intros better ind i a v s1 bs s2 Hind. unfold best_step. rewrite bind_ok. split.
  - intros (w & s3 & H1 & H2). apply getv_iff in H1. destruct H1 as [-> D]. destruct w; try (apply fail_ok in H2; contradiction).
    destruct (_ || _) eqn:Q.
    + apply bind_ok in H2. destruct H2 as (j & s4 & H3 & H4). apply Hind in H3. destruct H3 as [-> ->].
      apply ret_ok in H4. destruct H4 as [-> ->]. split; auto. eexists. split; [|right; split; [reflexivity|apply not_never]].
      left. exists (Some j, x, sec). split; [constructor; auto|]. unfold Rbest, number. simpl. rewrite Q. exists j. auto.
    + apply ret_ok in H2. destruct H2 as [-> ->]. split; auto. eexists. split; [|right; split; [reflexivity|apply not_never]].
      left. exists (i, x, sec). split; [constructor; auto|]. unfold Rbest, number. simpl. rewrite Q. auto.
  - intros (-> & a' & [(t & G & HR)|(_ & C & _)] & [[_ C2]|[-> _]]); try (destruct (not_never _ _ C2)); try discriminate.
    inversion G; subst. unfold Rbest, number in HR. simpl in HR. exists (VF64 y sec), s1. split; [apply getv_iff; auto|]. 
    destruct (_ || _).
    + destruct HR as (j & -> & ->). apply bind_ok. exists j, s1. split; [apply Hind; auto|reflexivity].
    + subst. reflexivity.
Qed.
Definition hit (want : bool) (v : value) : Prop := exists sec, v = VBool want sec.
Lemma find_f : forall want (ind : M value) i a v s1 bs s2,
  (forall j s2, ind s1 = Ok j s2 <-> s2 = s1 /\ i = Some j) ->
  (find_step want ind a v s1 = Ok bs s2 <-> s2 = s1 /\ exists a', ab false gave_bool (Rfind want) a (Pass i (Some v) FContinue s1) a' /\
      ((bs = BStop a' /\ halts (hit want) s1 v) \/ (bs = BNext a' /\ ~ halts (hit want) s1 v))).
Proof.
  intros want ind i a v s1 bs s2 Hind. unfold find_step. rewrite bind_ok. split.
  - intros (w & s3 & H1 & H2). apply getv_iff in H1. destruct H1 as [-> D]. destruct w; try (apply fail_ok in H2; contradiction).
    destruct (Bool.eqb b want) eqn:Q.
    + apply eqb_prop in Q. subst b. apply bind_ok in H2. destruct H2 as (j & s4 & H3 & H4). apply Hind in H3. destruct H3 as [-> ->].
      apply ret_ok in H4. destruct H4 as [-> ->]. split; auto. eexists. split.
      * left. exists (Some j, want, sec). split; [constructor; auto|]. unfold Rfind. simpl. rewrite eqb_reflx. exists j. auto.
      * left. split; auto. exists (VBool want sec). split; auto. exists sec. auto.
    + apply ret_ok in H2. destruct H2 as [-> ->]. split; auto. eexists. split.
      * left. exists (i, b, sec). split; [constructor; auto|]. unfold Rfind. simpl. rewrite Q. auto.
      * right. split; auto. intros (w & D2 & sec' & ->). pose proof (denotes_fun _ _ _ _ D D2) as C. inversion C; subst.
        rewrite eqb_reflx in Q. discriminate.
  - intros (-> & a' & [(t & G & HR)|(_ & C & _)] & Hb); try discriminate.
    inversion G; subst. unfold Rfind in HR. simpl in HR. exists (VBool y sec), s1. split; [apply getv_iff; auto|]. 
    destruct (Bool.eqb y want) eqn:Q.
    + apply eqb_prop in Q. subst y. destruct HR as (j & -> & ->). apply bind_ok. exists j, s1. split; [apply Hind; auto|].
      destruct Hb as [[-> _]|[_ Hn]]; [reflexivity|]. exfalso. apply Hn. exists (VBool want sec). split; auto. exists sec. auto.
    + subst. destruct Hb as [[_ (w & D2 & sec' & ->)]|[-> _]]; [|reflexivity].
      pose proof (denotes_fun _ _ _ _ H3 D2) as C. inversion C; subst. rewrite eqb_reflx in Q. discriminate.
Qed.
