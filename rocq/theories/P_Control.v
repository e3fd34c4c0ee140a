(** * C15, C18, C20, C21: break/continue, [?], lazy arguments, if. *)
From Coq Require Import String List ZArith Bool Arith Lia.
From Verif Require Import Float64 Syntax InterpModel WfSpec SyntaxProofs BalanceBase BalanceEval BalanceProofs ControlSpec Samples.
Import ListNotations.
Local Open Scope string_scope.
Local Open Scope nat_scope.
Local Open Scope list_scope.
Local Notation wpq := (wp anyp).

(** ** C15 *)

Definition exits (e : expr) (fl : flow) : Prop :=
  match fl with FBreak _ | FContinueLoop _ => can_exit fl e | _ => True end.
Definition plain (fl : flow) : Prop := match fl with FBreak _ | FContinueLoop _ => False | _ => True end.
Definition T (s : rt) : Prop := True.

Lemma wp_any : forall {A} (m : M A) s (Q : A -> rt -> Prop), (forall a s', Q a s') -> wpq m s Q T.
Proof. intros. unfold wp. destruct (m s); unfold T; auto. Qed.
Lemma plain_exits : forall fl e, plain fl -> exits e fl.
Proof. intros [| |l|l] e H; simpl in *; tauto. Qed.

Ltac walk :=
  repeat first
    [ apply wp_ret; exact I
    | apply wp_fail; exact I
    | (apply wp_panic; noise)
    | apply wp_oof
    | match goal with
      | |- wpq (bind _ _) _ _ _ => apply wp_bind, wp_any; intros
      | |- wpq (match ?x with _ => _ end) _ _ _ => destruct x
      | |- wpq (if ?x then _ else _) _ _ _ => destruct x
      end ].

Section C15.
Context (E : env).
Definition pl (r : res) (s : rt) : Prop := plain (snd r).

Section Ev.
Context (ev : expr -> side -> M res).

Lemma vexpr_any : forall {R} e sd msg leave k s (Q : R -> rt -> Prop),
  (forall x s, wpq (leave x) s Q T) -> (forall x s, wpq (k x) s Q T) -> wpq (vexpr ev e sd msg leave k) s Q T.
Proof.
  intros R e sd msg leave k s Q HL HK. unfold vexpr. apply wp_bind, wp_any. intros [[x|] fl] s'; destruct fl; auto;
    apply wp_fail; exact I.
Qed.
Lemma leave_pl : forall x s, wpq (leave_res x) s pl T.
Proof. intros. apply wp_ret. exact I. Qed.
Hint Resolve leave_pl : core.

Lemma object_pl : forall kvs acc s, wpq (object ev kvs acc) s pl T.
Proof.
  induction kvs as [|[k e] kvs IH]; intros; cbn [object]; [apply wp_ret; exact I|].
  apply vexpr_any; auto. intros x s'. destruct (assoc k acc); [apply wp_fail; exact I|auto].
Qed.
Lemma array_pl : forall es acc s, wpq (array ev es acc) s pl T.
Proof.
  induction es as [|e es IH]; intros; cbn [array]; [apply wp_ret; exact I|]. apply vexpr_any; auto.
Qed.
Lemma array_fill_pl : forall a b s, wpq (array_fill E ev a b) s pl T.
Proof. intros. unfold array_fill. apply vexpr_any; auto. intros. apply vexpr_any; auto. intros. walk. Qed.
Lemma try_leave_pl : forall m tr s, wpq (try_leave m tr) s pl T.
Proof. intros. unfold try_leave. walk. Qed.
Lemma try_fun_pl : forall e sd s, wpq (try_fun ev e sd) s pl T.
Proof.
  intros. unfold try_fun. apply vexpr_any; auto. intros. apply wp_bind, wp_any. intros.
  destruct (try_msg a) as [[y|m tr]|]; [apply wp_ret; exact I|apply try_leave_pl|apply wp_fail; exact I].
Qed.
Lemma swizzle_pl : forall inds e s, wpq (swizzle ev inds e) s pl T.
Proof. intros. unfold swizzle. apply vexpr_any; intros; walk. Qed.
Lemma lookup_pl : forall ids i p start j ins tids k s, (forall q s, wpq (k q) s pl T) ->
  wpq (lookup_ids ids i p start j ins tids k) s pl T.
Proof.
  induction ids as [|prop ids IH]; intros; cbn [lookup_ids]; auto.
  apply wp_bind, wp_any. intros qj s'. cbv zeta. destruct tids as [|t tids]; [auto|].
  destruct (Nat.eqb t i); [|auto]. apply wp_bind, wp_any. intros v s2.
  destruct (try_msg v) as [[y|m tr]|]; [|apply try_leave_pl|apply wp_fail; exact I].
  apply wp_bind, wp_any. auto.
Qed.
Lemma push_ids_pl : forall ids k s, (forall s, wpq k s pl T) -> wpq (push_ids ev ids k) s pl T.
Proof.
  induction ids as [|[x|x|e] ids IH]; intros; cbn [push_ids]; auto.
  apply vexpr_any; auto. intros. apply wp_bind, wp_any. auto.
Qed.
Lemma item_pl : forall it sd s, wpq (item_ E ev it sd) s pl T.
Proof.
  intros [nm sid cur tf ids tids] sd s. unfold item_. apply wp_bind, wp_any. intros. apply wp_bind, wp_any. intros.
  destruct ids as [|i ids].
  - destruct tf; [|apply wp_ret; exact I]. apply wp_bind, wp_any. intros.
    destruct (try_msg _) as [[y|m tr]|]; [apply wp_ret; exact I|apply try_leave_pl|apply wp_fail; exact I].
  - apply wp_bind, wp_any. intros. apply push_ids_pl. intros. apply lookup_pl. intros. walk.
Qed.
Lemma assign_pl : forall op l r s, wpq (assign E ev op l r) s pl T.
Proof.
  intros. unfold assign. destruct op.
  1: destruct l; try (apply wp_fail; exact I); destruct it as [nm sid cur tf ids tids];
     apply vexpr_any; auto; intros; apply wp_bind, wp_any; intros; destruct ids; [walk|];
     apply vexpr_any; auto; intros; walk.
  all: apply vexpr_any; auto; intros; apply vexpr_any; auto; intros; walk.
Qed.
Lemma push_args_pl : forall args k s, (forall s, wpq k s pl T) -> wpq (push_args ev args k) s pl T.
Proof.
  induction args as [|e args IH]; intros; cbn [push_args]; auto. apply vexpr_any; auto.
  intros. apply wp_bind, wp_any. auto.
Qed.
Lemma push_lazy_pl : forall inv args i k s, (forall s, wpq k s pl T) -> wpq (push_lazy ev inv i args k) s pl T.
Proof.
  induction args as [|e args IH]; intros; cbn [push_lazy]; auto. apply vexpr_any; auto.
  intros. apply wp_bind, wp_any. intros [y|] s'; [apply wp_ret; exact I|]. apply wp_bind, wp_any. auto.
Qed.
Lemma push_loaded_pl : forall inv args i k s, (forall s, wpq k s pl T) -> wpq (push_loaded ev inv i args k) s pl T.
Proof.
  induction args as [|e args IH]; intros; cbn [push_loaded]; auto. apply wp_bind, wp_any. intros [[x|] fl] s'.
  - destruct fl; try (apply wp_fail; exact I); [|apply wp_ret; exact I].
    apply wp_bind, wp_any. intros [y|] s2; [apply wp_ret; exact I|]. apply wp_bind, wp_any. auto.
  - destruct fl; try (apply wp_fail; exact I); [auto|apply wp_ret; exact I].
Qed.
Lemma finish_pl : forall src b x s, wpq (finish src b x) s pl T.
Proof. intros. unfold finish. walk. Qed.
Lemma lift_pl : forall p s, wpq (lift p) s pl T.
Proof. intros. unfold lift. walk. Qed.
Lemma call_loaded_pl : forall n args i name loader s, wpq (call_loaded E ev n args i name loader) s pl T.
Proof.
  intros. unfold call_loaded. apply wp_bind, wp_any. intros. cbv zeta. apply wp_bind, wp_any. intros.
  destruct (nth_error _ _); [|(apply wp_panic; noise)]. destruct (_ <? 0)%Z; [(apply wp_panic; noise)|].
  destruct (nth_error _ _); [|(apply wp_panic; noise)]. do 4 (apply wp_bind, wp_any; intros).
  apply push_loaded_pl. intros. do 8 (apply wp_bind, wp_any; intros). apply finish_pl.
Qed.
Lemma call_pl : forall n f name args loader s, wpq (call_internal E ev n f name args loader) s pl T.
Proof.
  intros. destruct f; cbn [call_internal].
  - apply wp_fail. exact I.
  - apply call_loaded_pl.
  - apply push_args_pl. intros. walk.
  - apply push_args_pl. intros. walk.
  - apply push_lazy_pl. intros. walk.
  - unfold call_binop. destruct args as [|a [|b args]]; try (apply wp_panic; noise).
    apply vexpr_any; auto. intros. apply vexpr_any; auto. intros. do 2 (apply wp_bind, wp_any; intros). apply lift_pl.
  - unfold call_unop. destruct args as [|a args]; try (apply wp_panic; noise).
    apply vexpr_any; auto. intros. apply wp_bind, wp_any; intros. apply lift_pl.
Qed.
Lemma call_closure_pl : forall it args s, wpq (call_closure E ev it args) s pl T.
Proof.
  intros. unfold call_closure. apply wp_bind, wp_any. intros [[x|] fl] s'.
  - destruct fl; try (apply wp_fail; exact I); [|apply wp_ret; exact I].
    apply wp_bind, wp_any. intros v s2. destruct v; try (apply wp_fail; exact I). destruct c.
    destruct (Nat.eqb _ _); [|apply wp_fail; exact I]. do 4 (apply wp_bind, wp_any; intros).
    apply push_loaded_pl. intros. do 7 (apply wp_bind, wp_any; intros). apply finish_pl.
  - destruct fl; try (apply wp_fail; exact I); apply wp_ret; exact I.
Qed.
Lemma go_pl : forall n name args s, wpq (go_ E ev n name args) s pl T.
Proof. intros. unfold go_. walk. Qed.
Lemma push_comp_pl : forall sd cap args k s, (forall s, wpq k s pl T) -> wpq (push_comp_args ev sd cap args k) s pl T.
Proof.
  induction args as [|e args IH]; intros; cbn [push_comp_args]; auto. apply wp_bind, wp_any. intros [[x|] fl] s'.
  all: destruct fl; try (apply wp_fail; exact I); [|apply wp_ret; exact I].
  all: apply wp_bind, wp_any; intros; apply wp_bind, wp_any; intros; destruct cap; [|auto];
       destruct (_ <? _); [(apply wp_panic; noise)|]; destruct (_ <? _); auto.
Qed.

(** Blocks and the like. *)
Hypothesis HE : forall e sd s, wpq (ev e sd) s (fun r _ => exits e (snd r)) T.
Definition anyx (es : list expr) (fl : flow) : Prop :=
  match fl with FBreak _ | FContinueLoop _ => can_exit fl (EBlock es) | _ => True end.
Lemma anyx_cons : forall e es fl, exits e fl \/ anyx es fl -> anyx (e :: es) fl.
Proof. intros e es [| |l|l] H; simpl in *; tauto. Qed.
Lemma anyx_hd : forall e es fl, exits e fl -> anyx (e :: es) fl.
Proof. intros. apply anyx_cons. auto. Qed.
Lemma anyx_tl : forall e es fl, anyx es fl -> anyx (e :: es) fl.
Proof. intros. apply anyx_cons. auto. Qed.

Lemma block_go_x : forall es last s, wpq (block_go ev es last) s (fun r _ => anyx es (snd r)) T.
Proof.
  induction es as [|e es IH]; intros; cbn [block_go]; [apply wp_ret; exact I|].
  apply wp_bind. eapply wp_mono; [apply HE| |auto]. intros [x fl] s' Hx. cbn in Hx. destruct fl.
  - eapply wp_mono; [apply IH| |auto]. intros. apply anyx_tl; auto.
  - apply wp_ret. exact I.
  - apply wp_ret. apply anyx_hd. exact Hx.
  - apply wp_ret. apply anyx_hd. exact Hx.
Qed.
Lemma block_x : forall es s, wpq (block ev es) s (fun r _ => anyx es (snd r)) T.
Proof.
  intros. unfold block. do 3 (apply wp_bind, wp_any; intros).
  apply wp_bind. eapply wp_mono; [apply block_go_x| |auto]. intros.
  do 3 (apply wp_bind, wp_any; intros). apply wp_ret. auto.
Qed.
Lemma link_go_x : forall es acc s,
  wpq (link_go ev es acc) s (fun r _ => match r with inl _ => True | inr r => anyx es (snd r) end) T.
Proof.
  induction es as [|e es IH]; intros; cbn [link_go]; [apply wp_ret; exact I|].
  apply wp_bind. eapply wp_mono; [apply HE| |auto]. intros [x fl] s' Hx. cbn in Hx.
  assert (forall acc s, wpq (link_go ev es acc) s
            (fun r _ => match r with inl _ => True | inr r => anyx (e :: es) (snd r) end) T) as IH'.
  { intros. eapply wp_mono; [apply IH| |auto]. intros [a|r] s2; auto. apply anyx_tl. }
  destruct x as [x|], fl.
  - apply wp_bind, wp_any. intros. destruct (link_push acc a); [apply IH'|apply wp_fail; exact I].
  - apply wp_ret. exact I.
  - apply wp_ret. apply anyx_hd. exact Hx.
  - apply wp_ret. apply anyx_hd. exact Hx.
  - apply IH'.
  - apply wp_ret. exact I.
  - apply wp_ret. apply anyx_hd. exact Hx.
  - apply wp_ret. apply anyx_hd. exact Hx.
Qed.
Lemma link_x : forall es s, wpq (link ev es) s (fun r _ => exits (ELink es) (snd r)) T.
Proof.
  intros. unfold link. destruct es; [apply wp_ret; exact I|]. do 3 (apply wp_bind, wp_any; intros).
  apply wp_bind. eapply wp_mono; [apply link_go_x| |auto]. intros [acc|[x fl]] s'' H.
  - do 3 (apply wp_bind, wp_any; intros). apply wp_ret. exact I.
  - apply wp_ret. destruct fl; exact H.
Qed.
Lemma else_if_x : forall conds blocks eb s,
  wpq (else_if ev conds blocks eb) s
    (fun r _ => forall c tb, exits (EIf c tb conds blocks eb) (snd r)) T.
Proof.
  induction conds as [|c conds IH]; intros [|b blocks] eb s; cbn [else_if].
  1-3: destruct eb as [eb|]; [|apply wp_ret; intros; exact I];
       eapply wp_mono; [apply block_x| |auto]; intros [x fl] s' H c0 tb; destruct fl; auto; right; right; exact H.
  apply vexpr_any; [intros; apply wp_ret; intros; exact I|].
  intros x s'. apply wp_bind, wp_any. intros v s2. destruct v; try (apply wp_fail; exact I).
  destruct b0.
  - eapply wp_mono; [apply block_x| |auto]. intros [y fl] s3 H c0 tb. destruct fl; auto; right; left; left; exact H.
  - eapply wp_mono; [apply IH| |auto]. intros [y fl] s3 H c0 tb. specialize (H c0 tb).
    destruct fl; auto; (destruct H as [H|[H|H]]; [left; exact H|right; left; right; exact H|right; right; exact H]).
Qed.
Lemma if_x : forall c tb conds blocks eb s,
  wpq (if_expr ev c tb conds blocks eb) s (fun r _ => exits (EIf c tb conds blocks eb) (snd r)) T.
Proof.
  intros. unfold if_expr. apply vexpr_any; [intros; apply wp_ret; exact I|].
  intros x s'. apply wp_bind, wp_any. intros v s2. destruct v; try (apply wp_fail; exact I).
  destruct b.
  - eapply wp_mono; [apply block_x| |auto]. intros [y fl] s3 H. destruct fl; auto; left; exact H.
  - eapply wp_mono; [apply else_if_x| |auto]. intros; auto.
Qed.
Lemma try_expr_x : forall e s, wpq (try_expr ev e) s (fun r _ => exits (ETryExpr e) (snd r)) T.
Proof.
  intros. pose proof (HE e Right s) as H. unfold wp, try_expr in *. destruct (ev e Right s) as [[[x|] fl] s1| | |]; auto;
    try (destruct fl; auto; exact I).
Qed.

(** Loops. *)
Definition bx {A} (b : list expr) (r : bstep A) (s : rt) : Prop :=
  match r with BBreak l _ => can_exit (FBreak l) (EBlock b) | BCont l _ => can_exit (FContinueLoop l) (EBlock b) | _ => True end.
Definition lx {A} (label : option string) (b : list expr) (r : lres A) (s : rt) : Prop :=
  match r with
  | LDone _ fl => match fl with FBreak _ | FContinueLoop _ => ~ acts_on label fl /\ can_exit fl (EBlock b) | FReturn => False | _ => True end
  | LRet _ => True
  end.
Lemma concerns_no : forall label l, concerns label l = false ->
  ~ acts_on label (FBreak l) /\ ~ acts_on label (FContinueLoop l).
Proof.
  intros label [x|] H; [|discriminate]. simpl in *. destruct label as [y|]; [|split; discriminate].
  apply String.eqb_neq in H. split; intro C; inversion C; congruence.
Qed.
Lemma loop_x : forall {A} label b n st lc test body next (a : A) s,
  (forall ind a s, wpq (body ind a) s (bx b) T) ->
  wpq (loop n label st lc test body next a) s (lx label b) T.
Proof.
  intros A label b n st lc test body next a s HB. revert a s. induction n as [|n IH]; intros; cbn [loop]; [apply wp_oof|].
  apply wp_bind, wp_any. intros [ind|] s1; [|apply wp_ret; exact I].
  apply wp_bind. eapply wp_mono; [apply HB| |auto]. intros r s2 Hr. cbv zeta.
  assert (forall a s, wpq (ok <- next ;; if ok : bool then trunc_stack st ;;; trunc_locals lc ;;; loop n label st lc test body next a
                          else ret (LDone a FContinue)) s (lx label b) T) as HA.
  { intros. apply wp_bind, wp_any. intros [|] s3; [|apply wp_ret; exact I]. do 2 (apply wp_bind, wp_any; intros). apply IH. }
  destruct r as [a'|a'|x|l a'|l a']; [apply HA|apply wp_ret; exact I|apply wp_ret; exact I| |].
  - destruct (concerns label l) eqn:C; apply wp_ret; [exact I|]. split; [apply (concerns_no _ _ C)|exact Hr].
  - destruct (concerns label l) eqn:C; [apply HA|]. apply wp_ret. split; [apply (concerns_no _ _ C)|exact Hr].
Qed.
Lemma num_expr_any : forall {A} e (k : f64 -> M (lres A)) label b s,
  (forall x s, wpq (k x) s (lx label b) T) -> wpq (num_expr ev e k) s (lx label b) T.
Proof.
  intros. unfold num_expr. apply vexpr_any; [intros; apply wp_ret; exact I|]. intros. apply wp_bind, wp_any.
  intros v s'. destruct v; try (apply wp_fail; exact I). auto.
Qed.
Lemma for_n_core_x : forall {A} n label b name start stop body (a : A) s,
  (forall st ind a s, wpq (body st ind a) s (bx b) T) ->
  wpq (for_n_core ev n label name start stop body a) s (lx label b) T.
Proof.
  intros A n label b name start stop body a s HB. unfold for_n_core.
  do 2 (apply wp_bind, wp_any; intros). cbv zeta.
  assert (forall x s, wpq (num_expr ev stop (fun y =>
    i <- stack_len ;; push_local name i ;;; push (vf64 x) ;;;
    st <- stack_len ;; lc <- local_len ;;
    r <- loop n label st lc (count_test st y) (body st) (count_next st) a ;;
    match r with
    | LDone a fl => trunc_stack a0 ;;; trunc_locals a1 ;;; ret (LDone a fl)
    | LRet x => ret (LRet x)
    end)) s (lx label b) T) as HG.
  { intros. apply num_expr_any. intros. do 5 (apply wp_bind, wp_any; intros).
    apply wp_bind. eapply wp_mono; [apply loop_x; auto| |auto]. intros [r fl|r] s3 Hr.
    - do 2 (apply wp_bind, wp_any; intros). apply wp_ret. exact Hr.
    - apply wp_ret. exact I. }
  destruct start; [apply num_expr_any; auto|apply HG].
Qed.
Definition olx {A} (label : option string) (b : list expr) (r : option (lres A)) (s : rt) : Prop :=
  match r with Some r => lx label b r s | None => True end.
Lemma for_in_core_x : forall {A} n label b name iter body (a : A) s,
  (forall st ind a s, wpq (body st ind a) s (bx b) T) ->
  wpq (for_in_core ev n label name iter body a) s (olx label b) T.
Proof.
  intros A n label b name iter body a s HB. unfold for_in_core.
  do 2 (apply wp_bind, wp_any; intros). apply vexpr_any; [intros; apply wp_ret; exact I|].
  intros. apply wp_bind, wp_any. intros v s2. destruct v; try (apply wp_fail; exact I).
  apply wp_bind, wp_any. intros [m|] s3; [|apply wp_ret; exact I].
  do 5 (apply wp_bind, wp_any; intros).
  apply wp_bind. eapply wp_mono; [apply loop_x; auto| |auto]. intros [r fl|r] s4 Hr.
  - do 2 (apply wp_bind, wp_any; intros). apply wp_ret. exact Hr.
  - apply wp_ret. exact I.
Qed.
Lemma block_body_x : forall {A} b some none (a : A) s,
  (forall a x s, wpq (some a x) s (bx b) T) -> (forall a s, wpq (none a) s (bx b) T) ->
  wpq (block_body ev b some none a) s (bx b) T.
Proof.
  intros A b some none a s H1 H2. unfold block_body. apply wp_bind. eapply wp_mono; [apply block_x| |auto].
  intros [[x|] fl] s' H; destruct fl; auto; apply wp_ret; exact H.
Qed.

Ltac step_any := intros; unfold num_step, vec_step, best_step, find_step, sift_step, skip_none, need_value; walk.
Lemma link_items_x : forall items acc s, wpq (link_items ev items acc) s (bx items) T.
Proof.
  induction items as [|e es IH]; intros; cbn [link_items]; [apply wp_ret; exact I|].
  apply wp_bind. eapply wp_mono; [apply HE| |auto]. intros [x fl] s' Hx. cbn in Hx.
  assert (forall acc s, wpq (link_items ev es acc) s (bx (e :: es)) T) as IH'.
  { intros. eapply wp_mono; [apply IH| |auto]. intros [a|a|y|l a|l a] s2 H; auto; right; exact H. }
  destruct x as [x|], fl.
  - apply wp_bind, wp_any. intros. destruct (link_push acc a); [apply IH'|apply wp_fail; exact I].
  - apply wp_ret. exact I.
  - apply wp_ret. left. exact Hx.
  - apply wp_ret. left. exact Hx.
  - apply IH'.
  - apply wp_ret. exact I.
  - apply wp_ret. left. exact Hx.
  - apply wp_ret. left. exact Hx.
Qed.
Lemma pass_on_x : forall label b b2 e r s, lx label b2 r s ->
  (forall fl, ~ acts_on label fl /\ can_exit fl (EBlock b2) -> can_exit fl e) ->
  bx (e :: b) (pass_on r) s.
Proof.
  intros label b b2 e [a fl|x] s H HI; simpl in *; auto. destruct fl; simpl; auto.
Qed.
Lemma sub_link_n_x : forall d n label name start stop b a s,
  wpq (sub_link_n ev d n label name start stop b a) s (lx label b) T.
Proof.
  induction d as [|d IH]; intros.
  all: cbn [sub_link_n]; apply for_n_core_x; intros; destruct b as [|e b]; [(apply wp_panic; noise)|].
  all: destruct e; try (apply wp_panic; noise).
  1,3: eapply wp_mono; [apply link_items_x| |auto]; intros [y|y|y|l y|l y] s1 H; auto; left; exact H.
  all: destruct k; try (apply wp_panic; noise); try apply wp_oof.
  apply wp_bind. eapply wp_mono; [apply IH| |auto]. intros r s1 H. apply wp_ret. eapply pass_on_x; [exact H|].
  intros fl Hf. exact Hf.
Qed.
Lemma sub_link_in_x : forall d n label name iter b a s,
  wpq (sub_link_in ev d n label name iter b a) s (lx label b) T.
Proof.
  induction d as [|d IH]; intros.
  all: cbn [sub_link_in]; apply wp_bind; eapply wp_mono;
       [apply (for_in_core_x n label b)| intros [r|] s1 H; apply wp_ret; [exact H|exact I]|auto].
  all: intros; destruct b as [|e b]; [(apply wp_panic; noise)|].
  all: destruct e; try (apply wp_panic; noise).
  1,3: eapply wp_mono; [apply link_items_x| |auto]; intros [y|y|y|l y|l y] s1 H; auto; left; exact H.
  all: destruct k; try (apply wp_panic; noise); try apply wp_oof.
  apply wp_bind. eapply wp_mono; [apply IH| |auto]. intros r s1 H. apply wp_ret. eapply pass_on_x; [exact H|].
  intros fl Hf. exact Hf.
Qed.
Lemma done_x : forall {A} (fin : A -> option value) label b r s e,
  lx label b r s -> (forall fl, ~ acts_on label fl /\ can_exit fl (EBlock b) -> can_exit fl e) ->
  wpq (done fin r) s (fun r _ => exits e (snd r)) T.
Proof.
  intros A fin label b [a fl|x] s e H HI; apply wp_ret; [|exact I]. simpl in *. destruct fl; simpl; auto.
Qed.
Lemma link_done_x : forall label b r s e,
  lx label b r s -> (forall fl, ~ acts_on label fl /\ can_exit fl (EBlock b) -> can_exit fl e) ->
  wpq (link_done r) s (fun r _ => exits e (snd r)) T.
Proof.
  intros label b [a fl|x] s e H HI; simpl in *; [|apply wp_ret; exact I]. destruct fl; apply wp_ret; simpl; auto.
Qed.
Lemma for_n_x : forall n k label name start stop b s,
  wpq (for_n ev n k label name start stop b) s (fun r _ => exits (EForN k label name start stop b) (snd r)) T.
Proof.
  intros. unfold for_n. destruct k.
  9: apply wp_bind; eapply wp_mono; [apply sub_link_n_x| |auto]; intros r s' Hr;
     eapply link_done_x; [exact Hr|intros fl Hf; exact Hf].
  all: apply wp_bind; eapply wp_mono;
       [apply (for_n_core_x n label b); intros; apply block_body_x; step_any| |auto];
       intros r s' Hr; eapply done_x; [exact Hr|intros fl Hf; exact Hf].
Qed.
Lemma done_in_x : forall {A} (fin : A -> option value) label b r s e,
  olx label b r s -> (forall fl, ~ acts_on label fl /\ can_exit fl (EBlock b) -> can_exit fl e) ->
  wpq (done_in fin r) s (fun r _ => exits e (snd r)) T.
Proof.
  intros A fin label b [r|] s e H HI; [|apply wp_ret; exact I]. eapply done_x; eauto.
Qed.
Lemma for_in_x : forall n k label name iter b s,
  wpq (for_in ev n k label name iter b) s (fun r _ => exits (EForIn k label name iter b) (snd r)) T.
Proof.
  intros. unfold for_in. destruct k; try (apply wp_panic; noise).
  9: apply wp_bind; eapply wp_mono; [apply sub_link_in_x| |auto]; intros r s' Hr;
     eapply link_done_x; [exact Hr|intros fl Hf; exact Hf].
  all: apply wp_bind; eapply wp_mono;
       [apply (for_in_core_x n label b); intros; apply block_body_x; step_any| |auto];
       intros r s' Hr; eapply done_in_x; [exact Hr|intros fl Hf; exact Hf].
Qed.
Lemma for_loop_x : forall n label st lc cond step_ b s,
  wpq (for_loop ev n label st lc cond step_ b) s (lx label b) T.
Proof.
  induction n as [|n IH]; intros; cbn [for_loop]; [apply wp_oof|]. cbv zeta.
  apply vexpr_any; [intros; apply wp_ret; exact I|]. intros v s1.
  destruct v; try (apply wp_fail; exact I). destruct b0; [|apply wp_ret; exact I].
  assert (forall (k : M (lres unit)) s, (forall s, wpq k s (lx label b) T) ->
    wpq (r <- ev step_ Right ;;
        match r with
        | (None, FContinue) => k
        | (x, FReturn) => ret (LRet x)
        | _ => fail "expected nothing from for step"
        end) s (lx label b) T) as HS.
  { intros k s2 Hk. apply wp_bind, wp_any. intros [[x|] fl] s3; destruct fl; auto; try (apply wp_fail; exact I);
      apply wp_ret; exact I. }
  apply wp_bind. eapply wp_mono; [apply block_x| |auto]. intros [x fl] s2 H. destruct fl.
  - destruct x; apply HS; intros; do 2 (apply wp_bind, wp_any; intros); apply IH.
  - destruct x; apply wp_ret; exact I.
  - destruct x; destruct (concerns label l) eqn:C; apply wp_ret; try exact I; (split; [apply (concerns_no _ _ C)|exact H]).
  - destruct x; destruct (concerns label l) eqn:C;
      try (apply HS; intros; apply IH); apply wp_ret; (split; [apply (concerns_no _ _ C)|exact H]).
Qed.
Lemma for_expr_x : forall n label init cond step_ b s,
  wpq (for_expr ev n label init cond step_ b) s (fun r _ => exits (EFor label init cond step_ b) (snd r)) T.
Proof.
  intros. unfold for_expr. do 2 (apply wp_bind, wp_any; intros). apply wp_bind, wp_any.
  intros [[x|] fl] s2; destruct fl; try (apply wp_fail; exact I); try (apply wp_ret; exact I).
  do 2 (apply wp_bind, wp_any; intros). apply wp_bind. eapply wp_mono; [apply for_loop_x| |auto].
  intros [a3 fl|y] s5 H.
  - do 2 (apply wp_bind, wp_any; intros). apply wp_ret. destruct fl; try exact I; exact H.
  - apply wp_ret. exact I.
Qed.
Lemma expression_x : forall n e sd s, wpq (expression E ev n e sd) s (fun r _ => exits e (snd r)) T.
Proof.
  assert (forall m s e, wpq m s pl T -> wpq m s (fun r _ => exits e (snd r)) T) as HP.
  { intros m s e H. eapply wp_mono; [exact H| |auto]. intros [x fl] s' H1. apply plain_exits. exact H1. }
  intros n e sd s. destruct e; cbn [expression].
  - apply link_x.
  - apply HP, object_pl.
  - apply HP, array_pl.
  - apply HP, array_fill_pl.
  - apply vexpr_any; intros; apply wp_ret; exact I.
  - apply wp_ret. exact I.
  - apply wp_ret. reflexivity.
  - apply wp_ret. reflexivity.
  - eapply wp_mono; [apply block_x| |auto]. intros [x fl] s' H. destruct fl; exact H.
  - apply HP, go_pl.
  - apply HP, call_pl.
  - apply HP, item_pl.
  - apply HP, assign_pl.
  - apply HP. unfold vec4_. apply wp_bind, wp_any; intros. apply push_comp_pl. intros. walk.
  - apply HP. unfold mat4_. apply push_comp_pl. intros. walk.
  - apply for_expr_x.
  - apply for_n_x.
  - apply for_in_x.
  - apply if_x.
  - apply wp_ret. exact I.
  - apply HP, try_fun_pl.
  - apply HP, swizzle_pl.
  - apply HP. unfold closure_. destruct c. walk.
  - apply HP, call_closure_pl.
  - apply wp_fail. exact I.
  - apply try_expr_x.
  - apply HP. unfold in_expr. walk.
Qed.
End Ev.

Lemma eval_x : forall n e sd s, wpq (eval E n e sd) s (fun r _ => exits e (snd r)) T.
Proof.
  induction n; intros; cbn [eval]; [apply wp_oof|]. apply expression_x. auto.
Qed.
End C15.

(** A [break] or [continue] leaves an expression only if the expression contains it outside of
    every loop it concerns: all loops between are abandoned, none further out is. *)
Theorem C15_scope : forall E n e sd s x l s',
  (eval E n e sd s = Ok (x, FBreak l) s' -> can_exit (FBreak l) e) /\
  (eval E n e sd s = Ok (x, FContinueLoop l) s' -> can_exit (FContinueLoop l) e).
Proof.
  intros E n e sd s x l s'. pose proof (eval_x E n e sd s) as H. unfold wp in H.
  split; intros He; rewrite He in H; exact H.
Qed.
Print Assumptions C15_scope.

(** No call lets one through, of whatever kind: it is an error there. *)
Theorem C15_calls : forall E n f name args it sd s x fl s',
  (eval E n (ECall f name args) sd s = Ok (x, fl) s' -> fl = FContinue \/ fl = FReturn) /\
  (eval E n (ECallClosure it args) sd s = Ok (x, fl) s' -> fl = FContinue \/ fl = FReturn).
Proof.
  intros E n f name args it sd s x fl s'. split; intros He; destruct fl; auto; exfalso.
  - exact (proj1 (C15_scope _ _ _ _ _ _ _ _) He).
  - exact (proj2 (C15_scope _ _ _ _ _ _ _ _) He).
  - exact (proj1 (C15_scope _ _ _ _ _ _ _ _) He).
  - exact (proj2 (C15_scope _ _ _ _ _ _ _ _) He).
Qed.
Print Assumptions C15_calls.

(** ** C21 *)

Lemma getv_denotes : forall x s,
  match getv x s with
  | Ok v s' => s' = s /\ denotes s x v
  | Err _ _ => False
  | Panic _ => forall v, ~ denotes s x v
  | OOF => False
  end.
Proof.
  intros x s. unfold getv, denotes. destruct x; simpl; auto.
  unfold slot. destruct (nth_error (r_stack s) i) eqn:Hn; auto. intros v C. congruence.
Qed.

Lemma if_chain : forall E n (rest : list (expr * list expr)) eb s c b,
  let cond := fun c => eval E n c Right in
  let blk := fun b => eval E (S n) (EBlock b) Right in
  let o := if_expr (eval E n) c b (map fst rest) (map snd rest) eb s in
  if_run cond blk ((c, b) :: rest) eb s o \/ if_cond_fails cond ((c, b) :: rest) s o.
Proof.
  intros E n rest eb s c b. revert s c b.
  assert (forall s,
    let o := else_if (eval E n) (map fst rest) (map snd rest) eb s in
    if_run (fun c => eval E n c Right) (fun b => eval E (S n) (EBlock b) Right) rest eb s o \/
    if_cond_fails (fun c => eval E n c Right) rest s o) as HR.
  { induction rest as [|[c b] rest IH]; intros s.
    - left. destruct eb; constructor.
    - cbn [map fst snd else_if]. cbv zeta. unfold vexpr, bind.
      destruct (eval E n c Right s) as [[x fl] s1|m s1|w|] eqn:Hc.
      2: right; eapply Ic_err; eauto. 2: right; eapply Ic_panic; eauto. 2: right; eapply Ic_oof; eauto.
      destruct x as [x|], fl; try (right; eapply Ic_leave; eauto; fail);
        try (right; eapply Ic_flow; eauto; try discriminate; try (right; discriminate); fail).
      pose proof (getv_denotes x s1) as Hg. destruct (getv x s1) as [v s2|m s2|w|] eqn:Eg; try tauto.
      2: right; eapply Ic_dangling; eauto.
      destruct Hg as [-> Hd].
      destruct v; try (right; eapply Ic_type; eauto; discriminate).
      destruct b0.
      + left. eapply If_true; eauto.
      + destruct (IH s1) as [H|H]; [left; eapply If_false; eauto|right; eapply Ic_next; eauto]. }
  intros s c b. cbv zeta. unfold if_expr, vexpr, bind.
  destruct (eval E n c Right s) as [[x fl] s1|m s1|w|] eqn:Hc.
  2: right; eapply Ic_err; eauto. 2: right; eapply Ic_panic; eauto. 2: right; eapply Ic_oof; eauto.
  destruct x as [x|], fl; try (right; eapply Ic_leave; eauto; fail);
    try (right; eapply Ic_flow; eauto; try discriminate; try (right; discriminate); fail).
  pose proof (getv_denotes x s1) as Hg. destruct (getv x s1) as [v s2|m s2|w|] eqn:Eg; try tauto.
  2: right; eapply Ic_dangling; eauto.
  destruct Hg as [-> Hd].
  destruct v; try (right; eapply Ic_type; eauto; discriminate).
  destruct b0.
  - left. eapply If_true; eauto.
  - destruct (HR s1) as [H|H]; [left; eapply If_false; eauto|right; eapply Ic_next; eauto].
Qed.

(** Conditions are run left to right up to the first true one, and exactly that block is run and
    gives the result; or a condition is reached that does not give a boolean. *)
Theorem C21_first_true : forall E n c tb cs bs eb sd s,
  length cs = length bs ->
  let cond := fun c => eval E n c Right in
  let blk := fun b => eval E (S n) (EBlock b) Right in
  let o := eval E (S n) (EIf c tb cs bs eb) sd s in
  if_run cond blk ((c, tb) :: combine cs bs) eb s o \/
  if_cond_fails cond ((c, tb) :: combine cs bs) s o.
Proof.
  intros E n c tb cs bs eb sd s HL. pose proof (if_chain E n (combine cs bs) eb s c tb) as H.
  cbv zeta in H. 
  assert (map fst (combine cs bs) = cs /\ map snd (combine cs bs) = bs) as [E1 E2].
  { clear -HL. revert bs HL. induction cs as [|c cs IH]; intros [|b bs] HL; try discriminate; auto.
    simpl in *. destruct (IH bs ltac:(lia)) as [A B]. rewrite A, B. auto. }
  rewrite E1, E2 in H. exact H.
Qed.
Print Assumptions C21_first_true.

Lemma denotes_fun : forall s x v w, denotes s x v -> denotes s x w -> v = w.
Proof. intros s x v w H1 H2. unfold denotes in *. destruct x; congruence. Qed.
(** The relation is a function, so nothing else is run. *)
Theorem C21_determined : forall cond blk l eb s o o',
  if_run cond blk l eb s o -> if_run cond blk l eb s o' -> o = o'.
Proof.
  intros cond blk l eb s o o' H. revert o'. induction H; intros o' H'; inversion H'; subst; auto.
  - rewrite H in *. match goal with H : Ok _ _ = Ok _ _ |- _ => inversion H; subst end. reflexivity.
  - rewrite H in *. match goal with H : Ok _ _ = Ok _ _ |- _ => inversion H; subst end.
    match goal with A : denotes ?s ?x ?v, B : denotes ?s ?x ?w |- _ => pose proof (denotes_fun _ _ _ _ A B) as C; discriminate C end.
  - rewrite H in *. match goal with H : Ok _ _ = Ok _ _ |- _ => inversion H; subst end.
    match goal with A : denotes ?s ?x ?v, B : denotes ?s ?x ?w |- _ => pose proof (denotes_fun _ _ _ _ A B) as C; discriminate C end.
  - rewrite H in *. match goal with H : Ok _ _ = Ok _ _ |- _ => inversion H; subst end. apply IHif_run; auto.
Qed.

(** ** C20 *)

Lemma lazy_exit_spec : forall ls x v, match lazy_exit ls x v with
  | Some y => exit_value ls x v y
  | None => forall y, ~ exit_value ls x v y
  end.
Proof.
  induction ls as [|l ls IH]; intros x v; simpl; [intros y C; inversion C|].
  specialize (IH x v).
  assert ((forall z, ~ exit_one l x v z) -> match lazy_exit ls x v with
          | Some y => exit_value (l :: ls) x v y | None => forall y, ~ exit_value (l :: ls) x v y end) as HL.
  { intros HN. destruct (lazy_exit ls x v).
    - apply Ev_later; auto.
    - intros y C. inversion C; subst; [eapply HN; eauto|eapply IH; eauto]. }
  destruct l.
  - destruct (veq v v0) eqn:Q; [constructor; constructor; auto|]. apply HL. intros z C. inversion C; subst. congruence.
  - destruct v; try (apply HL; intros z C; inversion C); constructor; constructor.
  - destruct v; try (apply HL; intros z C; inversion C); constructor; constructor.
  - destruct v; try (apply HL; intros z C; inversion C); constructor; constructor.
Qed.
Lemma exit_value_fun : forall ls x v y, exit_value ls x v y -> lazy_exit ls x v = Some y.
Proof.
  intros ls x v y H. induction H; simpl; auto.
  - inversion H; subst; auto. rewrite H0. reflexivity.
  - destruct l; [destruct (veq v v0) eqn:Q|destruct v|destruct v|destruct v]; auto;
      exfalso; eapply H; constructor; auto.
Qed.
Lemma getv_ok : forall s x v, denotes s x v -> getv x s = Ok v s.
Proof. intros s x v H. unfold denotes, getv in *. destruct x; subst; auto. unfold slot. rewrite H. reflexivity. Qed.

Lemma push_lazy_exit : forall run inv i args s y s2, args_exit run inv i args s y s2 ->
  forall ev k, (forall e, run e = ev e Right) -> push_lazy ev inv i args k s = Ok (Some y, FContinue) s2.
Proof.
  intros run inv i args s y s2 H. induction H; intros ev k Hev.
  - cbn [push_lazy]. unfold vexpr, bind. rewrite Hev in H. rewrite H. unfold lazy_check. rewrite H0.
    assert (ls <> []) as Hn by (intros ->; inversion H2).
    destruct ls as [|l ls]; [congruence|]. unfold bind. rewrite (getv_ok _ _ _ H1), (exit_value_fun _ _ _ _ H2). reflexivity.
  - cbn [push_lazy]. unfold vexpr, bind. rewrite Hev in H. rewrite H.
    assert (lazy_check inv i x s1 = Ok None s1) as ->.
    { unfold lazy_check. destruct (nth_error inv i) as [[|l ls]|]; try reflexivity. unfold bind.
      rewrite (getv_ok _ _ _ H0). pose proof (lazy_exit_spec (l :: ls) x v) as S.
      destruct (lazy_exit (l :: ls) x v); [exfalso; eapply H1; eauto|reflexivity]. }
    unfold push, modify. apply IHargs_exit. auto.
Qed.
Lemma push_loaded_exit : forall run inv i args s y s2, args_exit run inv i args s y s2 ->
  forall ev k, (forall e, run e = ev e Right) -> push_loaded ev inv i args k s = Ok (Some y, FContinue) s2.
Proof.
  intros run inv i args s y s2 H. induction H; intros ev k Hev.
  - cbn [push_loaded]. unfold bind. rewrite Hev in H. rewrite H. unfold lazy_check. rewrite H0.
    assert (ls <> []) as Hn by (intros ->; inversion H2).
    destruct ls as [|l ls]; [congruence|]. unfold bind. rewrite (getv_ok _ _ _ H1), (exit_value_fun _ _ _ _ H2). reflexivity.
  - cbn [push_loaded]. unfold bind. rewrite Hev in H. rewrite H.
    assert (lazy_check inv i x s1 = Ok None s1) as ->.
    { unfold lazy_check. destruct (nth_error inv i) as [[|l ls]|]; try reflexivity. unfold bind.
      rewrite (getv_ok _ _ _ H0). pose proof (lazy_exit_spec (l :: ls) x v) as S.
      destruct (lazy_exit (l :: ls) x v); [exfalso; eapply H1; eauto|reflexivity]. }
    unfold push, modify. apply IHargs_exit. auto.
Qed.

(** A call of an external lazy function whose argument matches an invariant gives the specified
    value in the state after that argument: no further argument is run, nor the function. *)
Theorem C20_external : forall E n g name args sd s y s2,
  args_exit (fun e => eval E n e Right) (e_lazy E g) 0 args s y s2 ->
  eval E (S n) (ECall (FLazy g) name args) sd s = Ok (Some y, FContinue) s2.
Proof. intros E n g name args sd s y s2 H. exact (push_lazy_exit _ _ _ _ _ _ _ H (eval E n) _ (fun e => eq_refl)). Qed.
Print Assumptions C20_external.
(** The same for a loaded function declared with lazy invariants (its return slot, if it has one,
    is already on the stack). *)
Theorem C20_loaded : forall E n i f name args sd s y s2,
  target E (r_mod s) (top_of s) i = Some f ->
  args_exit (fun e => eval E n e Right) (fn_lazy f) 0 args (if fn_ret f then pushed VReturn s else s) y s2 ->
  eval E (S n) (ECall (FLoaded i) name args) sd s = Ok (Some y, FContinue) s2.
Proof.
  intros E n i f name args sd s y s2 Ht H. cbn [eval expression call_internal].
  unfold call_loaded, bind, top_index, gets. unfold target, top_of in Ht. cbv zeta in Ht.
  destruct (nth_error (e_mods E) (r_mod s)) as [m|]; [|destruct (_ <? 0)%Z; discriminate].
  destruct (_ <? 0)%Z; [discriminate|]. rewrite Ht.
  destruct (fn_ret f); exact (push_loaded_exit _ _ _ _ _ _ _ H (eval E n) _ (fun e => eq_refl)).
Qed.
Print Assumptions C20_loaded.

(** The invariants of the standard library (lib.rs 82-88). *)
Definition std_lazy (E : env) : Prop :=
  e_lazy E "and_also" = [[LzVar (vbool false)]] /\ e_lazy E "or_else" = [[LzVar (vbool true)]] /\
  e_lazy E "unwrap_or" = [[LzOk; LzSome]].
(** So [a && b] does not run [b] when [a] is false, [a || b] not when [a] is true, and
    [unwrap_or(a, b)] not when [a] is [some] or [ok]. *)
Theorem C20_short_circuit : forall E n name a rest sd s x v s1,
  std_lazy E -> eval E n a Right s = Ok (Some x, FContinue) s1 -> denotes s1 x v ->
  (forall sec, v = VBool false sec ->
     eval E (S n) (ECall (FLazy "and_also") name (a :: rest)) sd s = Ok (Some x, FContinue) s1) /\
  (forall sec, v = VBool true sec ->
     eval E (S n) (ECall (FLazy "or_else") name (a :: rest)) sd s = Ok (Some x, FContinue) s1) /\
  (forall y, v = VSome y \/ v = VOk y ->
     eval E (S n) (ECall (FLazy "unwrap_or") name (a :: rest)) sd s = Ok (Some y, FContinue) s1).
Proof.
  intros E n name a rest sd s x v s1 (L1 & L2 & L3) Ha Hd. splits.
  - intros sec ->. apply C20_external. rewrite L1. eapply Ax_exit; eauto; [reflexivity|]. constructor. constructor. reflexivity.
  - intros sec ->. apply C20_external. rewrite L2. eapply Ax_exit; eauto; [reflexivity|]. constructor. constructor. reflexivity.
  - intros y [->| ->]; apply C20_external; rewrite L3; (eapply Ax_exit; eauto; [reflexivity|]).
    + apply Ev_later; [|constructor; constructor]. intros z C. inversion C.
    + constructor. constructor.
Qed.
Print Assumptions C20_short_circuit.

(** ** C18 *)

Lemma try_msg_spec : forall v, match try_msg v with
  | Some (TOk y) => try_value v y
  | Some (TErr m tr) => (v = VErr m tr \/ exists t, m = VStr t /\ tr = []) /\ (forall y, ~ try_value v y)
  | None => forall y, ~ try_value v y
  end.
Proof.
  intros v. destruct v; simpl; try (intros y C; inversion C; fail); try constructor.
  - destruct b, sec; try constructor; eauto; intros y C; inversion C.
  - destruct (fis_nan x) eqn:Nx; [|destruct sec; try constructor; auto].
    + split; [eauto|]. intros y C. inversion C; subst. congruence.
    + eauto.
    + intros y C. inversion C.
  - eauto.
  - intros y C. inversion C.
  - auto.
  - intros y C. inversion C.
Qed.

(** The slot below the arguments of the running function still waits for a return value. *)
Definition return_open (s : rt) : Prop :=
  exists c cs i, r_calls s = c :: cs /\ c_stack c = S i /\ nth_error (r_stack s) i = Some VReturn.

(** [e?] with a payload goes on with it, in the state after [e]. *)
Theorem C18_payload : forall E n e sd s x v y s1,
  eval E n e sd s = Ok (Some x, FContinue) s1 -> denotes s1 x v -> try_value v y ->
  eval E (S n) (ETry e) sd s = Ok (Some y, FContinue) s1.
Proof.
  intros E n e sd s x v y s1 He Hd Hy. cbn [eval expression]. unfold try_fun, vexpr, bind. rewrite He.
  rewrite (getv_ok _ _ _ Hd). pose proof (try_msg_spec v) as H. 
  inversion Hy; subst; try reflexivity. simpl. rewrite H0. reflexivity.
Qed.
Print Assumptions C18_payload.

(** [e?] with an error leaves the function with the same message and one more trace entry; [none],
    [false] and the like leave with a message of their own and one trace entry. *)
Theorem C18_error : forall E n e sd s x v s1,
  eval E n e sd s = Ok (Some x, FContinue) s1 -> denotes s1 x v -> return_open s1 ->
  (forall m tr, v = VErr m tr -> exists t,
     eval E (S n) (ETry e) sd s = Ok (Some (VErr m (tr ++ [t])), FReturn) s1) /\
  (v = VNone \/ v = VBool true None \/ (exists sec, v = VBool false sec) \/
   (exists sec, v = VF64 fnan sec) \/ (exists z, v = VF64 z None) ->
   exists m t, eval E (S n) (ETry e) sd s = Ok (Some (VErr (VStr m) [t]), FReturn) s1).
Proof.
  intros E n e sd s x v s1 He Hd (c & cs & i & Hc & Hi & Hs).
  assert (forall m tr, try_msg v = Some (TErr m tr) ->
          eval E (S n) (ETry e) sd s = Ok (Some (VErr m (tr ++ [c_name c])), FReturn) s1) as H.
  { intros m tr Hm. cbn [eval expression]. unfold try_fun, vexpr, bind. rewrite He, (getv_ok _ _ _ Hd), Hm.
    unfold try_leave, bind, gets. rewrite Hc, Hi. unfold slot. rewrite Hs. reflexivity. }
  split.
  - intros m tr ->. eauto.
  - intros [->|[->|[[sec ->]|[[sec ->]|[z ->]]]]].
    + do 2 eexists. exact (H _ _ eq_refl).
    + do 2 eexists. exact (H _ _ eq_refl).
    + do 2 eexists. exact (H _ _ eq_refl).
    + do 2 eexists. exact (H _ _ eq_refl).
    + cbn [try_msg] in H. destruct (fis_nan z); do 2 eexists; exact (H _ _ eq_refl).
Qed.
Print Assumptions C18_error.

(** Execution goes on after [e?] only with a payload. *)
Theorem C18_never_continues : forall E n e sd s r s',
  eval E n (ETry e) sd s = Ok (r, FContinue) s' ->
  exists k x v y, n = S k /\ eval E k e sd s = Ok (Some x, FContinue) s' /\ denotes s' x v /\
                  try_value v y /\ r = Some y.
Proof.
  intros E [|n] e sd s r s' He; [discriminate|]. cbn [eval expression] in He. unfold try_fun, vexpr, bind in He.
  destruct (eval E n e sd s) as [[x fl] s1|m s1|w|] eqn:Hc; try discriminate.
  destruct x as [x|], fl; try discriminate.
  pose proof (getv_denotes x s1) as Hg. destruct (getv x s1) as [v s2|m s2|w|] eqn:Eg; try discriminate.
  destruct Hg as [-> Hd]. pose proof (try_msg_spec v) as Hm. destruct (try_msg v) as [[y|m tr]|]; try discriminate.
  - inversion He; subst. exists n, x, v, y. auto.
  - exfalso. unfold try_leave, bind, gets in He. destruct (r_calls s1) as [|c cs]; [discriminate|].
    destruct (c_stack c); [discriminate|]. unfold slot in He. destruct (nth_error _ _) as [[]|]; discriminate.
Qed.
Print Assumptions C18_never_continues.

(** The same for a variable with [?] (which the parser keeps inside the item). *)
Theorem C18_variable : forall E n name sid cur tids sd s x v s1,
  eval E (S n) (EItem (Item name sid cur false [] tids)) sd s = Ok (Some x, FContinue) s1 -> denotes s1 x v ->
  (forall y, try_value v y ->
     eval E (S n) (EItem (Item name sid cur true [] tids)) sd s = Ok (Some y, FContinue) s1) /\
  (forall m tr, v = VErr m tr -> return_open s1 -> exists t,
     eval E (S n) (EItem (Item name sid cur true [] tids)) sd s = Ok (Some (VErr m (tr ++ [t])), FReturn) s1).
Proof.
  intros E n name sid cur tids sd s x v s1 He Hd. cbn [eval expression item_] in *. unfold bind in *.
  destruct (find_slot E name sid s) as [i0 s2| | |]; try discriminate.
  destruct (slot i0 s2) as [v0 s3| | |] eqn:Es; try discriminate. inversion He; subst x s3. clear He.
  unfold denotes in Hd.
  assert (slot match v0 with VRef r => r | _ => i0 end s1 = Ok v s1) as -> by (unfold slot; rewrite Hd; reflexivity).
  split.
  - intros y Hy. pose proof (try_msg_spec v) as H. inversion Hy; subst; try reflexivity. simpl. rewrite H0. reflexivity.
  - intros m tr -> (c & cs & i & Hc & Hi & Hs). cbn [try_msg]. unfold try_leave, bind, gets. rewrite Hc, Hi.
    unfold slot. rewrite Hs. eauto.
Qed.
Print Assumptions C18_variable.

(** A value that leaves the body of a function this way is the result of the call. *)
Definition entered (f : func) (name : string) (fi : nat) (vs : list value) (s : rt) : rt :=
  let st := length (r_stack s) + (if fn_ret f then 1 else 0) in
  RT (r_mod s) (r_stack s ++ (if fn_ret f then [VReturn] else []) ++ vs)
     (Call name fi st (length (r_locals s)) (length (r_currents s)) :: r_calls s)
     (rev (combine (fn_args f) (seq st (length (fn_args f)))) ++
      (if fn_ret f then [("return", st - 1)] else []) ++ r_locals s)
     (r_currents s) (r_world s).

Lemma push_loaded_values : forall E n vs i k s,
  push_loaded (eval E (S n)) [] i (map EVar vs) k s =
  k (RT (r_mod s) (r_stack s ++ vs) (r_calls s) (r_locals s) (r_currents s) (r_world s)).
Proof.
  intros E n vs. induction vs as [|v vs IH]; intros i k s.
  - simpl. rewrite app_nil_r. destruct s; reflexivity.
  - cbn [map push_loaded]. unfold bind. cbn [eval expression]. unfold ret at 1.
    assert (lazy_check [] i v s = Ok None s) as -> by (destruct i; reflexivity).
    unfold push, modify. rewrite IH. cbn. rewrite <- app_assoc. reflexivity.
Qed.
Lemma push_arg_locals_run : forall names st i s,
  push_arg_locals st i names s =
  Ok tt (RT (r_mod s) (r_stack s) (r_calls s) (rev (combine names (seq (st + i) (length names))) ++ r_locals s)
            (r_currents s) (r_world s)).
Proof.
  induction names as [|a names IH]; intros st i s; [destruct s; reflexivity|].
  cbn [push_arg_locals]. unfold bind, push_local, modify. rewrite IH. cbn. rewrite Nat.add_succ_r.
  rewrite <- app_assoc. reflexivity.
Qed.

Lemma call_loaded_values : forall E n i f fi name vs s m,
  Z.of_nat fi = (i + Z.of_nat (top_of s))%Z ->
  nth_error (e_mods E) (r_mod s) = Some m -> nth_error (m_funs m) fi = Some f ->
  fn_lazy f = [] -> fn_currents f = [] -> w_senders (r_world s) = [] ->
  call_loaded E (eval E (S n)) (S n) (map EVar vs) i name false s =
  (r <- block (eval E (S n)) (fn_block f) ;; body_flow (snd r) ;;; pop_fn name ;;;
   finish (caller_source E) (fn_ret f) (fst r)) (entered f name fi vs s).
Proof.
  intros E n i f fi name vs s m Hfi Em Ef HL HC HW. unfold call_loaded.
  unfold bind at 1, top_index, gets at 1. unfold bind at 1, gets at 1.
  change (match r_calls s with [] => 0 | c :: _ => c_index c end) with (top_of s).
  cbv beta iota zeta. rewrite <- Hfi, Em.
  replace (Z.of_nat fi <? 0)%Z with false by (symmetry; apply Z.ltb_ge; lia).
  rewrite Nat2Z.id, Ef, HL, HC.
  destruct (fn_ret f) eqn:HR.
  - unfold bind at 1, push, modify. unfold bind at 1, stack_len, gets. unfold bind at 1, local_len, gets.
    unfold bind at 1, current_len, gets. rewrite push_loaded_values.
    cbn [r_mod r_stack r_calls r_locals r_currents r_world set_stack].
    cbn [push_currents]. unfold bind at 1, ret at 1. unfold send_args at 1. unfold bind at 1, bind at 1, gets at 1. unfold bind at 1, gets at 1.
    cbn [r_mod r_stack r_calls r_locals r_currents r_world set_stack]. rewrite HW. cbn [filter map]. unfold ret at 1.
    unfold bind at 1, push_fn, modify at 1. unfold bind at 1, push_local, modify at 1.
    unfold bind at 1. rewrite push_arg_locals_run.
    cbn [r_mod r_stack r_calls r_locals r_currents r_world set_stack set_calls set_locals].
    unfold entered. rewrite HR. rewrite Nat.add_0_r, app_length, <- app_assoc. cbn [app length].
    reflexivity.
  - unfold bind at 1, ret at 1. unfold bind at 1, stack_len, gets. unfold bind at 1, local_len, gets.
    unfold bind at 1, current_len, gets. rewrite push_loaded_values.
    cbn [r_mod r_stack r_calls r_locals r_currents r_world set_stack].
    cbn [push_currents]. unfold bind at 1, ret at 1. unfold send_args at 1. unfold bind at 1, bind at 1, gets at 1. unfold bind at 1, gets at 1.
    cbn [r_mod r_stack r_calls r_locals r_currents r_world set_stack]. rewrite HW. cbn [filter map]. unfold ret at 1.
    unfold bind at 1, push_fn, modify at 1. unfold bind at 1, ret at 1.
    unfold bind at 1. rewrite push_arg_locals_run.
    cbn [r_mod r_stack r_calls r_locals r_currents r_world set_stack set_calls set_locals].
    unfold entered. rewrite HR. rewrite !Nat.add_0_r. cbn [app length].
    reflexivity.
Qed.

Theorem C18_function_returns : forall E arity n i f fi name vs sd s v s2,
  wf_mods false E arity -> ext_ok false E arity ->
  wf_state false E arity s -> Forall (wf_v false E arity) vs ->
  Z.of_nat fi = (i + Z.of_nat (top_of s))%Z -> target E (r_mod s) (top_of s) i = Some f ->
  fn_ret f = true -> fn_currents f = [] -> w_senders (r_world s) = [] -> v <> VReturn ->
  eval E (S (S n)) (EBlock (fn_block f)) Right (entered f name fi vs s) = Ok (Some v, FReturn) s2 ->
  exists s3, eval E (S (S n)) (ECall (FLoaded i) name (map EVar vs)) sd s = Ok (Some v, FContinue) s3 /\
             r_calls s3 = r_calls s.
Proof.
  intros E arity n i f fi name vs sd s v s2 HM HX Hs Hv Hfi Ht HR HC HW Hn Hb.
  assert (exists m, nth_error (e_mods E) (r_mod s) = Some m /\ nth_error (m_funs m) fi = Some f) as (m & Em & Ef).
  { unfold target in Ht. cbv zeta in Ht. rewrite <- Hfi in Ht. destruct (_ <? 0)%Z; [discriminate|].
    destruct (nth_error (e_mods E) (r_mod s)); [|discriminate]. rewrite Nat2Z.id in Ht. eauto. }
  destruct (HM _ _ _ _ Em Ef) as (HL & HB & _).
  assert (wf_state false E arity (entered f name fi vs s)) as Hse.
  { destruct Hs as [S1 S2]. split; [|exact S2]. cbn. rewrite HR. rewrite !Forall_app. splits; auto.
    constructor; [exact I|constructor]. }
  assert (wf false E arity (r_mod s) fi [] (entry (fn_ret f) (fn_args f) (fn_currents f)) (EBlock (fn_block f))) as Hwb
    by exact HB.
  pose proof (eval_ok false E arity HM HX (S (S n)) (r_mod s) fi _ (EBlock (fn_block f)) Right
                (entered f name fi vs s) Hwb) as H.
  assert (ready false E arity (r_mod s) fi (entry (fn_ret f) (fn_args f) (fn_currents f)) (entered f name fi vs s)) as Hr
    by (split; [exact Hse|split; [reflexivity|split; [reflexivity|discriminate]]]).
  specialize (H Hr). unfold wp in H. rewrite Hb in H. destruct H as (_ & _ & _ & H2). cbn in H2.
  change (eval E (S (S n)) (ECall (FLoaded i) name (map EVar vs)) sd) with
    (call_loaded E (eval E (S n)) (S n) (map EVar vs) i name false).
  rewrite (call_loaded_values E n i f fi name vs s m Hfi Em Ef HL HC HW).
  change (eval E (S (S n)) (EBlock (fn_block f)) Right) with (block (eval E (S n)) (fn_block f)) in Hb.
  unfold bind at 1. rewrite Hb. cbn [snd fst body_flow]. unfold bind at 1, ret at 1.
  unfold bind at 1, pop_fn. rewrite H2. cbn [c_name]. rewrite String.eqb_refl. rewrite HR.
  assert (forall s, finish (caller_source E) true (Some v) s =
          Ok (Some v, FContinue) (set_stack (removelast (r_stack s)) s)) as Hfin.
  { intros. destruct v; try reflexivity. congruence. }
  unfold bind, modify, trunc_stack, trunc_locals, trunc_currents, modify. rewrite Hfin. eexists. split; [reflexivity|]. reflexivity.
Qed.
Print Assumptions C18_function_returns.

(** ** Examples and counterexamples *)

(** sum 'a i 5 { for j 2 { if 2 < i { break 'a } }; i + 0 } gives 0 + 1 + 2: the [break] leaves both
    loops, and the sum so far is the result. *)
Definition nested : expr :=
  EForN KSum (Some "a") "i" None (num 5)
    [EForN KFor None "j" None (num 2)
       [EIf (less_ (num 2) (loc "i" 2)) [EBreak (Some "a")] [] [] None];
     add_ (loc "i" 1) (num 0)].
Definition top : rt := RT 0 [] [Call "main" 0 0 0 0] [] [] (World [] [] []).
Example C15_example :
  exists s', eval (env_ []) 20 nested Right top = Ok (Some (vf64 (f_of_Z 3)), FContinue) s'.
Proof. eexists. vm_compute. reflexivity. Qed.
Example C15_example_inner :
  exists x s', eval (env_ []) 20 (EForN KFor None "j" None (num 2) [EBreak (Some "a")]) Right top =
               Ok (x, FBreak (Some "a")) s' /\
    can_exit (FBreak (Some "a")) (EForN KFor None "j" None (num 2) [EBreak (Some "a")]).
Proof. eexists. eexists. split; [vm_compute; reflexivity|]. simpl. split; [discriminate|auto]. Qed.
(** A label that names no enclosing loop is an error at the call. *)
Example C15_example_call :
  exists s', eval (env_ [Func "f" [] [] [] [EForN KFor None "j" None (num 2) [EBreak (Some "zz")]] false]) 20
               (ECall (FLoaded 0) "f" []) Right top = Err "there is no loop labeled" s'.
Proof. eexists. vm_compute. reflexivity. Qed.

Example C21_example :
  exists s', eval (env_ []) 20
    (EIf (less_ (num 2) (num 1)) [num 10] [less_ (num 1) (num 2); EBlock [EGrab 1 (num 1)]] [[num 20]; [num 30]]
       (Some [num 40])) Right top = Ok (Some (vf64 (f_of_Z 20)), FContinue) s'.
Proof. eexists. vm_compute. reflexivity. Qed.

Example C20_example_env : std_lazy (env_ []).
Proof. repeat split. Qed.
(** The second argument would fail if it were run. *)
Example C20_example :
  eval (env_ []) 20 (ECall (FLazy "and_also") "and_also" [less_ (num 2) (num 1); EGrab 1 (num 1)]) Right top =
  Ok (Some (vbool false), FContinue) top.
Proof. vm_compute. reflexivity. Qed.
(** f(a, b: lazy ..): the second argument matches an invariant, the third would fail. *)
Example C20_example_loaded :
  exists s', eval (env_ [Func "f" ["a"; "b"; "c"] [[]; [LzSome]] [] [loc "a" 3] true]) 20
    (ECall (FLoaded 0) "f" [num 1; EVar (VSome (VStr "x")); EGrab 1 (num 1)]) Right top =
    Ok (Some (VStr "x"), FContinue) s'.
Proof. eexists. vm_compute. reflexivity. Qed.

(** g() -> { x := err("no")?; 5 } *)
Definition err_ : expr := EVar (VErr (VStr "no") ["first"]).
Definition g_ : func := Func "g" [] [] [] [decl "x" false (ETry err_); num 5] true.
Example C18_example :
  exists s', eval (env_ [g_]) 20 (ECall (FLoaded 0) "g" []) Right top =
             Ok (Some (VErr (VStr "no") ["first"; "g"]), FContinue) s'.
Proof. eexists. vm_compute. reflexivity. Qed.

(** C18 is false inside a swizzle: the error is lost, and the call fails instead. *)
Theorem C18_swizzle_refuted :
  exists s', eval (env_ [Func "g" [] [] [] [EVec4 [ESwizzle [0; 1] (ETry err_); num 0; num 0]] true]) 20
               (ECall (FLoaded 0) "g" []) Right top = Err "did not return a value" s'.
Proof. eexists. vm_compute. reflexivity. Qed.
(** ... and after [return = x]: the error is not returned, the call fails. *)
Theorem C18_after_return_refuted :
  exists s', eval (env_ [Func "g" [] [] []
                       [EAssign OpSet (loc "return" 1) (num 1); decl "x" false (ETry err_)] true]) 20
               (ECall (FLoaded 0) "g" []) Right top = Err "requires ->" s'.
Proof. eexists. vm_compute. reflexivity. Qed.
(** ... and [o.x?] changes the object: the second time the same expression gives an error. *)
Theorem C18_in_place_refuted :
  exists s',
    eval (env_ [Func "g" [] [] []
            [decl "o" false (EObject [("x", EVar (VOk (VStr "v")))]);
             decl "a" false (EItem (Item "o" (Some 1) false false [IdStr "x"] [0]));
             EItem (Item "o" (Some 2) false false [IdStr "x"] [0])] true]) 20
      (ECall (FLoaded 0) "g" []) Right top = Err "expected ok or err" s'.
Proof. eexists. vm_compute. reflexivity. Qed.
