(** * Evaluation keeps the stacks balanced. *)
From Coq Require Import String List ZArith Bool Arith Lia.
From Verif Require Import Float64 Syntax InterpModel WfSpec SyntaxProofs BalanceBase BalanceEval BalanceCalls
  BalanceLoops BalanceGrab.
Import ListNotations.
Local Open Scope string_scope.
Local Open Scope nat_scope.
Local Open Scope list_scope.

Section Balance.
Context (chk : bool) (E : env) (arity : string -> nat).
Notation wpq := (wp (quiet chk)).
Notation wf_v := (wf_v chk E arity).
Notation wf := (wf chk E arity).
Notation wf_state := (wf_state chk E arity).
Notation ready := (ready chk E arity).
Notation bal := (bal chk E arity).
Notation abv := (abv chk E arity).
Notation errs := (errs chk E arity).
Notation target := (target E).
Notation valued := (valued E).
Notation wfo := (wfo chk E arity).
Notation okpost := (okpost chk E arity).
Notation bpost := (bpost chk E arity).
Notation evspec := (evspec chk E arity).
Hypothesis HM : wf_mods chk E arity.
Hypothesis HX : ext_ok chk E arity.

Lemma call_internal_bp : forall ev (HE : evspec ev) n md fi cs f name args s,
  wf md fi [] cs (ECall f name args) -> ready md fi cs s ->
  wpq (call_internal E ev n f name args false) s (bpost (valued md fi (ECall f name args)) s) (errs s).
Proof.
  intros ev HE n md fi cs f name args s Hw Hr.
  assert (wf_state s) as Hs by (eapply ready_wf; eauto).
  destruct f; cbn [call_internal].
  all: try (apply wp_fail; eapply plus_errs; apply bal_refl; auto; fail).
  - change (thread_ok (wf md fi []) temps
            (match target md fi rel with Some g => if fn_ret g then None :: cs else cs | None => cs end) args /\
          (chk = true -> all_ok (arg_ok E md fi) args /\
             exists g, target md fi rel = Some g /\ widths args = length (fn_args g))) in Hw.
    destruct Hw as [W1 W2].
    change (valued md fi (ECall (FLoaded rel) name args)) with (match target md fi rel with Some f => fn_ret f | None => true end).
    destruct (target md fi rel) as [f|] eqn:T.
    + eapply (call_loaded_bp chk E arity HM ev HE n md fi cs args rel name false fi f); eauto.
      * apply Hr.
      * intros C. destruct (W2 C) as (A & g & G1 & G2). injection G1 as <-. split; auto.
    + assert (quiet chk "no such function") as Q by (intros C; destruct (W2 C) as (_ & g & G & _); discriminate G).
      unfold call_loaded. apply wp_bind. unfold top_index. apply wp_gets. cbv zeta. apply wp_bind, wp_gets.
      assert (match r_calls s with [] => 0 | c :: _ => c_index c end = fi) as -> by (apply Hr).
      assert (r_mod s = md) as -> by (apply Hr).
      unfold WfSpec.target in T. cbv zeta in T.
      destruct (nth_error (e_mods E) md); [|(apply wp_panic; exact Q)].
      destruct (rel + Z.of_nat fi <? 0)%Z; [(apply wp_panic; exact Q)|]. rewrite T. (apply wp_panic; exact Q).
  - destruct Hw. eapply call_void_bp; eauto.
  - destruct Hw. eapply call_return_bp; eauto.
  - destruct Hw. eapply call_lazy_bp; eauto.
  - destruct Hw. eapply call_binop_bp; eauto.
  - destruct Hw. eapply call_unop_bp; eauto.
Qed.

Lemma wp_bpost_ok : forall md fi e m s, adds e = [] -> is_swizzle e = false ->
  wpq m s (bpost (valued md fi e) s) (errs s) -> wpq m s (okpost md fi e s) (errs s).
Proof. intros md fi e m s A B H. eapply wp_mono; [exact H| |auto]. intros. apply bpost_ok; auto. Qed.

Lemma expression_ok : forall ev (HE : evspec ev) n md fi cs e sd s, wf md fi [] cs e -> ready md fi cs s ->
  wpq (expression E ev n e sd) s (okpost md fi e s) (errs s).
Proof.
  intros ev HE n md fi cs e sd s Hw Hr.
  assert (wf_state s) as Hs by (eapply ready_wf; eauto).
  assert (bal s s) as Hb by (apply bal_refl; auto).
  destruct e; cbn [expression].
  all: try (apply wp_bpost_ok; [reflexivity|reflexivity|]).
  - eapply (link_bp chk E arity ev HE); eauto.
  - eapply (object_bp chk E arity ev HE); eauto. exact I.
  - eapply (array_bp chk E arity ev HE); eauto. exact I.
  - destruct Hw. eapply (array_fill_bp chk E arity ev HE); eauto.
  - change (wf md fi [] cs e) in Hw. eapply (vexpr_bp chk E arity ev HE); eauto.
    intros v s' Hv Hp Hr'. apply wp_ret. split; [exact Hv|]. eapply plus_abv; eauto.
  - apply wp_ret. split; [exact I|]. eapply plus_abv; eauto.
  - apply wp_ret. split; [exact I|]. apply bal_left; auto.
  - apply wp_ret. split; [exact I|]. apply bal_left; auto.
  - eapply (block_bp chk E arity ev HE); eauto.
  - eapply (go_bp chk E arity ev HE); eauto.
  - eapply call_internal_bp; eauto.
  - eapply (item_bp chk E arity ev HE); eauto.
  - destruct op.
    1: eapply (assign_decl_ok chk E arity ev HE); eauto.
    all: destruct Hw; apply wp_bpost_ok; [reflexivity|reflexivity|]; eapply (assign_set_bp chk E arity ev HE); eauto; discriminate.
  - eapply (vec4_bp chk E arity ev HE); eauto.
  - eapply (mat4_bp chk E arity ev HE); eauto.
  - eapply (for_expr_bp chk E arity ev HE); eauto.
  - eapply (for_n_bp chk E arity ev HE); eauto.
  - eapply (for_in_bp chk E arity ev HE); eauto.
  - eapply (if_bp chk E arity ev HE); eauto.
  - apply wp_ret. split; [exact Hw|]. split; [exact Hb|discriminate].
  - eapply (try_fun_bp chk E arity ev HE); eauto.
  - eapply (swizzle_ok chk E arity ev HE); eauto.
  - eapply (closure_bp chk E arity ev HE); eauto.
  - eapply (call_closure_bp chk E arity ev HE); eauto.
  - apply wp_fail. eapply plus_errs; eauto.
  - eapply (try_expr_bp chk E arity ev HE); eauto.
  - eapply (in_expr_bp chk E arity); eauto.
Qed.

Theorem eval_ok : forall n, evspec (eval E n).
Proof.
  induction n as [|n IH]; intros md fi cs e sd s Hw Hr; cbn [eval]; [apply wp_oof|].
  eapply expression_ok; eauto.
Qed.

(** Values are pushed as they are. *)
Lemma push_values : forall n args i b k s0 r s1 d s,
  plus chk E arity s0 r [] [] s1 -> Forall wf_v args -> args_inv chk E arity s1 d s ->
  (forall s', args_inv chk E arity s1 (d + widths (map EVar args)) s' -> wpq k s' (bpost b s0) (errs s0)) ->
  wpq (push_loaded (eval E n) [] i (map EVar args) k) s (bpost b s0) (errs s0).
Proof.
  intros n args. induction args as [|v args IH]; intros i b k s0 r s1 d s Hp Ha Hi Hk; simpl.
  - apply Hk. simpl. rewrite Nat.add_0_r. exact Hi.
  - inversion Ha; subst. apply wp_bind. destruct n as [|n]; [apply wp_oof|]. cbn [eval expression]. apply wp_ret.
    apply wp_bind. unfold lazy_check.
    replace (nth_error (@nil (list lazy)) i) with (@None (list lazy)) by (destruct i; reflexivity).
    apply wp_ret. apply wp_bind. unfold push. apply wp_modify. destruct Hi as [Hi1 Hi2].
    assert (wf_state s) as Hs by (apply (proj1 Hi1)).
    pose proof (plus_push chk E arity s v Hs H1) as P.
    eapply (IH (S i) b k s0 r s1 (d + 1)); [exact Hp|exact H2| |].
    + split.
      * pose proof (plus_abv _ _ _ _ _ _ _ _ P) as (X1 & X2 & X3). destruct Hi1 as (Y1 & Y2 & Y3).
        split; auto. split; [eapply above_trans; eauto|congruence].
      * intros C. apply (plus_trans' chk E arity s1 s _ d 1 [] [] [] [] (Hi2 C) P).
    + intros s' H. apply Hk. simpl. replace (d + S (widths (map EVar args))) with (d + 1 + widths (map EVar args)) by lia.
      exact H.
Qed.

(** A call made by a Rust program: [loader] indices count from the start of the module. There need not be any other
    call. *)
Lemma call_loader_bp : forall n md i f name args s,
  wf_state s -> r_mod s = md -> target md 0 i = Some f -> Forall wf_v args ->
  (chk = true -> length args = length (fn_args f)) ->
  wpq (call_loaded E (eval E n) n (map EVar args) i name true) s (bpost (fn_ret f) s) (errs s).
Proof.
  intros n md i f name args s Hs Hm Ht Ha Hc.
  eapply (call_loaded_pushes chk E arity HM (eval E n) (eval_ok n) n md (map EVar args) i name true 0 f); eauto.
  - intros k s1 Hp Hk. eapply (push_values n args 0 _ k s _ s1 0 s1); eauto.
    assert (wf_state s1) as Hs1 by (apply (proj1 Hp)).
    split; [eapply plus_abv; apply bal_refl; auto|intros; apply bal_refl; auto].
  - intros C. rewrite <- (Hc C). clear. induction args; simpl; auto.
Qed.
End Balance.
