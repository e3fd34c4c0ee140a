(** * What one visit of the type checker writes, and the errors it gives. *)
From Coq Require Import String List Bool Arith Lia.
From Verif Require Import Syntax TypeModel LifetimeModel TypecheckModel TypeSpec TypecheckSpec TypeErrSpec TypeProofs TypecheckProofs TypecheckShape TypecheckInv TypecheckVisit TypecheckClosed TypecheckReason TypeErrProofs.
Import ListNotations.
Local Open Scope string_scope.
Local Open Scope nat_scope.
Local Open Scope list_scope.

(** ** Computations without errors *)
Definition calm {A} (r : tres A) : Prop := forall c i, r <> TErr c i.
Lemma calm_bind : forall A B (a : tres A) (f : A -> tres B), calm a -> (forall x, calm (f x)) -> calm (tbind a f).
Proof. intros A B a f H G c i E. apply tbind_err in E. destruct E as [E|(x & _ & E)]; [eapply H|eapply G]; eauto. Qed.
Lemma calm_get : forall g i, calm (get g i). Proof. intros g i c j. apply get_err. Qed.
Lemma calm_find : forall g n k, calm (find_child g n k). Proof. intros g n k c j. apply find_child_err. Qed.
Lemma calm_ok : forall A (a : A), calm (TOk a). Proof. discriminate. Qed.
Lemma calm_panic : forall A, calm (@TPanic A). Proof. discriminate. Qed.
Lemma calm_oof : forall A, calm (@TOof A). Proof. discriminate. Qed.
Lemma calm_out : forall A, calm (@TOut A). Proof. discriminate. Qed.
Global Hint Resolve calm_bind calm_get calm_find calm_ok calm_panic calm_oof calm_out : calm.
Ltac calms := repeat first [apply calm_get|apply calm_find|apply calm_ok|apply calm_panic|apply calm_oof|apply calm_out|apply calm_bind; [|intros ?]
  |match goal with |- calm (match ?a with _ => _ end) => destruct a end].
Lemma calm_finish : forall i o s, calm (finish i o s). Proof. intros. unfold finish. calms. Qed.
Lemma calm_count : forall g l, calm (count_sw g l). Proof. induction l; simpl; calms; auto. Qed.
Lemma calm_position : forall g i l, calm (arg_position g i l). Proof. induction l; simpl; calms; auto using calm_count. Qed.
Lemma calm_positions : forall g i p c, calm (arg_positions g i p c). Proof. intros. unfold arg_positions. apply calm_bind; [apply calm_position|intros ?]. calms. apply calm_count. Qed.
Lemma calm_callee : forall K n, calm (callee K n). Proof. intros. unfold callee. calms. Qed.
Lemma calm_fits : forall K g p t j, calm (arg_fits K g p t j). Proof. intros. unfold arg_fits. calms. apply calm_callee. Qed.
Lemma calm_all_fit : forall K g p t js, calm (all_fit K g p t js).
Proof. induction js; simpl; [apply calm_ok|]. apply calm_bind; [apply calm_fits|intros []]; auto. apply calm_ok. Qed.
Lemma calm_arg_types : forall g l, calm (arg_types g l). Proof. induction l; simpl; calms; auto. Qed.
Lemma calm_ty_args : forall g l, calm (ty_args g l). Proof. induction l; simpl; calms; auto. Qed.
Lemma calm_sig : forall g n, calm (sig_of g n). Proof. intros. unfold sig_of. apply calm_bind; [apply calm_ty_args|intros ?]. calms. Qed.
Lemma calm_sigs : forall g l, calm (sigs_of g l). Proof. induction l; simpl; [apply calm_ok|]. apply calm_bind; [apply calm_get|intros ?]. destruct (is_kind _ _); auto. apply calm_bind; [apply calm_sig|intros ?]. apply calm_bind; [auto|intros ?; apply calm_ok]. Qed.
Lemma calm_enclosing : forall n g p, calm (enclosing n g p). Proof. induction n; intros; simpl; calms. apply IHn. Qed.
Lemma calm_parts : forall g l ts r, calm (closure_parts g l ts r). Proof. induction l; intros; simpl; calms; apply IHl. Qed.
Ltac no_err H := first [exfalso; exact (calm_finish _ _ _ _ _ H)|exfalso; exact (calm_positions _ _ _ _ _ _ H)|exfalso; exact (calm_all_fit _ _ _ _ _ _ _ H)
  |exfalso; exact (calm_callee _ _ _ _ H)|exfalso; exact (calm_arg_types _ _ _ _ H)|exfalso; exact (calm_sigs _ _ _ _ H)|exfalso; exact (calm_enclosing _ _ _ _ _ H)|exfalso; exact (calm_parts _ _ _ _ _ _ H)|discriminate H].
Ltac berr H := let x := fresh "x" in let E := fresh "E" in apply tbind_err in H; destruct H as [H|(x & E & H)]; [no_err H|].

(** ** From the computations to the rules *)
Lemma enclosing_around : forall n g i p, enclosing n g i = TOk (Some p) -> around g i p.
Proof.
  induction n as [|n IH]; intros g i p H; simpl in H; [discriminate|]. tinv H. apply get_ok in E. destruct (g_parent x) as [q|] eqn:P; [|discriminate]. tinv H. apply get_ok in E0.
  destruct (is_kind (g_kind x0) K_Fn || is_kind (g_kind x0) K_Closure) eqn:X.
  - injection H as <-. eapply Ar_here; eauto. apply orb_true_iff in X. rewrite !is_kind_iff in X. exact X.
  - apply orb_false_iff in X. destruct X as [X1 X2]. eapply Ar_above; eauto; intros Y; rewrite Y, is_kind_refl in *; discriminate.
Qed.
Lemma arg_types_are : forall g l ts, (forall c, In c l -> exists cn x, is_node g c cn /\ g_kind cn = K_CallArg /\ g_try cn = false /\ g_children cn = [x]) ->
  arg_types g l = TOk ts ->
  Forall2 (fun c t => exists cn x, is_node g c cn /\ g_kind cn = K_CallArg /\ g_children cn = [x] /\ t = ty_at g x) l ts.
Proof.
  induction l as [|c l IH]; intros ts W H; simpl in H; [injection H as <-; constructor|]. tinv H. apply get_ok in E.
  destruct (W c (or_introl eq_refl)) as (cn & x' & A & B & _ & D). pose proof (node_det _ _ _ _ E A); subst x.
  rewrite B, is_kind_refl, D in H. tinv H. apply get_ok in E0. tinv H. injection H as <-. constructor; [|apply IH; auto; intros; apply W; now right].
  exists cn, x'. rewrite (node_ty _ _ _ E0). auto.
Qed.
Lemma parts_are : forall g l ts r us v, closure_parts g l ts r = TOk (Some us, Some v) ->
  exists rest, us = rev ts ++ rest /\
    Forall2 (fun c t => ty_at g c = Some t) (filter (fun c => match nth_error g c with Some m => is_kind (g_kind m) K_Arg | None => false end) l) rest /\
    ((exists pre e post, l = pre ++ e :: post /\ kind_at g e K_Expr /\ (forall d, In d post -> ~ kind_at g d K_Expr) /\ ty_at g e = Some v) \/
     (r = Some v /\ forall d, In d l -> ~ kind_at g d K_Expr)).
Proof.
  induction l as [|c l IH]; intros ts r us v H; simpl in H.
  - injection H as <- ->. exists []. rewrite app_nil_r. split; auto. split; [constructor|]. right. split; auto.
  - tinv H. apply get_ok in E. simpl. pose proof E as E'. unfold is_node in E'. rewrite E'. destruct (is_kind (g_kind x) K_Arg) eqn:KA.
    + destruct (g_ty x) as [t|] eqn:T; [|discriminate]. destruct (IH _ _ _ _ H) as (rest & A & B & D). exists (t :: rest). split; [rewrite A; simpl; now rewrite <- app_assoc|].
      split; [constructor; auto; now rewrite (node_ty _ _ _ E)|]. apply is_kind_iff in KA. destruct D as [(pre & e & post & D1 & D)|(D1 & D2)].
      * left. exists (c :: pre), e, post. split; [rewrite D1; reflexivity|auto].
      * right. split; auto. intros d [<- |D]; auto. intros (m & M & Y). rewrite (node_det _ _ _ _ M E) in Y. congruence.
    + destruct (IH _ _ _ _ H) as (rest & A & B & D). exists rest. split; auto. split; auto. destruct D as [(pre & e & post & D1 & D)|(D1 & D2)].
      * left. exists (c :: pre), e, post. split; [rewrite D1; reflexivity|auto].
      * destruct (is_kind (g_kind x) K_Expr) eqn:KE.
        -- apply is_kind_iff in KE. left. exists [], c, l. split; auto. split; [exists x; auto|]. split; auto. now rewrite (node_ty _ _ _ E).
        -- right. split; auto. intros d [<- |D]; auto. intros (m & M & Y). rewrite (node_det _ _ _ _ M E) in Y. apply is_kind_iff in Y. congruence.
Qed.

Section V.
Variables (K : known) (g0 : graph).
Hypothesis WF : well_formed K g0.
Lemma call_args_are : forall g i n ts, shape g0 g -> is_node g i n -> g_kind n = K_Call -> arg_types g (g_children n) = TOk ts -> args_are g n ts.
Proof.
  intros g i n ts S N KK H. unfold args_are. apply arg_types_are; auto. intros c C. destruct (node0 g0 _ _ _ S N) as (n0 & N0 & X). rewrite X in KK, C. simpl in KK, C.
  destruct (wf_call _ _ WF _ _ N0 KK) as (_ & _ & W). destruct (W _ C) as (cn & x & A & B & D & E).
  destruct (shape_node _ _ _ _ S A) as [t T]. exists (retype cn t), x. auto.
Qed.
Definition writes (g : graph) (ws : list (nat * ty)) : graph := fold_left (fun g w => put g (fst w) (Some (snd w))) ws g.
Lemma step_same : forall s s', s_g s' = s_g s -> step K (s_g s) (s_g s').
Proof. intros s s' E. exists []. split; [intros i t []|auto]. Qed.
Lemma step_fin : forall i o s s1 s' ws, (forall j t, In (j, t) ws -> gives K (s_g s) j t) -> s_g s1 = writes (s_g s) ws -> finish i o s1 = TOk s' ->
  (forall t, o = Some t -> gives K (s_g s) i t) -> step K (s_g s) (s_g s').
Proof.
  intros i o s s1 s' ws A B F G. destruct o as [t|].
  - destruct (finish_some _ _ _ _ F) as (n & _ & P & _). exists (ws ++ [(i, t)]). split.
    + intros j u J. apply in_app_or in J. destruct J as [J|[J|[]]]; [auto|injection J as <- <-; auto].
    + rewrite fold_left_app. simpl. fold (writes (s_g s) ws). now rewrite P, B.
  - apply finish_none in F. subst. exists ws. auto.
Qed.
Lemma step_fin0 : forall i o s s1 s', s_g s1 = s_g s -> finish i o s1 = TOk s' -> (forall t, o = Some t -> gives K (s_g s) i t) -> step K (s_g s) (s_g s').
Proof. intros i o s s1 s' E F G. eapply (step_fin i o s s1 s' []); eauto. intros j t []. Qed.

Lemma visit_step : forall i s s', shape g0 (s_g s) -> visit K i s = TOk s' -> step K (s_g s) (s_g s').
Proof.
  intros i s s' S V. unfold visit in V. tinv V. apply get_ok in E. rename x into n. pose proof E as E'. apply get_ok in E'.
  assert (passing (g_kind n) \/ g_kind n = K_Left -> pass_up i s = TOk s' -> step K (s_g s) (s_g s')) as Pass.
  { intros PA P. unfold pass_up in P. rewrite E' in P. cbn [tbind] in P. destruct (g_children n) as [|c l] eqn:CC; [injection P as <-; now apply step_same|].
    tinv P. apply get_ok in E0. destruct (item_ids x) eqn:II; [injection P as <-; now apply step_same|]. destruct (g_ty x) as [t|] eqn:T; [|injection P as <-; now apply step_same].
    destruct (is_kind (g_kind n) K_Grab && ty_eqb t TVoid); [discriminate|]. apply keyed_iff in II.
    assert (from_child (s_g s) n c x t) as FC by (unfold from_child; rewrite CC; auto).
    destruct (is_kind (g_kind x) K_Return) eqn:KR.
    - apply is_kind_iff in KR. tinv P. tinv P.
      assert (gives K (s_g s) i TUnreachable) as GI.
      { destruct PA as [PA|PA]; [|eapply G_left_return; eauto]. apply G_rule. eapply (D_return K _ i n c x t); eauto. now rewrite CC. }
      destruct x0 as [p|]; [|injection E2 as <-; eapply step_fin0; eauto; intros u [= <-]; auto]. tinv E2. apply get_ok in E3.
      destruct (g_ty x0) as [ft|] eqn:TP; [destruct (goes_with _ _); [injection E2 as <-; eapply step_fin0; eauto; intros u [= <-]; auto|discriminate]|]. injection E2 as <-.
      eapply (step_fin i _ s (set_ty p t s) s' [(p, t)]); [|reflexivity|exact P|intros u [= <-]; auto].
      intros j u [[= <- <-]|[]]. eapply (G_result K _ i n c x); eauto; [eapply enclosing_around; eauto|now rewrite (node_ty _ _ _ E3)].
    - eapply step_fin0; eauto. intros u [= <-]. rewrite inner_behind.
      assert (g_kind x <> K_Return) as NR by (intros Y; rewrite Y, is_kind_refl in KR; discriminate).
      destruct PA as [PA|PA]; [|eapply G_left_pass; eauto]. apply G_rule. eapply (D_pass K _ i n c x t); eauto. now rewrite CC. }
  assert (blocky (g_kind n) -> block i s = TOk s' -> step K (s_g s) (s_g s')) as Bl.
  { intros B P. unfold block in P. rewrite E' in P. cbn [tbind] in P. destruct (rev (g_children n)) as [|c l] eqn:CC.
    - eapply step_fin0; eauto. intros t [= <-]. apply G_rule. eapply D_empty; eauto. now rewrite <- (rev_involutive (g_children n)), CC.
    - tinv P. apply get_ok in E0. destruct (item_ids x) eqn:II; [injection P as <-; now apply step_same|]. eapply step_fin0; eauto.
      intros t T. destruct (g_ty x) as [u|] eqn:TX; [|discriminate]. injection T as <-. rewrite inner_behind. apply G_rule.
      apply (D_block K _ i n (rev l) c x); auto; [now rewrite <- (rev_involutive (g_children n)), CC|now apply keyed_iff]. }
  assert (number_place (g_kind n) -> component i s = TOk s' -> step K (s_g s) (s_g s')) as Co.
  { intros B P. unfold component in P. rewrite E' in P. cbn [tbind] in P. destruct (g_children n) as [|c l] eqn:CC; [injection P as <-; now apply step_same|].
    tinv P. apply get_ok in E0. destruct (item_ids x) eqn:II; [injection P as <-; now apply step_same|]. cbv zeta in P. destruct (g_ty x) as [t|] eqn:T; cbn [option_map] in P.
    - rewrite inner_behind in P. destruct (goes_with (behind n t) TF64) eqn:G; [|discriminate]. eapply step_fin0; eauto. intros u [= <-]. apply G_rule.
      apply (D_number K _ i n c x); auto; [now rewrite CC|now apply keyed_iff].
    - apply finish_none in P. subst. now apply step_same. }
  assert (forall sigs default, g_kind n = K_Call -> choices K (s_g s) n sigs -> (forall t, default = Some t -> plain_result K (s_g s) n t) ->
     refine_call i n sigs default s = TOk s' -> step K (s_g s) (s_g s')) as Rf.
  { intros sigs default KC CH PR P. unfold refine_call in P. tinv P. cbv zeta in P. apply (call_args_are _ _ _ _ S E KC) in E0.
    assert (forall w, match g_ty n with None => default | Some _ => None end = Some w -> gives K (s_g s) i w) as FA.
    { intros w W. destruct (g_ty n) eqn:T; [discriminate|]. eapply G_fallback; eauto. }
    destruct (refine sigs x) eqn:R; try discriminate.
    - eapply step_fin0; eauto. intros w [= <-]. apply G_rule. destruct sigs; [discriminate R|]. eapply D_chosen; eauto. discriminate.
    - eapply (step_fin0 i _ s (push i s)); eauto.
    - eapply step_fin0; eauto. }
  destruct (g_kind n) eqn:KK; try (apply Pass; [unfold passing; simpl; tauto|exact V]); try (apply Bl; [unfold blocky; simpl; tauto|exact V]);
    try (apply Co; [unfold number_place; simpl; tauto|exact V]);
    try (injection V as <-; now apply step_same);
    try (apply finish_none in V; subst; now apply step_same).
  - (* fn *) unfold fn_ in V. rewrite E' in V. cbn [tbind] in V. destruct (g_ty n) eqn:T; [injection V as <-; now apply step_same|]. tinv V.
    destruct x as [e|]; [|apply finish_none in V; subst; now apply step_same]. apply find_child_first in E0. tinv V. apply get_ok in E1.
    destruct (g_ty x) as [u|] eqn:TX; [|apply finish_none in V; subst; now apply step_same].
    assert (u = TUnreachable \/ u <> TUnreachable) as [-> |NU] by (destruct u; auto; right; discriminate); [injection V as <-; now apply step_same|].
    assert (finish i (Some u) s = TOk s') as V' by (destruct u; auto; contradiction).
    eapply step_fin0; eauto. intros w [= <-]. eapply (G_fn K _ i n e u); eauto. now rewrite (node_ty _ _ _ E1).
  - (* arg *) unfold arg_ in V. rewrite E' in V. cbn [tbind] in V. destruct (g_ty n) eqn:T; [injection V as <-; now apply step_same|].
    eapply step_fin0; eauto. intros w [= <-]. eapply G_param; eauto.
  - (* call *) unfold call in V. rewrite E' in V. cbn [tbind] in V. destruct (g_decl n) as [d|] eqn:D.
    + tinv V. tinv V. pose proof E0 as F. apply get_ok in F. apply sigs_of_are in E1.
      assert (choices K (s_g s) n x0) as CH by (left; exists d, x; auto). eapply (Rf x0 (g_ty x)); auto.
      intros t T. left. exists d. split; auto. now rewrite (node_ty _ _ _ F).
    + tinv V. destruct x as [f|]; [|apply finish_none in V; subst; now apply step_same]. pose proof (callee_target _ _ _ D E0) as T.
      assert (choices K (s_g s) n (d_ext f)) as CH by (right; eauto). destruct (d_ext f) eqn:X.
      * eapply step_fin0; eauto. intros w [= <-]. apply G_rule. eapply D_call; eauto. right. eauto.
      * eapply (Rf (s0 :: l) (Some (d_ret f))); eauto. intros w [= <-]. right. eauto.
  - (* call argument *) unfold call_arg in V. rewrite E' in V. cbn [tbind] in V. destruct (g_children n) as [|c l] eqn:CC; [injection V as <-; now apply step_same|].
    tinv V. apply get_ok in E0.
    assert (forall t, option_map (inner_type n) (g_ty x) = Some t -> gives K (s_g s) i t) as Q.
    { intros t T. destruct (g_ty x) as [u|] eqn:TX; [|discriminate]. injection T as <-. rewrite inner_behind. apply G_rule. eapply (D_arg K _ i n c x); eauto. now rewrite CC. }
    destruct (g_parent n); [|eapply step_fin0; eauto]. cbv zeta in V. tinv V. tinv V. tinv V.
    destruct x2; [|injection V as <-; now apply step_same]. eapply step_fin0; [|exact V|exact Q]. reflexivity.
  - (* assignment *) unfold assign in V. rewrite E' in V. cbn [tbind] in V. tinv V. destruct x as [l|]; [|injection V as <-; now apply step_same].
    tinv V. destruct x as [r|]; [|injection V as <-; now apply step_same]. tinv V. tinv V. apply get_ok in E2, E3.
    destruct (item_ids x0) eqn:II; [injection V as <-; now apply step_same|]. apply keyed_iff in II. apply find_child_first in E0, E1.
    assert (forall t, g_ty x0 = Some t -> match g_ty x with Some u => goes_with t u = true | None => True end -> assigns (s_g s) n l t) as As.
    { intros t T M. exists r, x0. rewrite (node_ty _ _ _ E2). repeat split; auto. }
    destruct (g_ty x) as [u|] eqn:LT', (g_ty x0) as [t|] eqn:RT; try (injection V as <-; now apply step_same).
    + destruct (goes_with t u) eqn:G; [|injection V as <-; now apply step_same]. specialize (As t eq_refl G). cbv zeta in V.
      eapply (step_fin i _ s _ s' [(l, t)]); [| |exact V|intros w [= <-]; exact (G_assignment K _ i n l t E KK As)].
      * intros j w [[= <- <-]|[]]. exact (G_assigned K _ i n l t E KK As).
      * simpl. destruct (g_children x); auto. now rewrite fold_push.
    + specialize (As t eq_refl Logic.I). eapply (step_fin i _ s _ s' [(l, t)]); [| |exact V|intros w [= <-]; exact (G_assignment K _ i n l t E KK As)].
      * intros j w [[= <- <-]|[]]. exact (G_assigned K _ i n l t E KK As).
      * reflexivity.
  - (* variable *) unfold item in V. rewrite E' in V. cbn [tbind] in V. destruct (item_ids n) eqn:II; [injection V as <-; now apply step_same|].
    assert (g_children n = []) as CC by (unfold item_ids in II; rewrite KK, is_kind_refl in II; destruct (g_children n); [auto|discriminate]).
    destruct (g_decl n) as [d|] eqn:D.
    + tinv V. apply get_ok in E0. destruct (is_index_loop (g_kind x)) eqn:IL.
      { destruct (g_try n) eqn:T; [discriminate|]. eapply step_fin0; eauto. intros w [= <-]. apply G_rule. eapply (D_index K _ i n d x); eauto. now apply index_counting. }
      assert (~ counting (g_kind x)) as NC by (intros X; apply index_counting in X; congruence).
      destruct (is_kind (g_kind x) K_Arg) eqn:IA.
      { eapply step_fin0; eauto. intros w [= <-]. rewrite inner_behind. apply is_kind_iff in IA. apply G_rule. eapply (D_param K _ i n d x); eauto. }
      assert (g_kind x <> K_Arg) as NA by (intros Y; rewrite Y, is_kind_refl in IA; discriminate).
      destruct (g_ty x) as [t|] eqn:T; [|apply finish_none in V; subst; now apply step_same].
      assert (gives K (s_g s) i (behind n t)) as Q by (apply G_rule; eapply (D_variable K _ i n d x); eauto).
      cbv zeta in V. rewrite inner_behind in V. destruct (g_parent n) as [p|] eqn:GP; [|eapply step_fin0; eauto; intros w [= <-]; auto]. tinv V. apply get_ok in E1.
      destruct (is_kind (g_kind x0) K_Left) eqn:KL; [|eapply step_fin0; eauto; intros w [= <-]; auto]. apply is_kind_iff in KL.
      eapply (step_fin i _ s (set_ty p (behind n t) s) s' [(p, behind n t)]); [|reflexivity|exact V|intros w [= <-]; auto].
      intros j w [[= <- <-]|[]]. eapply (G_use K _ i n d x t p); eauto; [repeat split; auto|exists x0; auto].
    + destruct (g_parent n) as [p|] eqn:P; [|apply finish_none in V; subst; now apply step_same]. tinv V. apply get_ok in E0. eapply step_fin0; eauto.
      intros t T. destruct (is_kind (g_kind x) K_Left) eqn:KL; [|discriminate]. apply is_kind_iff in KL. apply G_rule. eapply (D_declared K _ i n p); eauto; [exists x; auto|rewrite (node_ty _ _ _ E0); auto].
  - (* sift *) unfold sift in V. rewrite E' in V. cbn [tbind] in V. tinv V. destruct x as [b|]; [|injection V as <-; now apply step_same]. apply find_child_first in E0. tinv V. apply get_ok in E1.
    eapply step_fin0; eauto. intros t T. destruct (g_ty x) as [u|] eqn:TX; [|discriminate]. injection T as <-. apply G_rule. eapply (D_sift K _ i n b); eauto. now rewrite (node_ty _ _ _ E1).
  - (* compare *) unfold compare in V. rewrite E' in V. cbn [tbind] in V. tinv V. destruct x as [l|]; [|injection V as <-; now apply step_same]. apply find_child_first in E0. tinv V. apply get_ok in E1.
    destruct (item_ids x) eqn:II; [injection V as <-; now apply step_same|]. apply keyed_iff in II. eapply step_fin0; eauto. intros w W.
    destruct (g_ty x) as [t|] eqn:T; [|discriminate]. pose proof (G_compare K (s_g s) i n l x t E KK E0 E1 II T) as G. destruct t; injection W as <-; exact G.
  - (* if *) unfold if_ in V. rewrite E' in V. cbn [tbind] in V. tinv V. destruct x as [b|]; [|injection V as <-; now apply step_same]. apply find_child_first in E0. tinv V. apply get_ok in E1.
    destruct (g_ty x) as [t|] eqn:T; [|injection V as <-; now apply step_same]. eapply step_fin0; eauto. intros w [= <-]. rewrite inner_behind. apply G_rule. eapply (D_if K _ i n b); eauto. now rewrite (node_ty _ _ _ E1).
  - (* go *) unfold go_ in V. rewrite E' in V. cbn [tbind] in V. destruct (g_children n) as [|c l] eqn:CC; [apply finish_none in V; subst; now apply step_same|]. tinv V. apply get_ok in E0.
    eapply step_fin0; eauto. intros t T. destruct (g_ty x) as [u|] eqn:TX; [|discriminate]. injection T as <-. apply G_rule. eapply (D_go K _ i n c); eauto; [now rewrite CC|]. now rewrite (node_ty _ _ _ E0).
  - (* closure *) unfold closure_ in V. rewrite E' in V. cbn [tbind] in V. tinv V. eapply step_fin0; eauto. intros t T. destruct x as [[us|] [v|]]; try discriminate. injection T as <-.
    destruct (parts_are _ _ _ _ _ _ E0) as (rest & A & B & [(pre & e & post & C1 & C2 & C3 & C4)|(C & _)]); [|discriminate]. simpl in A. subst us. eapply G_closure; eauto.
  - (* call of a closure *) unfold call_closure in V. rewrite E' in V. cbn [tbind] in V. tinv V. destruct x as [it|]; [|apply finish_none in V; subst; now apply step_same]. apply find_child_first in E0.
    tinv V. apply get_ok in E1. destruct (item_ids x) eqn:II; [injection V as <-; now apply step_same|]. apply keyed_iff in II. destruct (g_decl x) as [d|] eqn:D; [|apply finish_none in V; subst; now apply step_same].
    tinv V. apply get_ok in E2. destruct (g_ty x0) as [t|] eqn:T; [|apply finish_none in V; subst; now apply step_same]. destruct (closure_ret_ty t) as [r|] eqn:R; [|discriminate].
    eapply step_fin0; eauto. intros w [= <-]. eapply (G_closure_call K _ i n it x d t); eauto. now rewrite (node_ty _ _ _ E2).
Qed.

Lemma visit_err : forall i s c d, shape g0 (s_g s) -> visit K i s = TErr c d -> clash K (s_g s) c d.
Proof.
  intros i s c d S V. unfold visit in V. terr V. rename x into n. pose proof E as E'. apply get_ok in E'.
  assert (pass_up i s = TErr c d -> clash K (s_g s) c d) as Pass.
  { intros P. unfold pass_up in P. rewrite E' in P. cbn [tbind] in P. destruct (g_children n) as [|k l] eqn:CC; [discriminate|].
    terr P. destruct (item_ids x) eqn:II; [discriminate|]. destruct (g_ty x) as [t|] eqn:T; [|discriminate]. apply keyed_iff in II.
    assert (from_child (s_g s) n k x t) as FC by (unfold from_child; rewrite CC; auto).
    destruct (is_kind (g_kind n) K_Grab && ty_eqb t TVoid) eqn:X.
    { injection P as <- <-. apply andb_true_iff in X. destruct X as [X1 X2]. apply is_kind_iff in X1. destruct t; try discriminate X2. eapply X_grab; eauto. }
    destruct (is_kind (g_kind x) K_Return) eqn:KR; [|no_err P]. apply is_kind_iff in KR. berr P. apply tbind_err in P. destruct P as [P|(s1 & _ & P)]; [|no_err P].
    destruct x0 as [p|]; [|discriminate]. terr P. destruct (g_ty x0) as [ft|] eqn:TP; [|discriminate]. destruct (goes_with ft t) eqn:G; [discriminate|]. injection P as <- <-.
    eapply (X_return K _ i n k x t p ft); eauto; [eapply enclosing_around; eauto|now rewrite (node_ty _ _ _ E2)]. }
  assert (block i s = TErr c d -> False) as Bl.
  { intros P. unfold block in P. rewrite E' in P. cbn [tbind] in P. destruct (rev (g_children n)) as [|k l]; [no_err P|]. terr P. destruct (item_ids x); no_err P. }
  assert (number_place (g_kind n) -> component i s = TErr c d -> clash K (s_g s) c d) as Co.
  { intros B P. unfold component in P. rewrite E' in P. cbn [tbind] in P. destruct (g_children n) as [|k l] eqn:CC; [discriminate|].
    terr P. destruct (item_ids x) eqn:II; [discriminate|]. apply keyed_iff in II. cbv zeta in P. destruct (g_ty x) as [t|] eqn:T; cbn [option_map] in P; [|no_err P].
    rewrite inner_behind in P. destruct (goes_with (behind n t) TF64) eqn:G; [no_err P|]. injection P as <- <-. eapply (X_number K _ i n k x t); eauto. unfold from_child. rewrite CC. auto. }
  assert (forall sigs default, g_kind n = K_Call -> choices K (s_g s) n sigs -> refine_call i n sigs default s = TErr c d -> clash K (s_g s) c d) as Rf.
  { intros sigs default KC CH P. unfold refine_call in P. berr P. cbv zeta in P. apply (call_args_are _ _ _ _ S E KC) in E0.
    destruct (refine sigs x) eqn:R; try no_err P; injection P as <- <-; [eapply X_choice; eauto|eapply X_variable; eauto]. }
  destruct (g_kind n) eqn:KK; try (apply Pass; exact V); try (exfalso; apply Bl; exact V); try (apply Co; [unfold number_place; simpl; tauto|exact V]); try no_err V.
  - unfold fn_ in V. rewrite E' in V. cbn [tbind] in V. destruct (g_ty n); [discriminate|]. terr V. destruct o as [e|]; [|no_err V]. terr V. destruct (g_ty x) as [[]|]; no_err V.
  - unfold arg_ in V. rewrite E' in V. cbn [tbind] in V. destruct (g_ty n); no_err V.
  - (* call *) unfold call in V. rewrite E' in V. cbn [tbind] in V. destruct (g_decl n) as [k|] eqn:D.
    + terr V. berr V. apply sigs_of_are in E1. eapply Rf; eauto. left. exists k, x. auto.
    + berr V. destruct x as [f|]; [|no_err V]. pose proof (callee_target _ _ _ D E0) as T.
      assert (choices K (s_g s) n (d_ext f)) as CH by (right; eauto). destruct (d_ext f) eqn:X; [no_err V|]. eapply Rf; eauto.
  - (* call argument *) unfold call_arg in V. rewrite E' in V. cbn [tbind] in V. destruct (g_children n) as [|k l]; [discriminate|]. terr V. cbv zeta in V. destruct (g_parent n); [|no_err V].
    terr V. berr V. berr V. destruct x2; no_err V.
  - (* assignment *) unfold assign in V. rewrite E' in V. cbn [tbind] in V. terr V. destruct o as [l|]; [|discriminate]. terr V. destruct o as [r|]; [|discriminate]. terr V. terr V.
    destruct (item_ids x0); [discriminate|]. destruct (g_ty x) as [u|], (g_ty x0) as [t|]; try no_err V. destruct (goes_with t u); no_err V.
  - (* variable *) unfold item in V. rewrite E' in V. cbn [tbind] in V. destruct (item_ids n) eqn:II; [discriminate|].
    assert (g_children n = []) as CC by (unfold item_ids in II; rewrite KK, is_kind_refl in II; destruct (g_children n); [auto|discriminate]).
    destruct (g_decl n) as [k|] eqn:D.
    + terr V. destruct (is_index_loop (g_kind x)) eqn:IL.
      { destruct (g_try n) eqn:T; [|no_err V]. injection V as <- <-. eapply (X_index K _ i n k x); eauto; [repeat split; auto|now apply index_counting]. }
      destruct (is_kind (g_kind x) K_Arg); [no_err V|]. destruct (g_ty x); [|no_err V]. cbv zeta in V. destruct (g_parent n); [|no_err V]. terr V. no_err V.
    + destruct (g_parent n); [|no_err V]. terr V. no_err V.
  - unfold sift in V. rewrite E' in V. cbn [tbind] in V. terr V. destruct o; [|discriminate]. terr V. no_err V.
  - unfold compare in V. rewrite E' in V. cbn [tbind] in V. terr V. destruct o; [|discriminate]. terr V. destruct (item_ids x); no_err V.
  - unfold if_ in V. rewrite E' in V. cbn [tbind] in V. terr V. destruct o; [|discriminate]. terr V. destruct (g_ty x); no_err V.
  - unfold go_ in V. rewrite E' in V. cbn [tbind] in V. destruct (g_children n); [no_err V|]. terr V. no_err V.
  - unfold closure_ in V. rewrite E' in V. cbn [tbind] in V. berr V. no_err V.
  - (* call of a closure *) unfold call_closure in V. rewrite E' in V. cbn [tbind] in V. terr V. destruct o as [it|]; [|no_err V]. apply find_child_first in E0.
    terr V. destruct (item_ids x) eqn:II; [discriminate|]. apply keyed_iff in II. destruct (g_decl x) as [k|] eqn:D; [|no_err V].
    terr V. destruct (g_ty x0) as [t|] eqn:T; [|no_err V]. destruct (closure_ret_ty t) as [r|] eqn:R; [no_err V|]. injection V as <- <-.
    eapply (X_closure K _ i n it x k t); eauto. now rewrite (node_ty _ _ _ E2).
Qed.

(** ** Rounds *)
Lemma round_inferred : forall g todo s s', shape g0 (s_g s) -> inferred K g (s_g s) -> round K todo s = TOk s' -> inferred K g (s_g s').
Proof.
  intros g. induction todo as [|i todo IH]; intros s s' S I' R; simpl in R; [injection R as <-; auto|]. tinv R. eapply IH; [| |exact R].
  - eapply shape_trans; eauto. eapply visit_shape; eauto.
  - eapply I_step; eauto. eapply visit_step; eauto.
Qed.
Lemma round_err : forall g todo s c d, shape g0 (s_g s) -> inferred K g (s_g s) -> round K todo s = TErr c d -> exists h, inferred K g h /\ clash K h c d.
Proof.
  intros g. induction todo as [|i todo IH]; intros s c d S I' R; simpl in R; [discriminate|]. apply tbind_err in R. destruct R as [R|(s1 & V & R)].
  - exists (s_g s). split; auto. eapply visit_err; eauto.
  - eapply IH; [| |exact R]; [eapply shape_trans; eauto; eapply visit_shape; eauto|eapply I_step; eauto; eapply visit_step; eauto].
Qed.
Lemma propagate_inferred : forall g n todo errs h r, shape g0 h -> inferred K g h -> propagate K n todo errs h = TOk r -> inferred K g (fst r).
Proof.
  intros g. induction n as [|n IH]; intros todo errs h r S I' P; simpl in P; [discriminate|]. tinv P.
  pose proof (round_inferred g _ (St h [] errs false) _ S I' E) as Q. pose proof (round_shape _ _ _ _ E) as Q'. simpl in Q'. destruct (s_changed x); [|injection P as <-; exact Q].
  eapply IH; [| |exact P]; auto. eapply shape_trans; eauto.
Qed.
Lemma propagate_err : forall g n todo errs h c d, shape g0 h -> inferred K g h -> propagate K n todo errs h = TErr c d -> exists h', inferred K g h' /\ clash K h' c d.
Proof.
  intros g. induction n as [|n IH]; intros todo errs h c d S I' P; simpl in P; [discriminate|]. apply tbind_err in P. destruct P as [P|(s & E & P)].
  - eapply (round_err g todo (St h [] errs false)); eauto.
  - pose proof (round_inferred g _ (St h [] errs false) _ S I' E) as Q. pose proof (round_shape _ _ _ _ E) as Q'. simpl in Q'. destruct (s_changed s); [|discriminate].
    eapply IH; [| |exact P]; auto. eapply shape_trans; eauto.
Qed.
End V.
