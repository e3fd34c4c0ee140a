(** * Arguments that the type checker complains about. *)
From Coq Require Import String List Bool Arith Lia.
From Verif Require Import Syntax TypeModel LifetimeModel TypecheckModel TypeSpec TypecheckSpec TypeErrSpec TypeProofs TypecheckProofs TypecheckShape TypecheckInv TypecheckVisit TypecheckClosed TypecheckReason TypeErrProofs TypeErrVisit.
Import ListNotations.
Local Open Scope string_scope.
Local Open Scope nat_scope.
Local Open Scope list_scope.

Section A.
Variable K : known.
(** call argument [i] is complained about in graph [g] *)
Definition bad (g : graph) (i : nat) : Prop :=
  exists n c l p cn pn js, is_node g i n /\ g_kind n = K_CallArg /\ g_children n = c :: l /\ is_node g c cn /\ g_parent n = Some p /\ is_node g p pn /\
    arg_positions g i pn cn = TOk js /\ all_fit K g pn (option_map (inner_type n) (g_ty cn)) js = TOk false.
Definition argish (g : graph) (i : nat) : Prop :=
  exists n c l p, is_node g i n /\ g_kind n = K_CallArg /\ g_children n = c :: l /\ g_parent n = Some p.
Lemma bad_argish : forall g i, bad g i -> argish g i.
Proof. intros g i (n & c & l & p & cn & pn & js & A & B & C & _ & D & _). exists n, c, l, p. auto. Qed.
Lemma argish_shape : forall g h i, shape g h -> argish g i -> argish h i.
Proof. intros g h i S (n & c & l & p & A & B & C & D). destruct (shape_node _ _ _ _ S A) as [t T]. exists (retype n t), c, l, p. auto. Qed.
Definition calm_st (s s' : st) : Prop := s_errs s' = s_errs s /\ incl (s_new s) (s_new s').
Lemma calm_refl : forall s, calm_st s s. Proof. intros s. split; [auto|apply incl_refl]. Qed.
Lemma calm_push : forall i s, calm_st s (push i s). Proof. intros i s. split; [auto|]. intros x X. now right. Qed.
Lemma calm_trans : forall a b c, calm_st a b -> calm_st b c -> calm_st a c.
Proof. intros a b c [A1 A2] [B1 B2]. split; [congruence|eapply incl_tran; eauto]. Qed.
Lemma finish_rest : forall i o s s', finish i o s = TOk s' -> calm_st s s'.
Proof.
  intros i o s s' F. unfold finish in F. destruct o as [t|]; [|injection F as <-; apply calm_push]. tinv F. tinv F. injection F as <-.
  assert (calm_st s x0) as C.
  { destruct (g_ty x) as [old|]; [|injection E0 as <-; apply calm_refl]. destruct (g_parent x); [|injection E0 as <-; apply calm_refl].
    destruct (ty_eqb old t); [injection E0 as <-; apply calm_refl|]. tinv E0. injection E0 as <-. destruct (g_ty x1); [apply calm_push|apply calm_refl]. }
  destruct C as [C1 C2]. split; auto.
Qed.
Lemma fold_rest : forall l s, calm_st s (fold_left (fun s j => push j s) l s).
Proof. induction l as [|a l IH]; intros s; simpl; [apply calm_refl|]. eapply calm_trans; [apply calm_push|apply IH]. Qed.
Ltac rest H := solve [injection H as <-; first [apply calm_refl|apply calm_push] | eapply finish_rest; exact H
  | refine (calm_trans _ _ _ _ (finish_rest _ _ _ _ H)); first [apply calm_push | split; [reflexivity|apply incl_refl]]].
Lemma visit_rest : forall i s s' n, visit K i s = TOk s' -> is_node (s_g s) i n -> g_kind n <> K_CallArg -> calm_st s s'.
Proof.
  intros i s s' n V N NK. unfold visit in V. apply get_ok in N. rewrite N in V. cbn [tbind] in V.
  assert (pass_up i s = TOk s' -> calm_st s s') as Pass.
  { intros P. unfold pass_up in P. tinv P. destruct (g_children x); [rest P|]. tinv P. destruct (item_ids x0); [rest P|]. destruct (g_ty x0); [|rest P]. destruct (_ && _); [discriminate|].
    destruct (is_kind _ _); [|rest P]. tinv P. tinv P. refine (calm_trans _ _ _ _ (finish_rest _ _ _ _ P)). destruct x1; [|rest E2]. tinv E2. destruct (g_ty x1); [destruct (goes_with _ _); [rest E2|discriminate]|].
    injection E2 as <-. split; [reflexivity|apply incl_refl]. }
  destruct (g_kind n) eqn:KK; try (apply Pass; exact V); try (rest V); try contradiction.
  all: try solve [unfold fn_, arg_, call, refine_call, sift, compare, block, if_, go_, closure_, call_closure, component in V; repeat first [rest V|tinv V]].
  - unfold assign in V. tinv V. tinv V. destruct x0 as [l|]; [|rest V]. tinv V. destruct x0 as [r|]; [|rest V]. tinv V. tinv V. destruct (item_ids x1); [rest V|].
    destruct (g_ty x0), (g_ty x1); try (rest V). destruct (goes_with _ _); [|rest V]. cbv zeta in V. refine (calm_trans _ _ _ _ (finish_rest _ _ _ _ V)).
    destruct (g_children x0); [split; [reflexivity|apply incl_refl]|]. exact (fold_rest _ s).
  - unfold item in V. tinv V. destruct (item_ids x); [rest V|]. destruct (g_decl x).
    + tinv V. destruct (is_index_loop _); [destruct (g_try x); [discriminate|rest V]|]. destruct (is_kind _ _); [rest V|]. destruct (g_ty x0); [|rest V]. cbv zeta in V. destruct (g_parent x); [|rest V].
      tinv V. refine (calm_trans _ _ _ _ (finish_rest _ _ _ _ V)). destruct (is_kind _ _); [split; [reflexivity|apply incl_refl]|apply calm_refl].
    + destruct (g_parent x); [|rest V]. tinv V. rest V.
Qed.
Lemma visit_errs : forall i s s', visit K i s = TOk s' -> incl (s_new s) (s_new s') /\
  forall e, In e (s_errs s') -> (e = i /\ bad (s_g s) i /\ In i (s_new s')) \/ (In e (s_errs s) /\ (e = i -> ~ argish (s_g s) i)).
Proof.
  intros i s s' V. assert (exists n, is_node (s_g s) i n) as (n & N) by (unfold visit in V; tinv V; apply get_ok in E; eauto).
  destruct (kind_eq_dec (g_kind n) K_CallArg) as [KK|NK].
  - unfold visit in V. pose proof N as G. apply get_ok in G. rewrite G in V. cbn [tbind] in V. rewrite KK in V. unfold call_arg in V. rewrite G in V. cbn [tbind] in V.
    destruct (g_children n) as [|c l] eqn:CC.
    { injection V as <-. split; [intros x X; now right|]. intros e I'. right. split; auto. intros -> (m & c & l & p & A & _ & B & _). rewrite (node_det _ _ _ _ A N) in B. congruence. }
    tinv V. apply get_ok in E. cbv zeta in V. destruct (g_parent n) as [p|] eqn:P.
    + tinv V. tinv V. tinv V. apply get_ok in E0. destruct x2.
      * destruct (finish_rest _ _ _ _ V) as [A B]. split; [exact B|]. intros e I'. rewrite A in I'. simpl in I'. apply in_remove in I'. right. destruct I' as [I1 I2]. split; [auto|intros; contradiction].
      * injection V as <-. split; [intros y Y; now right|]. intros e I'. simpl in I'. destruct I' as [<- |I'].
        -- left. split; auto. split; [|now left]. exists n, c, l, p, x, x0, x1. repeat split; auto.
        -- apply in_remove in I'. right. destruct I' as [I1 I2]. split; [auto|intros; contradiction].
    + destruct (finish_rest _ _ _ _ V) as [A B]. split; [exact B|]. intros e I'. rewrite A in I'. right. split; auto. intros -> (m & c' & l' & p & A' & _ & _ & B'). rewrite (node_det _ _ _ _ A' N) in B'. congruence.
  - destruct (visit_rest _ _ _ _ V N NK) as [A B]. split; auto. intros e I'. rewrite A in I'. right. split; auto. intros -> (m & _ & _ & _ & A' & B' & _). rewrite (node_det _ _ _ _ A' N) in B'. auto.
Qed.
(** complaints are looked at again *)
Lemma round_errs : forall todo s s', round K todo s = TOk s' -> (forall e, In e (s_errs s) -> argish (s_g s) e /\ (In e todo \/ In e (s_new s))) ->
  forall e, In e (s_errs s') -> argish (s_g s') e /\ In e (s_new s').
Proof.
  induction todo as [|i todo IH]; intros s s' R H e I'; simpl in R.
  - injection R as <-. destruct (H e I') as [A [[]|B]]. auto.
  - tinv R. apply (IH _ _ R); auto. intros f F. destruct (visit_errs _ _ _ E) as [V1 V2]. pose proof (visit_shape _ _ _ _ E) as S.
    destruct (V2 f F) as [(-> & A & B)|(A & B)].
    + split; [eapply argish_shape; eauto; now apply bad_argish|now right].
    + destruct (H f A) as [C D]. split; [eapply argish_shape; eauto|]. destruct D as [[<- |D]|D]; auto. exfalso. now apply B.
Qed.
Lemma round_bad : forall todo s s', round K todo s = TOk s' -> s_changed s' = false ->
  (forall e, In e (s_errs s) -> argish (s_g s) e /\ (In e todo \/ bad (s_g s) e)) -> forall e, In e (s_errs s') -> bad (s_g s') e.
Proof.
  induction todo as [|i todo IH]; intros s s' R C H e I'; simpl in R.
  - injection R as <-. destruct (H e I') as [A [[]|B]]. auto.
  - tinv R. apply (IH _ _ R); auto. intros f F. destruct (visit_errs _ _ _ E) as [V1 V2]. destruct (round_still K _ _ _ R C) as (_ & C1 & _).
    destruct (visit_still K _ _ _ E C1) as (G & _). rewrite G. destruct (V2 f F) as [(-> & A & B)|(A & B)]; [split; [now apply bad_argish|auto]|].
    destruct (H f A) as [D1 [[<- |D]|D]]; auto. exfalso. now apply B.
Qed.
Lemma propagate_bad : forall n todo errs g r, (forall e, In e errs -> argish g e /\ In e todo) -> propagate K n todo errs g = TOk r ->
  forall e, In e (snd r) -> bad (fst r) e.
Proof.
  induction n as [|n IH]; intros todo errs g r H P; simpl in P; [discriminate|]. tinv P. destruct (s_changed x) eqn:C.
  - eapply IH; [|exact P]. intros e I'. assert (argish (s_g x) e /\ In e (s_new x)) as [A B].
    { apply (round_errs _ _ _ E); auto. simpl. intros f F. destruct (H f F). auto. }
    split; auto. now apply sort_dedup_spec.
  - injection P as <-. simpl. apply (round_bad _ _ _ E C). simpl. intros f F. destruct (H f F). auto.
Qed.

(** ** What a complaint means *)
Variable g0 : graph.
Hypothesis WF : well_formed K g0.
Hypothesis AC : args_in_calls g0.
Lemma spread_here : forall g c cn x w, is_node g c cn -> g_children cn = [x] -> (exists xn, is_node g x xn) ->
  (forall o, find_child g cn K_Swizzle = TOk o -> match o with Some sw => tbind (get g sw) (fun n => count_sw g (g_children n)) | None => TOk 1 end = TOk w -> spread g c w).
Proof.
  intros g c cn x w C CC (xn & X) o F H. exists cn, x. split; auto. split; auto. destruct o as [sw|].
  - apply find_child_first in F. destruct F as (pre & post & A & (m & B & D) & _). rewrite CC in A.
    assert (sw = x) as -> by (destruct pre as [|? [|]]; inversion A; auto). pose proof (node_det _ _ _ _ B X); subst m. tinv H. apply get_ok in E. pose proof (node_det _ _ _ _ E X); subst x0.
    left. exists xn. split; auto. split; auto. now apply count_sw_len in H.
  - injection H as <-. right. split; auto. apply (no_child _ _ _ F). rewrite CC. now left.
Qed.
Lemma position_supplies : forall g l i k, (forall c, In c l -> exists cn x, is_node g c cn /\ g_children cn = [x] /\ exists xn, is_node g x xn) -> In i l ->
  arg_position g i l = TOk k -> exists pre post ws, l = pre ++ i :: post /\ Forall2 (spread g) pre ws /\ k = list_sum ws.
Proof.
  induction l as [|c l IH]; intros i k W I' H; simpl in I'; [contradiction|]. simpl in H. destruct (c =? i) eqn:Q.
  - apply Nat.eqb_eq in Q. subst c. injection H as <-. exists [], l, []. split; auto.
  - apply Nat.eqb_neq in Q. destruct I' as [I'|I']; [contradiction|]. tinv H. apply get_ok in E. tinv H. tinv H. tinv H. injection H as <-.
    destruct (IH _ _ (fun c X => W c (or_intror X)) I' E2) as (pre & post & ws & A & B & ->). destruct (W c (or_introl eq_refl)) as (cn & y & C1 & C2 & C3). pose proof (node_det _ _ _ _ E C1); subst x.
    exists (c :: pre), post, (x1 :: ws). split; [rewrite A; reflexivity|]. split; auto. constructor; auto. eapply spread_here; eauto.
Qed.
Lemma bad_misfit : forall g i, shape g0 g -> bad g i -> misfit K g i.
Proof.
  intros g i S (n & c & l & p & cn & pn & js & N & KK & CC & C & P & PN & AP & AF).
  destruct (node0 g0 _ _ _ S N) as (n0 & N0 & X0). destruct (node0 g0 _ _ _ S PN) as (p0 & P0 & Y0).
  assert (g_parent n0 = Some p) as GP by (rewrite X0 in P; exact P). assert (g_kind n0 = K_CallArg) as GK by (rewrite X0 in KK; exact KK).
  destruct (all_fit_false _ _ _ _ _ AF) as (j & J & F).
  assert (g_kind pn = K_Call) as KP.
  { destruct (AC _ _ _ N0 GK GP) as [(m & M & Y)|(m & M & Y)]; pose proof (node_det _ _ _ _ M P0); subst m.
    - rewrite Y0. exact Y.
    - exfalso. unfold arg_fits in F. rewrite Y0 in F. simpl in F. rewrite Y, is_kind_refl in F. discriminate. }
  assert (g_kind p0 = K_Call) as KP0 by (rewrite Y0 in KP; exact KP).
  destruct (wf_parent _ _ WF _ _ _ N0 GP) as (_ & p1 & P1 & IN). pose proof (node_det _ _ _ _ P1 P0); subst p1.
  destruct (wf_call _ _ WF _ _ P0 KP0) as (_ & _ & W).
  assert (g_children pn = g_children p0) as GC by (rewrite Y0; reflexivity).
  assert (forall d, In d (g_children pn) -> exists dn x, is_node g d dn /\ g_children dn = [x] /\ exists xn, is_node g x xn) as W'.
  { intros d D. rewrite GC in D. destruct (W _ D) as (dn & x & D1 & D2 & D3 & D4). destruct (shape_node _ _ _ _ S D1) as [t T]. exists (retype dn t), x. split; auto. split; auto.
    eapply wf_nodes; eauto. simpl. rewrite D4. now left. }
  assert (In i (g_children pn)) as IN' by (rewrite GC; exact IN).
  assert (g_children n = [c]) as CC'.
  { destruct (W' _ IN') as (dn & x & D1 & D2 & _). rewrite (node_det _ _ _ _ D1 N) in D2. rewrite CC in D2 |- *. injection D2 as -> ->. reflexivity. }
  assert (supplies g pn i j) as SU.
  { unfold arg_positions in AP. tinv AP. destruct (position_supplies _ _ _ _ W' IN' E) as (pre & post & ws & A & B & ->).
    destruct (is_kind (g_kind cn) K_Swizzle) eqn:KS.
    - tinv AP. injection AP as <-. apply in_seq in J. exists pre, post, ws, x. split; auto. split; auto. split; [|lia]. exists n, c. split; auto. split; auto. left. exists cn.
      apply is_kind_iff in KS. split; auto. split; auto. now apply count_sw_len in E0.
    - injection AP as <-. destruct J as [<- |[]]. exists pre, post, ws, 1. split; auto. split; auto. split; [|lia]. exists n, c. split; auto. split; auto. right. split; auto.
      intros (m & M & Y). rewrite (node_det _ _ _ _ M C) in Y. rewrite Y, is_kind_refl in KS. discriminate. }
  unfold arg_fits in F. destruct (is_kind (g_kind pn) K_CallClosure); [discriminate|].
  destruct (g_ty cn) as [t|] eqn:T.
  - cbn [option_map] in F. rewrite inner_behind in F.
    assert (forall q, param_is K g pn j q -> goes_with q (behind n t) = false -> misfit K g i) as Go.
    { intros q Q1 Q2. exists n, p, pn, c, t, j, q. rewrite (node_ty _ _ _ C). repeat split; auto. }
    destruct (g_decl pn) as [d|] eqn:D.
    + tinv F. apply get_ok in E. destruct (nth_error (g_children x) j) as [a|] eqn:A; [|discriminate]. tinv F. apply get_ok in E0. destruct (g_ty x0) as [q|] eqn:TQ; [|discriminate]. injection F as F.
      apply (Go q); auto. left. exists d, x, a. rewrite (node_ty _ _ _ E0). auto.
    + tinv F. destruct x as [f|]; [|discriminate]. destruct (nth_error (d_tys f) j) as [q|] eqn:A; [|discriminate]. injection F as F. apply (Go q); auto. right. exists f. split; auto. eapply callee_target; eauto.
  - exfalso. cbn [option_map] in F. destruct (g_decl pn).
    + tinv F. destruct (nth_error (g_children x) j); [|discriminate]. tinv F. discriminate.
    + tinv F. destruct x; discriminate.
Qed.
End A.
