(** * Every type that propagation finds has a reason. *)
From Coq Require Import String List Bool Arith Lia Sorted.
From Verif Require Import Syntax TypeModel LifetimeModel TypecheckModel TypecheckSpec TypeProofs TypecheckProofs TypecheckShape TypecheckInv TypecheckVisit TypecheckClosed.
Import ListNotations.
Local Open Scope string_scope.
Local Open Scope nat_scope.
Local Open Scope list_scope.

(** The premises of the rules up to the types themselves. *)
Inductive reason (K : known) (g : graph) (i : nat) : Prop :=
| Q_pass n c cn : is_node g i n -> passing (g_kind n) -> hd_error (g_children n) = Some c -> is_node g c cn -> ~ keyed cn -> g_ty cn <> None -> reason K g i
| Q_empty n : is_node g i n -> blocky (g_kind n) -> g_children n = [] -> reason K g i
| Q_block n l c cn : is_node g i n -> blocky (g_kind n) -> g_children n = l ++ [c] -> is_node g c cn -> ~ keyed cn -> g_ty cn <> None -> reason K g i
| Q_sift n c : is_node g i n -> g_kind n = K_Sift -> first_of g n K_Block c -> ty_at g c <> None -> reason K g i
| Q_number n c cn : is_node g i n -> number_place (g_kind n) -> hd_error (g_children n) = Some c -> is_node g c cn -> ~ keyed cn -> g_ty cn <> None -> reason K g i
| Q_if n c : is_node g i n -> g_kind n = K_If -> first_of g n K_TrueBlock c -> ty_at g c <> None -> reason K g i
| Q_go n c : is_node g i n -> g_kind n = K_Go -> hd_error (g_children n) = Some c -> ty_at g c <> None -> reason K g i
| Q_decl n d dn : is_node g i n -> g_kind n = K_Item -> g_children n = [] -> g_decl n = Some d -> is_node g d dn ->
    (counting (g_kind dn) /\ g_try n = false) \/ g_kind dn = K_Arg \/ (~ counting (g_kind dn) /\ g_ty dn <> None) -> reason K g i
| Q_left n l : is_node g i n -> g_kind n = K_Item -> g_children n = [] -> g_decl n = None -> g_parent n = Some l -> kind_at g l K_Left ->
    ty_at g l <> None -> reason K g i
| Q_arg n c : is_node g i n -> g_kind n = K_CallArg -> hd_error (g_children n) = Some c -> ty_at g c <> None -> reason K g i
| Q_call n t : is_node g i n -> g_kind n = K_Call -> choices K g n [] -> plain_result K g n t -> reason K g i.

Definition grows (g h : graph) : Prop := forall j, ty_at g j <> None -> ty_at h j <> None.

Lemma reason_grows : forall K g h i, same_sigs g h -> grows g h -> reason K g i -> reason K h i.
Proof.
  intros K g h i SS G R. pose proof (proj1 SS) as S.
  assert (forall c cn, is_node g c cn -> g_ty cn <> None -> exists m, is_node h c m /\ g_ty m <> None /\ g_kind m = g_kind cn /\ g_children m = g_children cn) as T.
  { intros c cn C X. destruct (shape_node _ _ _ _ S C) as (u & U). exists (retype cn u). repeat split; auto. rewrite <- (node_ty _ _ _ U). apply G. now rewrite (node_ty _ _ _ C). }
  assert (forall c cn, is_node g c cn -> ~ keyed cn -> g_ty cn <> None -> exists m, is_node h c m /\ ~ keyed m /\ g_ty m <> None) as T'.
  { intros c cn C Y X. destruct (T c cn C X) as (m & A & B & D & E). exists m. repeat split; auto. unfold keyed in *. now rewrite D, E. }
  inversion R as [n c cn A B C D E F|n A B C|n l c cn A B C D E F|n c A B C D|n c cn A B C D E F|n c A B C D|n c A B C D|n d dn A B C D E F|n l A B C D E F|n c A B C D|n t A B C D];
    destruct (shape_node _ _ _ _ S A) as (u & U).
  - destruct (T' _ _ D E F) as (m & M1 & M2 & M3). eapply (Q_pass K h i (retype n u)); eauto.
  - eapply (Q_empty K h i (retype n u)); eauto.
  - destruct (T' _ _ D E F) as (m & M1 & M2 & M3). eapply (Q_block K h i (retype n u)); eauto.
  - eapply (Q_sift K h i (retype n u)); eauto. eapply shape_first; eauto.
  - destruct (T' _ _ D E F) as (m & M1 & M2 & M3). eapply (Q_number K h i (retype n u)); eauto.
  - eapply (Q_if K h i (retype n u)); eauto. eapply shape_first; eauto.
  - eapply (Q_go K h i (retype n u)); eauto.
  - destruct (shape_node _ _ _ _ S E) as (w & W). eapply (Q_decl K h i (retype n u) d (retype dn w)); eauto. simpl.
    destruct F as [F|[F|[F1 F2]]]; auto. right; right. split; auto. apply (T d dn E) in F2. destruct F2 as (m & M1 & M2 & _). rewrite (node_det _ _ _ _ M1 W) in M2. exact M2.
  - eapply (Q_left K h i (retype n u)); eauto. eapply shape_kind; eauto.
  - eapply (Q_arg K h i (retype n u)); eauto.
  - assert (exists t', plain_result K h (retype n u) t') as (t' & P).
    { destruct D as [(d & D1 & D2)|(f & D1 & D2)]; [|exists t; right; exists f; split; auto].
      destruct (ty_at h d) as [t'|] eqn:X; [exists t'; left; exists d; auto|]. exfalso. apply (G d); congruence. }
    eapply (Q_call K h i (retype n u)); eauto. eapply same_choices; eauto.
Qed.

Section Wf.
Variables (K : known) (g0 : graph).
Hypothesis WF : well_formed K g0.

(** [i] is the only node with a rule that may get a type, and then with [R] *)
Definition news (i : nat) (R : Prop) (s s' : st) : Prop :=
  grows (s_g s) (s_g s') /\
  forall j n, is_node (s_g s) j n -> ruled n -> ty_at (s_g s) j = None -> ty_at (s_g s') j <> None -> j = i /\ R.
(** what is written before the end of a visit *)
Definition pre (s s1 : st) : Prop :=
  s_g s1 = s_g s \/ exists p pn t, is_node (s_g s) p pn /\ (g_kind pn = K_Fn \/ g_kind pn = K_Closure \/ g_kind pn = K_Left) /\ s_g s1 = put (s_g s) p (Some t).
Lemma news_same : forall i R s s', s_g s' = s_g s -> news i R s s'.
Proof. intros i R s s' E. unfold news, grows. rewrite E. split; auto. intros. contradiction. Qed.
Lemma news_fin : forall i o s s1 s' (R : Prop), pre s s1 -> finish i o s1 = TOk s' -> (forall t, o = Some t -> R) -> news i R s s'.
Proof.
  intros i o s s1 s' R P F H.
  assert (news i R s s1) as N.
  { destruct P as [P|(p & pn & t & A & B & C)]; [now apply news_same|]. unfold news, grows. rewrite C. split.
    - intros j J. destruct (Nat.eq_dec j p) as [-> |X]; [rewrite (ty_put_here _ _ _ _ A); discriminate|now rewrite ty_put_other].
    - intros j n J RU T1 T2. destruct (Nat.eq_dec j p) as [-> |X]; [exfalso|rewrite ty_put_other in T2 by auto; contradiction].
      rewrite (node_det _ _ _ _ J A) in RU. unfold ruled, passing, blocky, number_place in RU. simpl in RU. decompose [or and] RU; decompose [or] B; congruence. }
  destruct N as [N1 N2]. destruct o as [t|].
  - destruct (finish_some _ _ _ _ F) as (n & A & B & _). unfold news, grows. rewrite B. split.
    + intros j J. apply N1 in J. destruct (Nat.eq_dec j i) as [-> |X]; [rewrite (ty_put_here _ _ _ _ A); discriminate|now rewrite ty_put_other].
    + intros j m J RU T1 T2. destruct (Nat.eq_dec j i) as [-> |X]; [eauto|rewrite ty_put_other in T2 by auto]. eapply N2; eauto.
  - apply finish_none in F. subst. simpl. split; auto.
Qed.
Lemma pre_refl : forall s, pre s s. Proof. intros s. now left. Qed.
Lemma visit_news : forall i s s', shape g0 (s_g s) -> visit K i s = TOk s' ->
  news i (forall n, is_node (s_g s) i n -> ruled n -> choosing K (s_g s) i \/ reason K (s_g s) i) s s'.
Proof.
  intros i s s' S V. unfold visit in V. tinv V. apply get_ok in E. rename x into n. pose proof E as E'. apply get_ok in E'.
  assert (~ ruled n -> forall o s1, pre s s1 -> finish i o s1 = TOk s' ->
    news i (forall n, is_node (s_g s) i n -> ruled n -> choosing K (s_g s) i \/ reason K (s_g s) i) s s') as Un.
  { intros X o s1 P F. eapply news_fin; eauto. intros t _ m M RU. rewrite (node_det _ _ _ _ M E) in RU. contradiction. }
  assert (forall o s1, pre s s1 -> finish i o s1 = TOk s' -> (forall t, o = Some t -> reason K (s_g s) i) ->
    news i (forall n, is_node (s_g s) i n -> ruled n -> choosing K (s_g s) i \/ reason K (s_g s) i) s s') as Re.
  { intros o s1 P F H. eapply news_fin; eauto. }
  assert (passing (g_kind n) \/ g_kind n = K_Left -> pass_up i s = TOk s' -> news i (forall n, is_node (s_g s) i n -> ruled n -> choosing K (s_g s) i \/ reason K (s_g s) i) s s') as Pass.
  { intros PA P. unfold pass_up in P. rewrite E' in P. cbn [tbind] in P. destruct (g_children n) as [|c l] eqn:CC; [injection P as <-; now apply news_same|].
    tinv P. apply get_ok in E0. destruct (item_ids x) eqn:II; [injection P as <-; now apply news_same|]. destruct (g_ty x) as [t|] eqn:T; [|injection P as <-; now apply news_same].
    destruct (is_kind (g_kind n) K_Grab && ty_eqb t TVoid); [discriminate|].
    assert (forall o s1, pre s s1 -> finish i o s1 = TOk s' -> news i (forall n, is_node (s_g s) i n -> ruled n -> choosing K (s_g s) i \/ reason K (s_g s) i) s s') as Go.
    { intros o s1 P1 F. destruct PA as [PA|PA].
      - eapply Re; eauto. intros _ _. eapply (Q_pass K _ i n c x); eauto; [now rewrite CC|now apply keyed_iff|congruence].
      - eapply Un; eauto. unfold ruled, passing, blocky, number_place. rewrite PA. simpl. intuition discriminate. }
    destruct (is_kind (g_kind x) K_Return); [|eapply Go; [apply pre_refl|exact P]].
    tinv P. tinv P. eapply Go; [|exact P]. destruct x0 as [p|]; [|injection E2 as <-; apply pre_refl]. tinv E2. apply get_ok in E3.
    destruct (g_ty x0); [destruct (goes_with _ _); [injection E2 as <-; apply pre_refl|discriminate]|]. injection E2 as <-. right. exists p, x0, t.
    destruct (enclosing_in K g0 WF _ _ _ _ S E1) as (_ & m & M1 & M2). rewrite (node_det _ _ _ _ E3 M1). repeat split; auto. tauto. }
  assert (blocky (g_kind n) -> block i s = TOk s' -> news i (forall n, is_node (s_g s) i n -> ruled n -> choosing K (s_g s) i \/ reason K (s_g s) i) s s') as Bl.
  { intros B P. unfold block in P. rewrite E' in P. cbn [tbind] in P. destruct (rev (g_children n)) as [|c l] eqn:CC.
    - eapply Re; [apply pre_refl|exact P|]. intros _ _. apply (Q_empty K _ i n); auto. now rewrite <- (rev_involutive (g_children n)), CC.
    - tinv P. apply get_ok in E0. destruct (item_ids x) eqn:II; [injection P as <-; now apply news_same|]. eapply Re; [apply pre_refl|exact P|].
      intros t T. apply (Q_block K _ i n (rev l) c x); auto; [now rewrite <- (rev_involutive (g_children n)), CC|now apply keyed_iff|]. destruct (g_ty x); [discriminate|discriminate T]. }
  assert (number_place (g_kind n) -> component i s = TOk s' -> news i (forall n, is_node (s_g s) i n -> ruled n -> choosing K (s_g s) i \/ reason K (s_g s) i) s s') as Co.
  { intros B P. unfold component in P. rewrite E' in P. cbn [tbind] in P. destruct (g_children n) as [|c l] eqn:CC; [injection P as <-; now apply news_same|].
    tinv P. apply get_ok in E0. destruct (item_ids x) eqn:II; [injection P as <-; now apply news_same|]. cbv zeta in P. destruct (g_ty x) as [t|] eqn:T; cbn [option_map] in P.
    - destruct (goes_with _ _); [|discriminate]. eapply Re; [apply pre_refl|exact P|]. intros _ _. apply (Q_number K _ i n c x); auto; [now rewrite CC|now apply keyed_iff|congruence].
    - apply finish_none in P. subst. now apply news_same. }
  assert (forall t sigs default, g_kind n = K_Call -> choices K (s_g s) n sigs -> (default = Some t -> plain_result K (s_g s) n t) -> (default = None \/ default = Some t) ->
     refine_call i n sigs default s = TOk s' -> news i (forall n, is_node (s_g s) i n -> ruled n -> choosing K (s_g s) i \/ reason K (s_g s) i) s s') as Rf.
  { intros t sigs default KC CH PR DD P.
    assert (forall o s1, pre s s1 -> finish i o s1 = TOk s' -> (forall w, o = Some w -> sigs = [] -> default = Some t) ->
      news i (forall n, is_node (s_g s) i n -> ruled n -> choosing K (s_g s) i \/ reason K (s_g s) i) s s') as Go.
    { intros o s1 P1 F H. eapply news_fin; eauto. intros w W m M _. destruct sigs as [|x l].
      - right. eapply (Q_call K _ i n t); eauto.
      - left. exists n, (x :: l). repeat split; auto. discriminate. }
    unfold refine_call in P. tinv P. cbv zeta in P.
    assert (forall w, match g_ty n with None => default | Some _ => None end = Some w -> default = Some t) as FA.
    { intros w W. destruct (g_ty n); [discriminate|]. destruct DD; congruence. }
    destruct (refine sigs x) eqn:R; try discriminate.
    - eapply Go; [apply pre_refl|exact P|]. intros w _ ->. discriminate R.
    - eapply Go; [|exact P|]; [now left|]. intros w W _. eauto.
    - eapply Go; [apply pre_refl|exact P|]. intros w W _. eauto. }
  destruct (g_kind n) eqn:KK; try (apply Pass; [unfold passing; simpl; tauto|exact V]); try (apply Bl; [unfold blocky; simpl; tauto|exact V]);
    try (apply Co; [unfold number_place; simpl; tauto|exact V]);
    try (injection V as <-; now apply news_same);
    try (eapply Un; [unfold ruled, passing, blocky, number_place; rewrite KK; simpl; intuition discriminate|apply pre_refl|exact V]).
  - (* fn *) assert (~ ruled n) as NR by (unfold ruled, passing, blocky, number_place; rewrite KK; simpl; intuition discriminate).
    unfold fn_ in V. repeat (first [discriminate V|injection V as <-; now apply news_same|eapply Un; [exact NR|apply pre_refl|exact V]|tinv V]).
  - (* arg *) assert (~ ruled n) as NR by (unfold ruled, passing, blocky, number_place; rewrite KK; simpl; intuition discriminate).
    unfold arg_ in V. repeat (first [discriminate V|injection V as <-; now apply news_same|eapply Un; [exact NR|apply pre_refl|exact V]|tinv V]).
  - (* call *) unfold call in V. rewrite E' in V. cbn [tbind] in V. destruct (g_decl n) as [d|] eqn:D.
    + tinv V. tinv V. pose proof E0 as F. apply get_ok in F. apply sigs_of_are in E1.
      assert (choices K (s_g s) n x0) as CH by (left; exists d, x; auto). destruct (g_ty x) as [t|] eqn:T.
      * eapply (Rf t x0 (Some t)); auto. intros _. left. exists d. split; auto. now rewrite (node_ty _ _ _ F).
      * eapply (Rf TAny x0 None); auto. discriminate.
    + tinv V. destruct x as [f|]; [|apply finish_none in V; subst; now apply news_same]. pose proof (callee_target _ _ _ D E0) as T.
      assert (choices K (s_g s) n (d_ext f)) as CH by (right; eauto). destruct (d_ext f) eqn:X.
      * eapply Re; [apply pre_refl|exact V|]. intros _ _. eapply (Q_call K _ i n (d_ret f)); eauto. right. eauto.
      * eapply (Rf (d_ret f)); eauto. intros _. right. eauto.
  - (* call argument *) unfold call_arg in V. rewrite E' in V. cbn [tbind] in V. destruct (g_children n) as [|c l] eqn:CC; [injection V as <-; now apply news_same|].
    tinv V. apply get_ok in E0. 
    assert (forall t, option_map (inner_type n) (g_ty x) = Some t -> reason K (s_g s) i) as Q.
    { intros t T. eapply (Q_arg K _ i n c); auto; [now rewrite CC|]. rewrite (node_ty _ _ _ E0). destruct (g_ty x); discriminate. }
    destruct (g_parent n); [|eapply Re; [apply pre_refl|exact V|exact Q]]. cbv zeta in V. tinv V. tinv V. tinv V.
    destruct x2; [|injection V as <-; now apply news_same]. eapply Re; [|exact V|exact Q]. now left.
  - (* assignment *) assert (~ ruled n) as NR by (unfold ruled, passing, blocky, number_place; rewrite KK; simpl; intuition discriminate).
    unfold assign in V. rewrite E' in V. cbn [tbind] in V. tinv V. destruct x as [l|]; [|injection V as <-; now apply news_same].
    tinv V. destruct x as [r|]; [|injection V as <-; now apply news_same]. tinv V. tinv V. apply get_ok in E2.
    destruct (item_ids x0); [injection V as <-; now apply news_same|]. apply find_child_first in E0.
    assert (g_kind x = K_Left) as KL by (destruct E0 as (? & ? & _ & (m & M1 & M2) & _); now rewrite (node_det _ _ _ _ E2 M1)).
    destruct (g_ty x) as [u|] eqn:LT', (g_ty x0) as [t|] eqn:RT; try (injection V as <-; now apply news_same).
    + destruct (goes_with t u); [|injection V as <-; now apply news_same]. eapply Un; [exact NR| |exact V]. right. exists l, x, t. repeat split; auto.
      simpl. destruct (g_children x); auto. now rewrite fold_push.
    + eapply Un; [exact NR| |exact V]. right. exists l, x, t. auto.
  - (* variable *) unfold item in V. rewrite E' in V. cbn [tbind] in V. destruct (item_ids n) eqn:II; [injection V as <-; now apply news_same|].
    assert (g_children n = []) as CC by (unfold item_ids in II; rewrite KK, is_kind_refl in II; destruct (g_children n); [auto|discriminate]).
    destruct (g_decl n) as [d|] eqn:D.
    + tinv V. apply get_ok in E0. destruct (is_index_loop (g_kind x)) eqn:IL.
      { destruct (g_try n) eqn:T; [discriminate|]. eapply Re; [apply pre_refl|exact V|]. intros _ _. eapply (Q_decl K _ i n d x); eauto. left. split; auto. now apply index_counting. }
      destruct (is_kind (g_kind x) K_Arg) eqn:IA.
      { eapply Re; [apply pre_refl|exact V|]. intros _ _. apply is_kind_iff in IA. eapply (Q_decl K _ i n d x); eauto. }
      destruct (g_ty x) as [t|] eqn:T; [|apply finish_none in V; subst; now apply news_same].
      assert (reason K (s_g s) i) as Q.
      { eapply (Q_decl K _ i n d x); eauto. right; right. split; [|congruence]. intros X. apply index_counting in X. congruence. }
      cbv zeta in V. destruct (g_parent n) as [p|]; [|eapply Re; [apply pre_refl|exact V|auto]]. tinv V. apply get_ok in E1. eapply Re; [|exact V|auto].
      destruct (is_kind (g_kind x0) K_Left) eqn:KL; [|apply pre_refl]. apply is_kind_iff in KL. right. exists p, x0, (inner_type n t). auto.
    + destruct (g_parent n) as [p|] eqn:P; [|apply finish_none in V; subst; now apply news_same]. tinv V. apply get_ok in E0. eapply Re; [apply pre_refl|exact V|].
      intros t T. destruct (is_kind (g_kind x) K_Left) eqn:KL; [|discriminate]. apply is_kind_iff in KL. eapply (Q_left K _ i n p); eauto; [exists x; auto|rewrite (node_ty _ _ _ E0); congruence].
  - (* sift *) unfold sift in V. rewrite E' in V. cbn [tbind] in V. tinv V. destruct x as [b|]; [|injection V as <-; now apply news_same]. apply find_child_first in E0. tinv V. apply get_ok in E1.
    eapply Re; [apply pre_refl|exact V|]. intros t T. eapply (Q_sift K _ i n b); eauto. rewrite (node_ty _ _ _ E1). destruct (g_ty x); discriminate.
  - (* compare *) assert (~ ruled n) as NR by (unfold ruled, passing, blocky, number_place; rewrite KK; simpl; intuition discriminate).
    unfold compare in V. repeat (first [discriminate V|injection V as <-; now apply news_same|eapply Un; [exact NR|apply pre_refl|exact V]|tinv V]).
  - (* if *) unfold if_ in V. rewrite E' in V. cbn [tbind] in V. tinv V. destruct x as [b|]; [|injection V as <-; now apply news_same]. apply find_child_first in E0. tinv V. apply get_ok in E1.
    destruct (g_ty x) as [t|] eqn:T; [|injection V as <-; now apply news_same]. eapply Re; [apply pre_refl|exact V|]. intros _ _. eapply (Q_if K _ i n b); eauto. rewrite (node_ty _ _ _ E1). congruence.
  - (* go *) unfold go_ in V. rewrite E' in V. cbn [tbind] in V. destruct (g_children n) as [|c l] eqn:CC; [apply finish_none in V; subst; now apply news_same|]. tinv V. apply get_ok in E0.
    eapply Re; [apply pre_refl|exact V|]. intros t T. eapply (Q_go K _ i n c); eauto; [now rewrite CC|]. rewrite (node_ty _ _ _ E0). destruct (g_ty x); discriminate.
  - (* closure *) assert (~ ruled n) as NR by (unfold ruled, passing, blocky, number_place; rewrite KK; simpl; intuition discriminate).
    unfold closure_ in V. repeat (first [discriminate V|injection V as <-; now apply news_same|eapply Un; [exact NR|apply pre_refl|exact V]|tinv V]).
  - (* call of a closure *) assert (~ ruled n) as NR by (unfold ruled, passing, blocky, number_place; rewrite KK; simpl; intuition discriminate).
    unfold call_closure in V. repeat (first [discriminate V|injection V as <-; now apply news_same|eapply Un; [exact NR|apply pre_refl|exact V]|tinv V]).
Qed.

(** Nodes with a rule and a type have a reason, unless the type was declared. *)
Definition reasoned (g : graph) : Prop :=
  forall i n, is_node g i n -> ruled n -> ty_at g0 i = None -> ty_at g i <> None -> choosing K g i \/ reason K g i.
Lemma visit_reasoned : forall i cur s s', StronglySorted Peano.lt (i :: cur) -> Inv K g0 None (i :: cur) (s_new s) (s_g s) -> reasoned (s_g s) ->
  visit K i s = TOk s' -> reasoned (s_g s').
Proof.
  intros i cur s s' SO IN R V j n' N RU T0 T. pose proof (visit_inv K g0 WF _ _ _ _ SO IN V) as IN'.
  pose proof (inv_same_sigs _ _ _ _ _ _ IN) as S1. pose proof (inv_same_sigs _ _ _ _ _ _ IN') as S2.
  assert (same_sigs (s_g s) (s_g s')) as SS.
  { split; [exact (shape_trans _ _ _ (shape_sym _ _ (proj1 S1)) (proj1 S2))|]. intros k kd X Y. destruct S1 as [A1 A2], S2 as [B1 B2].
    assert (kind_at g0 k kd) as Z by (exact (shape_kind _ _ _ _ (shape_sym _ _ A1) X)). rewrite <- (A2 k kd Z Y). exact (B2 k kd Z Y). }
  destruct (visit_news i s s' (proj1 S1) V) as [G W]. destruct (shape_node' _ _ _ _ (proj1 SS) N) as [N1 _].
  assert (choosing K (s_g s) j \/ reason K (s_g s) j) as [C|Q].
  { destruct (ty_at (s_g s) j) eqn:X.
    - apply (R j (retype n' (ty_at (s_g s) j))); auto; [|congruence]. rewrite X. exact N1.
    - destruct (W j _ N1 RU X T) as [-> Y]. exact (Y _ N1 RU). }
  - left. apply (choosing_shape K g0 _ _ S2). now apply (choosing_shape K g0 _ _ S1).
  - right. eapply reason_grows; eauto.
Qed.
Lemma round_reasoned : forall todo s s', StronglySorted Peano.lt todo -> Inv K g0 None todo (s_new s) (s_g s) -> reasoned (s_g s) -> round K todo s = TOk s' -> reasoned (s_g s').
Proof.
  induction todo as [|i todo IH]; intros s s' S H Q R; simpl in R; [injection R as <-; auto|]. tinv R.
  eapply IH; [|eapply visit_inv; eauto|eapply visit_reasoned; eauto|eauto]. now inversion S.
Qed.
Lemma propagate_reasoned : forall n todo errs g r, StronglySorted Peano.lt todo -> Inv K g0 None todo [] g -> reasoned g -> propagate K n todo errs g = TOk r ->
  reasoned (fst r).
Proof.
  induction n as [|n IH]; intros todo errs g r S H Q P; simpl in P; [discriminate|]. tinv P.
  pose proof (round_reasoned _ (St g [] errs false) _ S H Q E) as Q'. destruct (s_changed x) eqn:C; [|injection P as <-; exact Q'].
  eapply IH; [| | |exact P]; [apply sort_dedup_spec| |exact Q']. apply inv_next. eapply (round_inv K g0 WF todo (St g [] errs false)); eauto.
Qed.
Lemma start_reasoned : reasoned g0.
Proof. intros i n _ _ A B. contradiction. Qed.

Section Last.
Variables (todo errs : list nat) (g : graph) (s' : st).
Hypothesis SO : StronglySorted Peano.lt todo.
Hypothesis IN : Inv K g0 None todo [] g.
Hypothesis RO : round K todo (St g [] errs false) = TOk s'.
Hypothesis CH : s_changed s' = false.
Hypothesis ER : s_errs s' = [].
Hypothesis RE : reasoned g.
Lemma reason_derives : forall i, In i todo -> reason K g i -> exists t, derives K g i t.
Proof.
  intros i I R.
  inversion R as [n c cn A B C D E F|n A B C|n l c cn A B C D E F|n c A B C D|n c cn A B C D E F|n c A B C D|n c A B C D|n d dn A B C D E F|n l A B C D E F|n c A B C D|n t A B C D].
  - destruct (g_ty cn) as [t|] eqn:T; [|congruence]. destruct (is_kind (g_kind cn) K_Return) eqn:X.
    + apply is_kind_iff in X. exists TUnreachable. eapply (D_return K g i n c cn); eauto.
    + exists (behind n t). eapply (D_pass K g i n c cn); eauto. intros Y. rewrite Y, is_kind_refl in X. discriminate.
  - exists TVoid. eapply (D_empty K g i n); eauto.
  - destruct (g_ty cn) as [t|] eqn:T; [|congruence]. exists (behind n t). eapply (D_block K g i n l c cn); eauto.
  - destruct (ty_at g c) as [t|] eqn:T; [|congruence]. exists (TArray t). eapply (D_sift K g i n c); eauto.
  - destruct (g_ty cn) as [t|] eqn:T; [|congruence]. exists (behind n t). eapply (D_number K g i n c cn); eauto.
    destruct (last_visit K todo errs g s' SO RO CH ER i I) as (s1 & s2 & X1 & X2 & _). subst g.
    pose proof A as A'. apply get_ok in A'. apply get_ok in D. unfold visit in X2. rewrite A' in X2. cbn [tbind] in X2.
    assert (component i s1 = TOk s2) as P by (unfold number_place in B; simpl in B; decompose [or] B; try contradiction; match goal with H : _ = g_kind n |- _ => rewrite <- H in X2; exact X2 end).
    unfold component in P. rewrite A' in P. cbn [tbind] in P. destruct (g_children n); [discriminate|]. injection C as ->. rewrite D in P. cbn [tbind] in P.
    rewrite (not_item_ids _ E), T in P. cbn [option_map] in P. rewrite inner_behind in P. destruct (goes_with (behind n t) TF64); [auto|discriminate].
  - destruct (ty_at g c) as [t|] eqn:T; [|congruence]. exists (behind n t). eapply (D_if K g i n c); eauto.
  - destruct (ty_at g c) as [t|] eqn:T; [|congruence]. exists (TThread t). eapply (D_go K g i n c); eauto.
  - destruct F as [[F1 F2]|[F|[F1 F2]]].
    + exists TF64. eapply (D_index K g i n d dn); eauto.
    + eexists. eapply (D_param K g i n d dn); eauto.
    + destruct (is_kind (g_kind dn) K_Arg) eqn:X; [apply is_kind_iff in X; eexists; eapply (D_param K g i n d dn); eauto|].
      destruct (g_ty dn) as [t|] eqn:T; [|congruence]. exists (behind n t). eapply (D_variable K g i n d dn); eauto.
      intros Y. rewrite Y, is_kind_refl in X. discriminate.
  - destruct (ty_at g l) as [t|] eqn:T; [|congruence]. exists t. eapply (D_declared K g i n l); eauto.
  - unfold ty_at in D. destruct (nth_error g c) as [cn|] eqn:X; [|congruence]. destruct (g_ty cn) as [t|] eqn:T; [|congruence]. exists (behind n t). eapply (D_arg K g i n c cn); eauto.
  - exists t. eapply (D_call K g i n); eauto.
Qed.
Lemma last_reason : forall i n t, is_node g i n -> ruled n -> ty_at g0 i = None -> ty_at g i = Some t -> ~ choosing K g i -> derives K g i t.
Proof.
  intros i n t N RU T0 T C. pose proof (V_shape _ _ _ _ _ _ IN) as S. destruct (node0 _ _ _ _ S N) as (n0 & N0 & X).
  assert (ruled n0) as RU0 by (rewrite X in RU; exact RU). pose proof (inv_same_sigs _ _ _ _ _ _ IN) as SS.
  assert (~ choosing K g0 i) as C0 by (intros Y; apply C; now apply (choosing_shape K g0 g i SS)).
  destruct (V_settled _ _ _ _ _ _ IN _ _ N0 RU0 C0) as [P|(t' & T' & D')]; [|congruence].
  apply last_pend in P. assert (ty_at g i <> None) as TN by congruence. destruct (RE i n N RU T0 TN) as [Y|Y]; [contradiction|]. destruct (reason_derives i P Y) as (t' & D').
  pose proof (last_closed K g0 WF todo errs g s' SO IN RO CH ER i t' D') as Z. congruence.
Qed.
End Last.
End Wf.
