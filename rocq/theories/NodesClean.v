(** * Lemmas: what the passes over the operators leave of the graph: no new roots but the nodes that are taken out, and no links. *)
From Coq Require Import String List Bool Arith ZArith Lia Sorting.Sorted.
From Verif Require Import Syntax Float64 TypeModel LifetimeModel PrintModel NodesModel NodesSpec NodesProofs NodesLayout.
Import ListNotations.
Local Open Scope string_scope.
Local Open Scope nat_scope.
Local Open Scope list_scope.

(** a node that is taken out of the graph *)
Definition taken_out (n : fnode) : Prop := f_parent n = None /\ f_children n = [] /\ (f_kind n = K_Add \/ f_kind n = K_Mul).
(** what is not changed of the data *)
Definition alike (d d' : data) : Prop :=
  x_op d' = x_op d /\ x_grab d' = x_grab d /\ (x_kind d' = x_kind d \/ x_kind d' = K_Call \/ x_kind d' = K_CallArg).
Definition no_op (d : data) : Prop := x_op d = None /\ x_grab d = 0%Z.
Lemma alike_refl : forall d, alike d d.
Proof. repeat split; auto. Qed.
Lemma alike_trans : forall a b c, alike a b -> alike b c -> alike a c.
Proof. intros a b c (A & B & C) (D & E & F). repeat split; try congruence. destruct F as [-> | F]; auto. Qed.
Record clean (g g' : fgraph) : Prop := {
  cl_roots : forall j n', nth_error g' j = Some n' -> f_parent n' = None ->
     (exists n, nth_error g j = Some n /\ f_parent n = None /\ (f_children n = [] -> n' = n)) \/ taken_out n';
  cl_unlinked : unlinked g -> unlinked g';
  cl_data : forall j n', nth_error g' j = Some n' -> (exists n, nth_error g j = Some n /\ alike (f_data n) (f_data n')) \/ no_op (f_data n') }.
Lemma clean_refl : forall g, clean g g.
Proof. intros g. split; auto. { intros j n N P. left. eauto. } intros j n N. left. exists n. split; auto. apply alike_refl. Qed.
Lemma clean_trans : forall a b c, clean a b -> clean b c -> clean a c.
Proof.
  intros a b c [A1 A2 A3] [B1 B2 B3]. split; auto. 
  - intros j n N P. destruct (B1 j n N P) as [(n1 & N1 & P1 & Q1)|O]; auto.
    destruct (A1 j n1 N1 P1) as [(n0 & N0 & P0 & Q0)|O].
    + left. exists n0. repeat split; auto. intros C. pose proof (Q0 C). subst n1. auto.
    + right. rewrite Q1; auto. apply O.
  - intros j n N. destruct (B3 j n N) as [(n1 & N1 & L1)|O]; auto. destruct (A3 j n1 N1) as [(n0 & N0 & L0)|O].
    + left. exists n0. split; auto. eapply alike_trans; eauto.
    + right. destruct O, L1 as (X & Y & _). split; congruence.
Qed.

Lemma nest_at_clean : forall g i g', good g -> nest_at i g = NOk g' -> clean g g'.
Proof.
  intros g i g' [T F Ft] R. destruct (nth_error g i) as [x|] eqn:E; [|unfold nest_at, at_ in R; rewrite E in R; discriminate].
  destruct (le_lt_dec (length (x_binops (f_data x))) 1) as [B|B].
  { unfold nest_at in R. rewrite (at_some _ _ _ E) in R. cbn [nbind] in R. destruct (Nat.leb_spec (length (x_binops (f_data x))) 1); [|lia].
    injection R as <-. apply clean_refl. }
  destruct (ft_ops _ Ft _ _ E) as [[Z|[_ Z]]|[Z1 Z2]]; [rewrite Z in B; simpl in B; lia|lia|].
  destruct (f_parent x) as [p|] eqn:P; [|contradiction].
  destruct (nest_at_spec g i x p T F E P B Z1) as (g1 & R1 & L & N1 & N2 & N3). rewrite R in R1. injection R1 as <-.
  assert (forall j n', nth_error g' j = Some n' -> j = i \/ (j <> i /\ exists n, nth_error g j = Some n) \/ exists m, m < extra x /\ j = length g + m) as CASES.
  { intros j n' J. destruct (Nat.eq_dec j i); auto. right. destruct (le_lt_dec (length g) j) as [X|X].
    - right. exists (j - length g). apply nth_lt in J. lia.
    - left. split; auto. apply nth_ex; auto. }
  split.
  - intros j n' J PJ. left. destruct (CASES _ _ J) as [-> |[(JI & n & N)|(m & M & ->)]].
    + rewrite N1 in J. injection J as <-. discriminate.
    + destruct (N2 j n JI N) as (q & Q1 & Q2 & Q3). rewrite Q1 in J. injection J as <-. simpl in PJ. exists n. split; auto.
      destruct (in_dec Nat.eq_dec j (skipn 2 (f_children x))) as [I|I].
      * destruct (in_skipn2 _ _ I) as (m & M1 & M2). rewrite (Q3 m M1 M2) in PJ. discriminate.
      * rewrite (Q2 I) in *. split; auto. intros C. rewrite C. destruct n; simpl in *; subst; reflexivity.
    + destruct (N3 m M) as (b & c & _ & _ & W). rewrite W in J. injection J as <-. destruct m; simpl in PJ; congruence.
  - intros U j n' J. destruct (CASES _ _ J) as [-> |[(JI & n & N)|(m & M & ->)]].
    + rewrite N1 in J. injection J as <-. simpl. exact (U _ _ E).
    + destruct (N2 j n JI N) as (q & Q1 & _). rewrite Q1 in J. injection J as <-. simpl. exact (U _ _ N).
    + destruct (N3 m M) as (b & c & _ & _ & W). rewrite W in J. injection J as <-. auto.
  - intros j n' J. destruct (CASES _ _ J) as [-> |[(JI & n & N)|(m & M & ->)]].
    + rewrite N1 in J. injection J as <-. left. exists x. split; auto. repeat split; auto.
    + destruct (N2 j n JI N) as (q & Q1 & _). rewrite Q1 in J. injection J as <-. left. exists n. split; auto. apply alike_refl.
    + destruct (N3 m M) as (b & c & _ & _ & W). rewrite W in J. injection J as <-. right. split; auto.
Qed.

(** one change at a time *)
Ltac alk := intros; repeat split; simpl; auto.
Lemma upd_clean : forall g i f, (forall n, nth_error g i = Some n -> f_parent n <> None -> f_parent (f n) = None -> taken_out (f n)) ->
  (forall n, nth_error g i = Some n -> f_parent n = None -> f_children n = [] -> f n = n) ->
  (forall n, f_decl (f n) = f_decl n /\ f_lts (f n) = f_lts n /\ alike (f_data n) (f_data (f n))) -> clean g (upd g i f).
Proof.
  intros g i f H1 H2 H3. split.
  - intros j n' J P. rewrite upd_nth in J. destruct (Nat.eqb_spec j i) as [-> |]; [|left; eauto].
    destruct (nth_error g i) as [n|] eqn:E; [|discriminate]. injection J as <-.
    destruct (f_parent n) eqn:Q; [right; apply H1; congruence|left; eauto].
  - intros U j n' J. rewrite upd_nth in J. destruct (Nat.eqb_spec j i) as [-> |]; [|eauto].
    destruct (nth_error g i) as [n|] eqn:E; [|discriminate]. injection J as <-. destruct (H3 n) as (-> & -> & _). eauto.
  - intros j n' J. rewrite upd_nth in J. left. destruct (Nat.eqb_spec j i) as [-> |].
    + destruct (nth_error g i) as [n|] eqn:E; [|discriminate]. injection J as <-. exists n. split; auto. apply H3.
    + exists n'. split; auto. apply alike_refl.
Qed.
Lemma app_clean : forall g l, (forall n, In n l -> f_parent n <> None /\ f_decl n = None /\ f_lts n = [] /\ no_op (f_data n)) -> clean g (g ++ l).
Proof.
  intros g l H. split.
  - intros j n J P. destruct (le_lt_dec (length g) j) as [X|X].
    + rewrite nth_error_app2 in J by auto. apply nth_error_In in J. destruct (H _ J). contradiction.
    + rewrite nth_error_app1 in J by auto. left. eauto.
  - intros U j n J. destruct (le_lt_dec (length g) j) as [X|X].
    + rewrite nth_error_app2 in J by auto. apply nth_error_In in J. destruct (H _ J) as (_ & ? & ? & _). auto.
    + rewrite nth_error_app1 in J by auto. eauto.
  - intros j n J. destruct (le_lt_dec (length g) j) as [X|X].
    + rewrite nth_error_app2 in J by auto. apply nth_error_In in J. right. apply H; auto.
    + rewrite nth_error_app1 in J by auto. left. exists n. split; auto. apply alike_refl.
Qed.

Lemma sugar_at_clean : forall g i g', good g -> sugar_at i g = NOk g' -> clean g g'.
Proof.
  intros g i g' [T F Ft] R. unfold sugar_at in R. destruct (nth_error g i) as [x|] eqn:E; [|unfold at_ in R; rewrite E in R; discriminate].
  rewrite (at_some _ _ _ E) in R. cbn [nbind] in R.
  assert (forall g1, match f_children x, x_binops (f_data x) with
          | [_], _ => match unop_name (f_kind x) with Some name => rewrite_unop i name g | None => NOk g end
          | [_; _], [b] => rewrite_binop i (binop_name b) g
          | _, _ => NOk g
          end = NOk g1 -> clean g g1 /\ (g1 = g \/ forall n, nth_error g1 i = Some n -> f_kind n = K_Call)) as H.
  { intros g1 Q. destruct (f_children x) as [|c [|d [|? ?]]] eqn:C; try (injection Q as <-; split; [apply clean_refl|now left]).
    - destruct (unop_name (f_kind x)) as [name|] eqn:U; [|injection Q as <-; split; [apply clean_refl|now left]].
      assert (In c (f_children x)) as IC by (rewrite C; now left). destruct (to_child _ T _ _ _ E IC) as (cn & Hc & Pc).
      destruct (F i (nth_lt _ _ _ E)) as [ti Mi]. pose proof (not_own_child _ _ _ _ E Mi) as NI.
      assert (c <> i) as CI by (intros ->; auto).
      unfold rewrite_unop in Q. rewrite (at_some _ _ _ E) in Q. cbn [nbind] in Q. rewrite C in Q. cbn [at_ nth_error nbind] in Q. rewrite (at_some _ _ _ Hc) in Q. cbn [nbind] in Q.
      injection Q as <-. split.
      + eapply clean_trans; [|apply upd_clean].
        * apply upd_clean; [| |alk]; intros n N; rewrite E in N; injection N as <-; simpl; congruence.
        * intros n N. rewrite upd_other, Hc in N by auto. injection N as <-. simpl. congruence.
        * intros n N. rewrite upd_other, Hc in N by auto. injection N as <-. congruence.
        * alk.
      + right. intros n N. rewrite upd_other in N by auto. rewrite (upd_same _ _ _ _ E) in N. injection N as <-. reflexivity.
    - destruct (x_binops (f_data x)) as [|b [|? ?]] eqn:B; try (injection Q as <-; split; [apply clean_refl|now left]).
      assert (In c (f_children x)) as IL by (rewrite C; now left). assert (In d (f_children x)) as IR by (rewrite C; right; now left).
      destruct (to_child _ T _ _ _ E IL) as (ln & Hl & Pl). destruct (to_child _ T _ _ _ E IR) as (rn & Hr & Pr).
      unfold rewrite_binop in Q. rewrite (at_some _ _ _ E) in Q. cbn [nbind] in Q. rewrite C in Q. cbn [at_ nth_error nbind] in Q.
      rewrite (at_some _ _ _ Hl) in Q. cbn [nbind] in Q. rewrite (at_some _ _ _ Hr) in Q. cbn [nbind] in Q. injection Q as <-.
      destruct (F i (nth_lt _ _ _ E)) as [ti Mi]. pose proof (not_own_child _ _ _ _ E Mi) as NI.
      assert (c <> i) as CI by (intros ->; auto). assert (d <> i) as DI by (intros ->; auto).
      pose proof (nth_lt _ _ _ E) as LE. pose proof (nth_lt _ _ _ Hl). pose proof (nth_lt _ _ _ Hr).
      set (g0 := upd g i (with_data (fun d => with_binops [] (to_call (binop_name b) d)))).
      set (l2 := [FNode (blank K_CallArg None) (Some i) [c] None []; FNode (blank K_CallArg None) (Some i) [d] None []]).
      assert (nth_error (g0 ++ l2) i = Some (with_data (fun d => with_binops [] (to_call (binop_name b) d)) x)) as E1.
      { rewrite nth_error_app1 by (unfold g0; rewrite upd_len; auto). apply upd_same; auto. }
      split.
      + eapply clean_trans; [|apply upd_clean].
        * eapply clean_trans; [|apply upd_clean].
          -- eapply clean_trans; [|apply upd_clean].
             ++ eapply clean_trans; [|apply app_clean].
                ** apply upd_clean; [| |alk]; intros n N; rewrite E in N; injection N as <-; simpl; congruence.
                ** unfold l2. intros n [<-|[<-|[]]]; simpl; repeat split; discriminate.
             ++ intros n N _ X. discriminate.
             ++ intros n N X. unfold g0 in N. rewrite nth_error_app1, upd_other, Hl in N by (rewrite ?upd_len; auto). congruence.
             ++ alk.
          -- intros n N _ X. discriminate.
          -- intros n N X. rewrite upd_nth in N. destruct (Nat.eqb_spec d c) as [DC|DC].
             ++ destruct (nth_error (g0 ++ l2) d); [|discriminate]. injection N as <-. discriminate.
             ++ unfold g0 in N. rewrite nth_error_app1, upd_other, Hr in N by (rewrite ?upd_len; auto). congruence.
          -- alk.
        * intros n N X Y. simpl in Y; congruence.
        * intros n N X Y. rewrite !upd_other, E1 in N by auto. injection N as <-. simpl in Y. congruence.
        * alk.
      + right. intros n N. erewrite upd_same in N by (rewrite !upd_other by auto; exact E1). injection N as <-. reflexivity. }
  match type of R with nbind ?m _ = _ => destruct m as [g1| | |] eqn:Q; cbn [nbind] in R; try discriminate end.
  specialize (H g1 eq_refl) as [H1 H2].
  destruct (nth_error g1 i) as [x1|] eqn:E1; [|unfold at_ in R; rewrite E1 in R; discriminate].
  rewrite (at_some _ _ _ E1) in R. cbn [nbind] in R.
  destruct (f_children x1) as [|c [|? ?]] eqn:C; try (injection R as <-; auto).
  destruct (is_kind (f_kind x1) K_Add || is_kind (f_kind x1) K_Mul) eqn:K; [|injection R as <-; auto].
  apply orb_prop in K. rewrite !is_kind_true in K. destruct H2 as [X|H2]; [|specialize (H2 _ eq_refl); destruct K; congruence].
  subst g1. rewrite E in E1. injection E1 as <-.
  assert (In c (f_children x)) as IC by (rewrite C; now left). destruct (to_child _ T _ _ _ E IC) as (cn & Hc & Pc).
  unfold simplify in R. rewrite (at_some _ _ _ E) in R. cbn [nbind] in R. destruct (f_parent x) as [p|] eqn:P; [|injection R as <-; apply clean_refl].
  rewrite C in R. cbn [at_ nth_error nbind] in R. rewrite (at_some _ _ _ Hc) in R. cbn [nbind] in R.
  destruct (to_parent _ T _ _ _ E P) as (pn & Hp & Ip). rewrite (at_some _ _ _ Hp) in R. cbn [nbind] in R. injection R as <-.
  destruct (F i (nth_lt _ _ _ E)) as [ti Mi]. pose proof (not_own_child _ _ _ _ E Mi) as NI.
  assert (c <> i) as CI by (intros ->; auto).
  assert (p <> i) as PI. { intros ->. rewrite E in Hp. injection Hp as <-. auto. }
  eapply clean_trans; [|apply upd_clean].
  - eapply clean_trans; apply upd_clean; try solve [alk]; try (intros; congruence); try discriminate.
    { intros n N X Y. destruct (X Y). } intros n N X Y. unfold with_children. rewrite Y. destruct n; simpl in *; subst; reflexivity.
  - intros n N _ _. rewrite !upd_other, E in N by auto. injection N as <-. repeat split; auto.
  - intros n N X. rewrite !upd_other, E in N by auto. congruence.
  - alk.
Qed.

Lemma each_clean : forall f (I : fgraph -> Prop), (forall g i g', I g -> f i g = NOk g' -> clean g g') ->
  (forall g i, I g -> i < length g -> exists g', f i g = NOk g' /\ I g' /\ length g <= length g') ->
  forall l g g', I g -> (forall i, In i l -> i < length g) -> each f l g = NOk g' -> clean g g'.
Proof.
  intros f I H1 H2. induction l as [|i l IH]; intros g g' G L R; simpl in R.
  - injection R as <-. apply clean_refl.
  - destruct (H2 g i G) as (g1 & R1 & G1 & L1); [apply L; now left|]. rewrite R1 in R. cbn [nbind] in R.
    eapply clean_trans; [eapply H1; eauto|]. apply (IH g1 g'); auto. intros j J. specialize (L j (or_intror J)). lia.
Qed.
Lemma operators_clean : forall g g1 g2, good g -> nest g = NOk g1 -> sugar g1 = NOk g2 -> clean g g2.
Proof.
  intros g g1 g2 G R1 R2. destruct (nest_good g G) as (g1' & R1' & G1 & _ & _ & O1). rewrite R1 in R1'. injection R1' as <-.
  apply (clean_trans _ g1).
  - unfold nest in R1. eapply (each_clean nest_at good); eauto.
    + intros. eapply nest_at_clean; eauto.
    + intros h i Gh Li. destruct (nest_at_good h i Gh Li) as (h' & A & B & _ & C & _). eauto.
    + intros i I. apply in_seq in I. lia.
  - unfold sugar in R2. eapply (each_clean sugar_at (fun g => good g /\ forall j n, nth_error g j = Some n -> length (x_binops (f_data n)) <= 1)); eauto.
    + intros h i h' [Gh _] R. eapply sugar_at_clean; eauto.
    + intros h i [Gh Oh] Li. destruct (sugar_at_good h i Gh Oh Li) as (h' & A & B & _ & C & D & _). eauto 10.
    + intros i I. apply in_seq in I. lia.
Qed.
