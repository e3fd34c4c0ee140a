(** * Making closures keeps them well-formed. *)
From Coq Require Import String List ZArith Bool Arith Lia.
From Verif Require Import Float64 Syntax InterpModel WfSpec SyntaxProofs BalanceBase BalanceEval BalanceLoops.
Import ListNotations.
Local Open Scope string_scope.
Local Open Scope nat_scope.
Local Open Scope list_scope.

Section Grab.
Context (chk : bool) (E : env) (arity : string -> nat).
Notation wpq := (wp (quiet chk)).
Notation wf_v := (wf_v chk E arity).
Notation wf := (wf chk E arity).
Notation wf_item := (wf_item chk E arity).
Notation wf_idx := (wf_idx chk E arity).
Notation wf_clo := (wf_clo chk E arity).
Notation wf_state := (wf_state chk E arity).
Notation ready := (ready chk E arity).
Notation bal := (bal chk E arity).
Notation abv := (abv chk E arity).
Notation errs := (errs chk E arity).
Notation target := (target E).
Notation valued := (valued E).
Notation arg_ok := (arg_ok E).
Notation wfo := (wfo chk E arity).
Notation bpost := (bpost chk E arity).
Notation evspec := (evspec chk E arity).

(** The variable declared by an assignment to this left side. *)
Definition decl_of (l : expr) : option (string * bool) :=
  match l with EItem (Item name _ current _ [] _) => Some (name, current) | _ => None end.
Lemma adds_assign : forall op l r, adds (EAssign op l r) =
  match op, decl_of l with OpAssign, Some (x, _) => [Some x] | _, _ => [] end.
Proof. intros op l r. destruct op; auto. destruct l; auto. destruct it. destruct ids; auto. Qed.
Lemma adds_current_assign : forall op l r, adds_current (EAssign op l r) =
  match op, decl_of l with OpAssign, Some (x, true) => [x] | _, _ => [] end.
Proof. intros op l r. destruct op; auto. destruct l; auto. destruct it. destruct ids; destruct current; auto. Qed.
Lemma wf_assign : forall md fi outer cs op l r, wf md fi outer cs (EAssign op l r) =
  match op, decl_of l with
  | OpAssign, Some _ => wf md fi outer cs r
  | _, _ => wf md fi outer cs l /\ wf md fi outer cs r
  end.
Proof. intros. destruct op; auto. destruct l; auto. destruct it. destruct ids; auto. Qed.

(** ** Forgetting the outermost scopes *)

Lemma thread_ok_imp : forall (f g : scope -> expr -> Prop) add l cs,
  Forall (fun e => forall cs, f cs e -> g cs e) l -> thread_ok f add cs l -> thread_ok g add cs l.
Proof. intros f g add l. induction l as [|e l IH]; intros cs H Ht; simpl in *; auto. inversion H; subst. destruct Ht. split; auto. Qed.
Lemma all_ok_imp : forall {A} (f g : A -> Prop) l, Forall (fun e => f e -> g e) l -> all_ok f l -> all_ok g l.
Proof. intros A f g l. induction l as [|e l IH]; intros H Ht; simpl in *; auto. inversion H; subst. destruct Ht. split; auto. Qed.
Lemma ids_ok_imp : forall (f g : scope -> idx -> Prop) l cs,
  Forall (fun e => forall cs, f cs e -> g cs e) l -> ids_ok f cs l -> ids_ok g cs l.
Proof. intros f g l. induction l as [|e l IH]; intros cs H Ht; simpl in *; auto. inversion H; subst. destruct Ht. split; auto. Qed.

Ltac spec_all H := eapply Forall_impl; [|exact H]; simpl; auto.

Lemma wf_drop_all :
  (forall v : value, True) /\
  (forall e, forall md fi os ex cs, wf md fi (os ++ ex) cs e -> wf md fi os cs e) /\
  (forall it, forall md fi os ex cs, wf_item md fi (os ++ ex) cs it -> wf_item md fi os cs it) /\
  (forall i, forall md fi os ex cs, wf_idx md fi (os ++ ex) cs i -> wf_idx md fi os cs i) /\
  (forall c, forall md fi os ex, wf_clo md fi (os ++ ex) c -> wf_clo md fi os c).
Proof.
  assert (forall l md fi os ex add cs,
    Forall (fun e => forall md fi os ex cs, wf md fi (os ++ ex) cs e -> wf md fi os cs e) l ->
    thread_ok (wf md fi (os ++ ex)) add cs l -> thread_ok (wf md fi os) add cs l) as HT.
  { intros l md fi os ex add cs H. apply thread_ok_imp. eapply Forall_impl; [|exact H]. simpl. intros; eauto. }
  assert (forall l md fi os ex cs,
    Forall (fun e => forall md fi os ex cs, wf md fi (os ++ ex) cs e -> wf md fi os cs e) l ->
    all_ok (wf md fi (os ++ ex) cs) l -> all_ok (wf md fi os cs) l) as HA.
  { intros l md fi os ex cs H. apply all_ok_imp. eapply Forall_impl; [|exact H]. simpl. intros; eauto. }
  apply syntax_ind; try (intros; exact I).
  - (* ELink *) intros l H md fi os ex cs [Hw Hc]. split; [|exact Hc]. exact (HT _ _ _ _ _ _ _ H Hw).
  - intros l H md fi os ex cs Hw. change (all_ok (fun kv => match kv with (_, x) => wf md fi os cs x end) l).
    change (all_ok (fun kv => match kv with (_, x) => wf md fi (os ++ ex) cs x end) l) in Hw.
    eapply all_ok_imp; [|exact Hw]. eapply Forall_impl; [|exact H]. intros [k x]. simpl. intros; eauto.
  - intros l H md fi os ex cs Hw. exact (HA _ _ _ _ _ _ H Hw).
  - intros a b Ha Hb md fi os ex cs [Hw1 Hw2]. split; [exact (Ha md fi os ex cs Hw1)|exact (Hb md fi os ex cs Hw2)].
  - intros e H md fi os ex cs Hw. exact (H md fi os ex cs Hw).
  - intros l H md fi os ex cs Hw. exact (HT _ _ _ _ _ _ _ H Hw).
  - intros n l H md fi os ex cs Hw. exact (HA _ _ _ _ _ _ H Hw).
  - intros f n l H md fi os ex cs Hw. destruct f.
    all: first [exact (HA _ _ _ _ _ _ H Hw)
      |destruct Hw as [Hw1 Hw2]; split; [exact (HA _ _ _ _ _ _ H Hw1)|exact Hw2]
      |destruct Hw as [Hw1 Hw2]; split; [exact Hw1|exact (HT _ _ _ _ _ _ _ H Hw2)]
      |destruct Hw as [Hw1 Hw2]; split; [exact (HT _ _ _ _ _ _ _ H Hw1)|exact Hw2]].
  - intros it H md fi os ex cs Hw. exact (H md fi os ex cs Hw).
  - intros op a b Ha Hb md fi os ex cs Hw. rewrite wf_assign in *.
    destruct op; try (destruct Hw; split; eauto; fail). destruct (decl_of a); eauto. destruct Hw; split; eauto.
  - intros l H md fi os ex cs (Hw1 & Hw2 & Hw3). split; [exact (HT _ _ _ _ _ _ _ H Hw1)|]. split; [exact Hw2|exact Hw3].
  - intros l H md fi os ex cs (Hw1 & Hw2 & Hw3). split; [exact (HT _ _ _ _ _ _ _ H Hw1)|]. split; [exact Hw2|exact Hw3].
  - intros lb a b c l Ha Hb Hc Hl md fi os ex cs (W1 & W2 & W3 & W4 & W5 & W6 & W7).
    split; [exact (Ha md fi os ex _ W1)|]. split; [exact (Hb md fi os ex _ W2)|]. split; [exact (Hc md fi os ex _ W3)|].
    split; [exact (HT _ _ _ _ _ _ _ Hl W4)|]. split; [exact W5|]. split; [exact W6|exact W7].
  - intros k lb n a b l Ha Hb Hl md fi os ex cs (W1 & W2 & W3 & W4).
    split; [destruct a; [exact (Ha md fi os ex _ W1)|exact I]|]. split; [exact (Hb md fi os ex _ W2)|].
    split; [exact (HT _ _ _ _ _ _ _ Hl W3)|exact W4].
  - intros k lb n a l Ha Hl md fi os ex cs (W1 & W2 & W3).
    split; [exact (Ha md fi os ex _ W1)|]. split; [exact (HT _ _ _ _ _ _ _ Hl W2)|exact W3].
  - intros c tb cs' bs eb Hc Ht Hcs Hbs Heb md fi os ex cs (W1 & W2 & W3 & W4 & W5).
    split; [exact (Hc md fi os ex _ W1)|]. split; [exact (HT _ _ _ _ _ _ _ Ht W2)|].
    split; [exact (HA _ _ _ _ _ _ Hcs W3)|]. split.
    + eapply all_ok_imp; [|exact W4]. eapply Forall_impl; [|exact Hbs]. simpl. intros b H Hb. exact (HT _ _ _ _ _ _ _ H Hb).
    + destruct eb as [b|]; [|exact I]. exact (HT _ _ _ _ _ _ _ Heb W5).
  - intros v _ md fi os ex cs Hw. exact Hw.
  - intros e H md fi os ex cs Hw. exact (H md fi os ex cs Hw).
  - intros i e H md fi os ex cs [W1 W2]. split; [exact (H md fi os ex cs W1)|exact W2].
  - intros c H md fi os ex cs Hw. exact (H md fi (cs :: os) ex Hw).
  - intros it l Hi Hl md fi os ex cs (W1 & W2 & W3). split; [exact (Hi md fi os ex cs W1)|].
    split; [exact (HT _ _ _ _ _ _ _ Hl W2)|exact W3].
  - intros n e H md fi os ex cs Hw. destruct n as [|k]; [exact I|].
    change (match nth_error (os ++ ex) k with Some cs' => wf md fi (skipn (S k) (os ++ ex)) cs' e | None => True end) in Hw.
    change (match nth_error os k with Some cs' => wf md fi (skipn (S k) os) cs' e | None => True end).
    destruct (nth_error os k) as [cs'|] eqn:N; [|exact I].
    assert (k < length os) as L by (apply nth_error_Some; congruence).
    rewrite nth_error_app1, N, skipn_app in Hw by auto.
    replace (S k - length os) with 0 in Hw by lia. exact (H md fi _ ex cs' Hw).
  - intros e H md fi os ex cs Hw. exact (H md fi os ex cs Hw).
  - intros f md fi os ex cs Hw. exact Hw.
  - intros n s c t ids ti H md fi os ex cs [W1 W2]. split; [exact W1|].
    apply (ids_ok_imp (wf_idx md fi (os ++ ex))); [|exact W2]. eapply Forall_impl; [|exact H].
    intros i Hi cs' Hx. exact (Hi md fi os ex cs' Hx).
  - intros e H md fi os ex cs Hw. exact (H md fi os ex cs Hw).
  - intros a c b H md fi os ex [W1 W2]. split; [exact (H md fi os ex _ W1)|exact W2].
Qed.
Lemma wf_drop : forall e md fi os ex cs, wf md fi (os ++ ex) cs e -> wf md fi os cs e.
Proof. apply wf_drop_all. Qed.

(** ** Expressions that look the same from outside *)

Definition same (md fi : nat) (e e' : expr) : Prop :=
  adds e' = adds e /\ adds_current e' = adds_current e /\ valued md fi e' = valued md fi e /\
  is_swizzle e' = is_swizzle e /\ width e' = width e /\ decl_of e' = decl_of e /\
  link_head e' = link_head e.
Lemma same_refl : forall md fi e, same md fi e e.
Proof. intros. unfold same. splits; auto. Qed.

Lemma Forall2_len : forall {A B} (R : A -> B -> Prop) l l', Forall2 R l l' -> length l = length l'.
Proof. intros A B R l l' H. induction H; simpl; auto. Qed.
Lemma same_lastb : forall md fi l l', Forall2 (same md fi) l l' -> lastb (valued md fi) l' = lastb (valued md fi) l.
Proof.
  intros md fi l l' H. induction H as [|e e' l l' H1 H2 IH]; auto. inversion H2; subst.
  - simpl. apply H1.
  - exact IH.
Qed.
Lemma same_widths : forall md fi l l', Forall2 (same md fi) l l' -> widths l' = widths l.
Proof.
  intros md fi l l' H. induction H as [|e e' l l' (_ & _ & _ & _ & H1 & _) H2 IH]; auto. simpl. rewrite H1, IH. auto.
Qed.
Lemma same_fills : forall md fi l l', Forall2 (same md fi) l l' -> forall k, fills k l' = fills k l.
Proof.
  intros md fi l l' H. induction H as [|e e' l l' (_ & _ & _ & _ & H1 & _) H2 IH]; auto. intros k. simpl. rewrite H1, IH. auto.
Qed.
Lemma same_args : forall md fi l l', Forall2 (same md fi) l l' -> all_ok (arg_ok md fi) l -> all_ok (arg_ok md fi) l'.
Proof.
  intros md fi l l' H. induction H as [|e e' l l' (_ & _ & H1 & H1' & _ & _) H2 IH]; auto.
  intros [A B]. split; auto. unfold WfSpec.arg_ok in *. rewrite H1, H1'. auto.
Qed.
Lemma same_body : forall md fi l l', Forall2 (same md fi) l l' -> link_body l -> link_body l'.
Proof.
  intros md fi l l' H. rewrite !link_body_head. destruct H as [|e e' l l' (_ & _ & _ & _ & _ & _ & H1) H2]; auto.
  rewrite H1. auto.
Qed.
Lemma same_body_in : forall md fi l l', Forall2 (same md fi) l l' -> link_body_in l -> link_body_in l'.
Proof.
  intros md fi l l' H. rewrite !link_body_in_head. destruct H as [|e e' l l' (_ & _ & _ & _ & _ & _ & H1) H2]; auto.
  rewrite H1. auto.
Qed.
Lemma same_currents : forall md fi l l', Forall2 (same md fi) l l' ->
  all_ok (fun e => adds_current e = []) l -> all_ok (fun e => adds_current e = []) l'.
Proof.
  intros md fi l l' H. induction H as [|e e' l l' (_ & H1 & _) H2 IH]; auto.
  intros [A B]. split; auto. congruence.
Qed.
Lemma same_adds : forall md fi e e', same md fi e e' -> adds e' = adds e.
Proof. intros md fi e e' H. apply H. Qed.
Lemma same_temps : forall md fi e e', same md fi e e' -> temps e' = temps e.
Proof. intros md fi e e' (_ & _ & _ & _ & H & _). unfold temps. rewrite H. auto. Qed.

Section WithEv.
Variable ev : expr -> side -> M res.
Hypothesis HE : evspec ev.

Definition gpost {A} (R : A -> Prop) (s : rt) (g : gres A) (s' : rt) : Prop :=
  match g with GOk a => R a /\ bal s s' | GRet x => wfo x /\ abv s s' end.

Lemma wp_gbind : forall {A B} (R : A -> Prop) (R' : B -> Prop) m (k : A -> M (gres B)) s,
  wpq m s (gpost R s) (errs s) ->
  (forall a s', R a -> bal s s' -> wpq (k a) s' (gpost R' s') (errs s')) ->
  wpq (gbind m k) s (gpost R' s) (errs s).
Proof.
  intros A B R R' m k s H Hk. unfold gbind. apply wp_bind. eapply wp_mono; [exact H| |auto].
  intros g s1 H1. destruct g as [a|x].
  - destruct H1 as [H1 H2]. eapply wp_mono; [apply Hk; eauto| |].
    + intros g s2 H3. destruct g; destruct H3 as [H3 H4]; split; auto; [eapply plus_bal; eauto|eapply plus_abv_trans; eauto].
    + intros s2 H3. eapply plus_errs_trans; eauto.
  - apply wp_ret. exact H1.
Qed.
Lemma wp_gret : forall {A} (R : A -> Prop) a s, R a -> wf_state s -> wpq (gret a) s (gpost R s) (errs s).
Proof. intros. apply wp_ret. split; auto. apply bal_refl; auto. Qed.
Lemma wp_gmap : forall {A B} (f : A -> M (gres B)) (R : A -> B -> Prop) md fi cs0 l s,
  Forall (fun x => forall s, ready md fi cs0 s -> wpq (f x) s (gpost (R x) s) (errs s)) l ->
  ready md fi cs0 s -> wpq (gmap f l) s (gpost (Forall2 R l) s) (errs s).
Proof.
  intros A B f R md fi cs0 l. induction l as [|x l IH]; intros s H Hr; cbn [gmap].
  - apply wp_gret; [constructor|eapply ready_wf; eauto].
  - inversion H; subst. eapply wp_gbind; [apply H2; auto|]. intros y s1 Hy Hb.
    assert (ready md fi cs0 s1) as Hr1 by (eapply ready_bal; eauto).
    eapply wp_gbind; [apply IH; auto|]. intros l' s2 Hl' Hb2. apply wp_gret; [constructor; auto|].
    apply (proj1 Hb2).
Qed.

Variables (md fi fuel : nat) (cs0 : scope).

(** The claims about grabbing. *)
Definition Ge (e : expr) : Prop := forall os cs s,
  wf md fi (os ++ [cs0]) cs e -> ready md fi cs0 s ->
  wpq (grab_expr ev fuel (S (length os)) e) s (gpost (fun e' => wf md fi os cs e' /\ same md fi e e') s) (errs s).
Definition Gi (it : item) : Prop := forall os cs s,
  wf_item md fi (os ++ [cs0]) cs it -> ready md fi cs0 s ->
  wpq (grab_item ev fuel (S (length os)) it) s
     (gpost (fun it' => wf_item md fi os cs it' /\ decl_of (EItem it') = decl_of (EItem it)) s) (errs s).
Definition Gx (i : idx) : Prop := forall os cs s,
  wf_idx md fi (os ++ [cs0]) cs i -> ready md fi cs0 s ->
  wpq (grab_idx ev fuel (S (length os)) i) s
     (gpost (fun i' => wf_idx md fi os cs i' /\
        (match i with IdExpr _ => true | _ => false end = match i' with IdExpr _ => true | _ => false end)) s) (errs s).
Definition Gc (c : closure) : Prop := forall os s,
  wf_clo md fi (os ++ [cs0]) c -> ready md fi cs0 s ->
  wpq (grab_closure ev fuel (length os) c) s (gpost (fun c' => wf_clo md fi os c') s) (errs s).

Lemma grab_thread : forall add (Hadd : forall e e', same md fi e e' -> add e' = add e) os l cs s,
  Forall Ge l -> thread_ok (wf md fi (os ++ [cs0])) add cs l -> ready md fi cs0 s ->
  wpq (gmap (grab_expr ev fuel (S (length os))) l) s
     (gpost (fun l' => thread_ok (wf md fi os) add cs l' /\ Forall2 (same md fi) l l') s) (errs s).
Proof.
  intros add Hadd os l. induction l as [|e l IH]; intros cs s HG Hw Hr; cbn [gmap].
  - apply wp_gret; [split; [exact I|constructor]|eapply ready_wf; eauto].
  - destruct Hw as [Hw Hw']. inversion HG; subst.
    eapply wp_gbind; [apply H1; eauto|]. intros e' s1 [He1 He2] Hb.
    assert (ready md fi cs0 s1) as Hr1 by (eapply ready_bal; eauto).
    eapply wp_gbind; [apply (IH (add e ++ cs)); auto|]. intros l' s2 [Hl1 Hl2] Hb2.
    apply wp_gret; [|apply (proj1 Hb2)]. split; [|constructor; auto].
    split; [exact He1|]. rewrite (Hadd e e'); auto.
Qed.
Lemma grab_all : forall os l cs s,
  Forall Ge l -> all_ok (wf md fi (os ++ [cs0]) cs) l -> ready md fi cs0 s ->
  wpq (gmap (grab_expr ev fuel (S (length os))) l) s
     (gpost (fun l' => all_ok (wf md fi os cs) l' /\ Forall2 (same md fi) l l') s) (errs s).
Proof.
  intros os l. induction l as [|e l IH]; intros cs s HG Hw Hr; cbn [gmap].
  - apply wp_gret; [split; [exact I|constructor]|eapply ready_wf; eauto].
  - destruct Hw as [Hw Hw']. inversion HG; subst.
    eapply wp_gbind; [apply H1; eauto|]. intros e' s1 [He1 He2] Hb.
    assert (ready md fi cs0 s1) as Hr1 by (eapply ready_bal; eauto).
    eapply wp_gbind; [apply (IH cs); auto|]. intros l' s2 [Hl1 Hl2] Hb2.
    apply wp_gret; [|apply (proj1 Hb2)]. split; [|constructor; auto]. split; auto.
Qed.

Lemma grab_ok : (forall v : value, True) /\ (forall e, Ge e) /\ (forall it, Gi it) /\ (forall i, Gx i) /\ (forall c, Gc c).
Proof.
  apply syntax_ind; auto; try (intros; exact I).
  - (* ELink *) intros l H os cs s [Hw Hc] Hr. cbn [grab_expr].
    eapply wp_gbind; [eapply (grab_thread adds (same_adds md fi)); eauto|]. intros l' s1 [A B] Hb.
    apply wp_gret; [|apply (proj1 Hb)]. split; [split; [exact A|eapply same_currents; eauto]|].
    unfold same. splits; auto.
  - (* EObject *) intros l H os cs s Hw Hr. cbn [grab_expr].
    change (all_ok (fun kv => match kv with (_, x) => wf md fi (os ++ [cs0]) cs x end) l) in Hw.
    eapply wp_gbind.
    + eapply (wp_gmap _ (fun kv kv' => wf md fi os cs (snd kv')) md fi cs0); [|exact Hr].
      rewrite all_ok_Forall in Hw. rewrite Forall_forall in *. intros [k x] Hin s1 Hr1.
      specialize (Hw _ Hin). specialize (H _ Hin). simpl in *.
      eapply wp_gbind; [apply H; eauto|]. intros x' s2 [A B] Hb. apply wp_gret; [exact A|apply (proj1 Hb)].
    + intros l' s1 A Hb. apply wp_gret; [|apply (proj1 Hb)]. split; [|unfold same; splits; auto].
      change (all_ok (fun kv => match kv with (_, x) => wf md fi os cs x end) l'). clear - A.
      induction A as [|[k x] [k' x'] l l' A1 A2 IH]; simpl; auto.
  - (* EArray *) intros l H os cs s Hw Hr. cbn [grab_expr].
    eapply wp_gbind; [eapply grab_all; eauto|]. intros l' s1 [A B] Hb.
    apply wp_gret; [|apply (proj1 Hb)]. split; [exact A|]. unfold same. splits; auto.
  - (* EArrayFill *) intros a b Ha Hb os cs s [Hw1 Hw2] Hr. cbn [grab_expr].
    eapply wp_gbind; [apply Ha; eauto|]. intros a' s1 [A1 A2] B1.
    assert (ready md fi cs0 s1) as Hr1 by (eapply ready_bal; eauto).
    eapply wp_gbind; [apply Hb; eauto|]. intros b' s2 [A3 A4] B2.
    apply wp_gret; [|apply (proj1 B2)]. split; [split; [exact A1|exact A3]|]. unfold same. splits; auto.
  - intros e H os cs s Hw Hr. cbn [grab_expr]. eapply wp_gbind; [apply (H os cs s Hw); eauto|]. intros e' s1 [A B] Hb.
    apply wp_gret; [|apply (proj1 Hb)]. split; [exact A|]. unfold same. splits; auto.
  - intros os cs s Hw Hr. cbn [grab_expr]. apply wp_gret; [|eapply ready_wf; eauto]. split; [exact I|apply same_refl].
  - intros l os cs s Hw Hr. cbn [grab_expr]. apply wp_gret; [|eapply ready_wf; eauto]. split; [exact I|apply same_refl].
  - intros l os cs s Hw Hr. cbn [grab_expr]. apply wp_gret; [|eapply ready_wf; eauto]. split; [exact I|apply same_refl].
  - (* EBlock *) intros l H os cs s Hw Hr. cbn [grab_expr].
    eapply wp_gbind; [eapply (grab_thread adds (same_adds md fi)); eauto|]. intros l' s1 [A B] Hb.
    apply wp_gret; [|apply (proj1 Hb)]. split; [exact A|]. unfold same. splits; auto.
    change (lastb (valued md fi) l' = lastb (valued md fi) l). apply same_lastb; auto.
  - intros n l H os cs s Hw Hr. cbn [grab_expr].
    eapply wp_gbind; [eapply grab_all; eauto|]. intros l' s1 [A B] Hb.
    apply wp_gret; [|apply (proj1 Hb)]. split; [exact A|]. unfold same. splits; auto.
  - (* ECall *) intros f n l H os cs s Hw Hr. cbn [grab_expr].
    assert (forall l', same md fi (ECall f n l) (ECall f n l')) as Sm by (intros; unfold same; splits; auto).
    destruct f.
    all: try (eapply wp_gbind; [eapply grab_all; [exact H|exact Hw|exact Hr]|]; intros l' s1 [A B] Hb;
      apply wp_gret; [|apply (proj1 Hb)]; split; [exact A|apply Sm]).
    all: try (destruct Hw as [Hw1 Hw2]; eapply wp_gbind; [eapply grab_all; [exact H|exact Hw1|exact Hr]|]; intros l' s1 [A B] Hb;
      apply wp_gret; [|apply (proj1 Hb)]; split; [split; [exact A|rewrite <- (Forall2_len _ _ _ B); exact Hw2]|apply Sm]).
    all: try (destruct Hw as [Hw1 Hw2]; eapply wp_gbind;
      [eapply (grab_thread temps (same_temps md fi)); [exact H|exact Hw2|exact Hr]|]; intros l' s1 [A B] Hb;
      apply wp_gret; [|apply (proj1 Hb)]; split; [split; [rewrite Hw1; eapply Forall2_len; eauto|exact A]|apply Sm]).
    destruct Hw as [Hw1 Hw2]. eapply wp_gbind; [eapply (grab_thread temps (same_temps md fi)); [exact H|exact Hw1|exact Hr]|].
    intros l' s1 [A B] Hb. apply wp_gret; [|apply (proj1 Hb)]. split; [split; [exact A|]|apply Sm].
    intros C. destruct (Hw2 C) as [C1 C2]. split; [eapply same_args; eauto|].
    rewrite (same_widths _ _ _ _ B). exact C2.
  - intros it H os cs s Hw Hr. cbn [grab_expr]. eapply wp_gbind; [apply (H os cs s Hw); eauto|]. intros it' s1 [A B] Hb.
    apply wp_gret; [|apply (proj1 Hb)]. split; [exact A|]. unfold same. splits; auto.
  - (* EAssign *) intros op a b Ha Hb os cs s Hw Hr. rewrite wf_assign in Hw. cbn [grab_expr].
    assert (wf md fi (os ++ [cs0]) cs a /\ wf md fi (os ++ [cs0]) cs b \/ op = OpAssign /\ decl_of a <> None /\ wf md fi (os ++ [cs0]) cs b) as K.
    { destruct op; auto. destruct (decl_of a); auto. right. splits; auto. discriminate. }
    clear Hw. assert (wf md fi (os ++ [cs0]) cs b) as Wb by (destruct K as [[? ?]|(? & ? & ?)]; auto).
    eapply wp_gbind with (R := fun a' => same md fi a a' /\ (wf md fi (os ++ [cs0]) cs a -> wf md fi os cs a')).
    { destruct K as [[Wa _]|(_ & D & _)].
      - eapply wp_mono; [apply (Ha os cs s Wa Hr)| |auto]. intros g s1 H1. destruct g; auto. destruct H1 as [[A B] C].
        split; [split; auto|exact C].
      - destruct a; try (exfalso; apply D; reflexivity). destruct it as [name sid cur tf ids ti].
        destruct ids; [|exfalso; apply D; reflexivity]. cbn [grab_expr grab_item gmap].
        eapply wp_gbind with (R := fun it' => it' = Item name sid cur tf [] ti).
        + eapply wp_gbind with (R := fun l => l = []); [apply wp_gret; auto; eapply ready_wf; eauto|].
          intros x s1 -> B. apply wp_gret; auto. apply (proj1 B).
        + intros x s1 -> B. apply wp_gret; [|apply (proj1 B)]. split; [apply same_refl|]. apply wf_drop. }
    intros a' s1 [A1 A2] B1. assert (ready md fi cs0 s1) as Hr1 by (eapply ready_bal; eauto).
    eapply wp_gbind; [apply (Hb os cs s1 Wb Hr1)|]. intros b' s2 [A3 A4] B2.
    apply wp_gret; [|apply (proj1 B2)].
    destruct A1 as (D1 & D2 & D3 & D4 & D5 & D6 & D7). split.
    + rewrite wf_assign, D6. destruct K as [[Wa _]|(-> & D & _)].
      * destruct op; auto. destruct (decl_of a); auto.
      * destruct (decl_of a); [exact A3|congruence].
    + unfold same. rewrite !adds_assign, !adds_current_assign, D6. splits; auto.
  - (* EVec4 *) intros l H os cs s (Hw1 & Hw2 & Hw3) Hr. cbn [grab_expr].
    eapply wp_gbind; [eapply (grab_thread temps (same_temps md fi)); eauto|]. intros l' s1 [A B] Hb.
    apply wp_gret; [|apply (proj1 Hb)]. split; [|unfold same; splits; auto].
    split; [exact A|]. split; [eapply same_args; eauto|]. rewrite (same_fills _ _ _ _ B). exact Hw3.
  - intros l H os cs s (Hw1 & Hw2 & Hw3) Hr. cbn [grab_expr].
    eapply wp_gbind; [eapply (grab_thread temps (same_temps md fi)); eauto|]. intros l' s1 [A B] Hb.
    apply wp_gret; [|apply (proj1 Hb)]. split; [|unfold same; splits; auto].
    split; [exact A|]. split; [eapply same_args; eauto|]. rewrite (same_widths _ _ _ _ B). exact Hw3.
  - (* EFor *) intros lb a b c l Ha Hb Hc Hl os cs s (W1 & W2 & W3 & W4 & W5 & W6 & W7) Hr. cbn [grab_expr].
    eapply wp_gbind; [apply (Ha os cs s W1 Hr)|]. intros a' s1 [A1 (D1 & D2 & _)] B1.
    assert (ready md fi cs0 s1) as Hr1 by (eapply ready_bal; eauto).
    eapply wp_gbind; [apply (Hb os _ s1 W2 Hr1)|]. intros b' s2 [A2 _] B2.
    assert (ready md fi cs0 s2) as Hr2 by (eapply ready_bal; eauto).
    eapply wp_gbind; [apply (Hc os _ s2 W3 Hr2)|]. intros c' s3 [A3 (D3 & D4 & _)] B3.
    assert (ready md fi cs0 s3) as Hr3 by (eapply ready_bal; eauto).
    eapply wp_gbind; [eapply (grab_thread adds (same_adds md fi)); eauto|]. intros l' s4 [A4 _] B4.
    apply wp_gret; [|apply (proj1 B4)]. split; [|unfold same; splits; auto].
    split; [exact A1|]. rewrite D1. split; [exact A2|]. split; [exact A3|]. split; [exact A4|].
    rewrite D2, D3, D4. split; [exact W5|]. split; [exact W6|exact W7].
  - (* EForN *) intros k lb n a b l Ha Hb Hl os cs s (W1 & W2 & W3 & W4) Hr. cbn [grab_expr].
    eapply wp_gbind with (R := fun a' => match a' with Some x => wf md fi os cs x | None => True end).
    { destruct a as [a|]; simpl.
      - eapply wp_gbind; [apply (Ha os cs s W1 Hr)|]. intros a' s1 [A1 _] B1. apply wp_gret; [exact A1|apply (proj1 B1)].
      - apply wp_gret; [exact I|eapply ready_wf; eauto]. }
    intros a' s1 A1 B1. assert (ready md fi cs0 s1) as Hr1 by (eapply ready_bal; eauto).
    eapply wp_gbind; [apply (Hb os _ s1 W2 Hr1)|]. intros b' s2 [A2 _] B2.
    assert (ready md fi cs0 s2) as Hr2 by (eapply ready_bal; eauto).
    eapply wp_gbind; [eapply (grab_thread adds (same_adds md fi)); eauto|]. intros l' s4 [A4 S4] B4.
    apply wp_gret; [|apply (proj1 B4)]. split; [|unfold same; splits; auto].
    split; [exact A1|]. split; [exact A2|]. split; [exact A4|]. intros C K. eapply same_body; eauto.
  - (* EForIn *) intros k lb n a l Ha Hl os cs s (W1 & W2 & W3) Hr. cbn [grab_expr].
    eapply wp_gbind; [apply (Ha os _ s W1 Hr)|]. intros a' s1 [A1 _] B1.
    assert (ready md fi cs0 s1) as Hr1 by (eapply ready_bal; eauto).
    eapply wp_gbind; [eapply (grab_thread adds (same_adds md fi)); eauto|]. intros l' s4 [A4 S4] B4.
    apply wp_gret; [|apply (proj1 B4)]. split; [|unfold same; splits; auto].
    split; [exact A1|]. split; [exact A4|]. intros C. destruct (W3 C) as (K1 & K2 & K3). splits; auto.
    intros K. eapply same_body_in; eauto.
  - (* EIf *) intros c tb cs' bs eb Hc Ht Hcs Hbs Heb os cs s (W1 & W2 & W3 & W4 & W5) Hr. cbn [grab_expr].
    eapply wp_gbind; [apply (Hc os _ s W1 Hr)|]. intros c' s1 [A1 _] B1.
    assert (ready md fi cs0 s1) as Hr1 by (eapply ready_bal; eauto).
    eapply wp_gbind; [eapply (grab_thread adds (same_adds md fi)); eauto|]. intros tb' s2 [A2 S2] B2.
    assert (ready md fi cs0 s2) as Hr2 by (eapply ready_bal; eauto).
    eapply wp_gbind; [eapply grab_all; eauto|]. intros cs2 s3 [A3 _] B3.
    assert (ready md fi cs0 s3) as Hr3 by (eapply ready_bal; eauto).
    eapply wp_gbind.
    { eapply (wp_gmap _ (fun b b' => thread_ok (wf md fi os) adds cs b' /\ Forall2 (same md fi) b b') md fi cs0); [|exact Hr3].
      change (all_ok (thread_ok (wf md fi (os ++ [cs0])) adds cs) bs) in W4.
      rewrite all_ok_Forall in W4. rewrite Forall_forall in *. intros b Hin sx Hrx.
      eapply (grab_thread adds (same_adds md fi)); eauto. }
    intros bs' s4 A4 B4. assert (ready md fi cs0 s4) as Hr4 by (eapply ready_bal; eauto).
    eapply wp_gbind with (R := fun eb' => match eb' with Some b => thread_ok (wf md fi os) adds cs b | None => True end /\
       match eb' with Some b => lastb (valued md fi) b | None => false end = match eb with Some b => lastb (valued md fi) b | None => false end).
    { destruct eb as [b|]; simpl.
      - eapply wp_gbind; [eapply (grab_thread adds (same_adds md fi)); eauto|]. intros b' s5 [A5 S5] B5.
        apply wp_gret; [|apply (proj1 B5)]. split; [exact A5|apply same_lastb; auto].
      - apply wp_gret; [auto|eapply ready_wf; eauto]. }
    intros eb' s5 [A5 S5] B5. apply wp_gret; [|apply (proj1 B5)]. split.
    + split; [exact A1|]. split; [exact A2|]. split; [exact A3|]. split; [|exact A5].
      change (all_ok (thread_ok (wf md fi os) adds cs) bs'). clear - A4. induction A4; simpl; auto. destruct H. split; auto.
    + unfold same. splits; auto.
      change (lastb (valued md fi) tb' && forallb (lastb (valued md fi)) bs' &&
          match eb' with Some b => lastb (valued md fi) b | None => false end =
          lastb (valued md fi) tb && forallb (lastb (valued md fi)) bs &&
          match eb with Some b => lastb (valued md fi) b | None => false end)%bool.
      rewrite S5, (same_lastb _ _ _ _ S2). f_equal. f_equal. clear - A4. induction A4 as [|b b' bs bs' [A B] C IH]; simpl; auto.
      rewrite (same_lastb _ _ _ _ B), IH. auto.
  - (* EVar *) intros v _ os cs s Hw Hr. cbn [grab_expr]. apply wp_gret; [|eapply ready_wf; eauto]. split; [exact Hw|apply same_refl].
  - intros e H os cs s Hw Hr. cbn [grab_expr]. eapply wp_gbind; [apply (H os cs s Hw); eauto|]. intros e' s1 [A B] Hb.
    apply wp_gret; [|apply (proj1 Hb)]. split; [exact A|]. unfold same. splits; auto.
  - intros i e H os cs s [Hw Hi] Hr. cbn [grab_expr]. eapply wp_gbind; [apply (H os cs s Hw); eauto|]. intros e' s1 [A B] Hb.
    apply wp_gret; [|apply (proj1 Hb)]. split; [split; [exact A|exact Hi]|]. unfold same. splits; auto.
  - (* EClosure *) intros c H os cs s Hw Hr. cbn [grab_expr]. eapply wp_gbind; [apply (H (cs :: os) s Hw); eauto|]. intros c' s1 A Hb.
    apply wp_gret; [|apply (proj1 Hb)]. split; [exact A|]. unfold same. splits; auto.
  - (* ECallClosure *) intros it l Hi Hl os cs s (W1 & W2 & W3) Hr. cbn [grab_expr].
    eapply wp_gbind; [apply (Hi os cs s W1 Hr)|]. intros it' s1 [A1 _] B1.
    assert (ready md fi cs0 s1) as Hr1 by (eapply ready_bal; eauto).
    eapply wp_gbind; [eapply (grab_thread temps (same_temps md fi)); eauto|]. intros l' s2 [A2 S2] B2.
    apply wp_gret; [|apply (proj1 B2)]. split; [|unfold same; splits; auto].
    split; [exact A1|]. split; [exact A2|]. intros C. eapply same_args; eauto.
  - (* EGrab *) intros l e H os cs s Hw Hr. cbn [grab_expr]. destruct (Nat.eqb l (S (length os))) eqn:EL.
    + apply Nat.eqb_eq in EL. subst l.
      change (match nth_error (os ++ [cs0]) (length os) with Some cs' => wf md fi (skipn (S (length os)) (os ++ [cs0])) cs' e | None => True end) in Hw.
      rewrite nth_error_app2, Nat.sub_diag in Hw by auto. simpl nth_error in Hw. cbv iota in Hw.
      rewrite skipn_app, skipn_all2, Nat.sub_succ_l, Nat.sub_diag in Hw by lia. simpl in Hw.
      eapply (wp_vexpr chk E arity ev HE); eauto.
      * intros v s1 Hv Hb Hr1. apply wp_bind. apply (wp_deep chk E arity); auto; [eapply ready_wf; eauto|]. intros w Hww.
        apply wp_ret. split; [|exact Hb]. split; [exact Hww|]. unfold same. splits; auto.
      * intros x s1 Hx Ha. apply wp_ret. split; auto.
    + apply wp_gret; [|eapply ready_wf; eauto]. split; [|apply same_refl]. eapply wf_drop; eauto.
  - intros e H os cs s Hw Hr. cbn [grab_expr]. eapply wp_gbind; [apply (H os cs s Hw); eauto|]. intros e' s1 [A B] Hb.
    apply wp_gret; [|apply (proj1 Hb)]. split; [exact A|]. unfold same. splits; auto.
  - intros f os cs s Hw Hr. cbn [grab_expr]. apply wp_gret; [|eapply ready_wf; eauto]. split; [exact Hw|apply same_refl].
  - (* Item *) intros n sd c t ids ti H os cs s [W1 W2] Hr. cbn [grab_item].
    eapply wp_gbind with (R := fun ids' => ids_ok (wf_idx md fi os) cs ids' /\ (ids' = [] <-> ids = [])).
    + clear W1. revert cs s W2 Hr. induction H as [|i ids Hi Hids IH]; intros cs s W2 Hr; cbn [gmap].
      * apply wp_gret; [split; [exact I|tauto]|eapply ready_wf; eauto].
      * destruct W2 as [W2 W2']. eapply wp_gbind; [apply (Hi os cs s W2 Hr)|]. intros i' s1 [A1 S1] B1.
        assert (ready md fi cs0 s1) as Hr1 by (eapply ready_bal; eauto).
        eapply wp_gbind; [apply (IH _ s1 W2' Hr1)|]. intros ids' s2 [A2 S2] B2.
        apply wp_gret; [|apply (proj1 B2)]. split; [|split; discriminate]. split; [exact A1|].
        destruct i; destruct i'; try discriminate; exact A2.
    + intros ids' s1 [A S] Hb. apply wp_gret; [|apply (proj1 Hb)]. split; [split; [exact W1|exact A]|].
      destruct ids, ids'; simpl; auto; exfalso; destruct S as [S1 S2]; [discriminate S2|discriminate S1]; auto.
  - intros x os cs s Hw Hr. cbn [grab_idx]. apply wp_gret; [|eapply ready_wf; eauto]. split; [exact I|auto].
  - intros x os cs s Hw Hr. cbn [grab_idx]. apply wp_gret; [|eapply ready_wf; eauto]. split; [exact I|auto].
  - intros e H os cs s Hw Hr. cbn [grab_idx]. eapply wp_gbind; [apply (H os cs s Hw); eauto|]. intros e' s1 [A B] Hb.
    apply wp_gret; [|apply (proj1 Hb)]. split; [exact A|auto].
  - (* Closure *) intros a c b H os s [W1 W2] Hr. cbn [grab_closure].
    eapply wp_gbind; [apply (H os _ s W1 Hr)|]. intros b' s1 [A _] Hb.
    apply wp_gret; [|apply (proj1 Hb)]. split; [exact A|exact W2].
Qed.
End WithEv.

Lemma closure_bp : forall ev (HE : evspec ev) n md fi cs c s,
  wf md fi [] cs (EClosure c) -> ready md fi cs s ->
  wpq (closure_ ev n c) s (bpost true s) (errs s).
Proof.
  intros ev HE n md fi cs c s Hw Hr. destruct c as [args cur body]. unfold closure_.
  apply wp_bind. unfold top_index. apply wp_gets. apply wp_bind.
  change (wf md fi [cs] (entry true args cur) body /\ (chk = true -> disjoint_names cur args)) in Hw. destruct Hw as [W1 W2].
  destruct (grab_ok ev HE md fi n cs) as (_ & G & _).
  eapply wp_mono; [apply (G body [] (entry true args cur) s W1 Hr)| |auto].
  intros g s1 H. destruct g as [b|x].
  - destruct H as [[A _] B]. apply wp_bind, wp_gets, wp_ret. split; [|split; [exact B|discriminate]].
    assert (r_mod s1 = md) as -> by (destruct B as (_ & -> & _); apply Hr).
    assert (match r_calls s with [] => 0 | c :: _ => c_index c end = fi) as -> by (apply Hr).
    split; [split; [exact A|exact W2]|]. intros C. eapply ready_module; eauto.
  - destruct H. apply wp_ret. split; auto.
Qed.
End Grab.
