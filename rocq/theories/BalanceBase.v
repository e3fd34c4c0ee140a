(** * Tools for reasoning about the evaluator: weakest preconditions, frames, value lemmas. *)
From Coq Require Import String List ZArith Bool Arith Lia.
From Verif Require Import Float64 Syntax InterpModel WfSpec SyntaxProofs.
Import ListNotations.
Local Open Scope string_scope.
Local Open Scope nat_scope.
Local Open Scope list_scope.

Ltac splits := repeat match goal with |- _ /\ _ => split end.

(** [ok] says which panics are allowed. *)
Definition wp (ok : string -> Prop) {A} (m : M A) (s : rt) (Q : A -> rt -> Prop) (X : rt -> Prop) : Prop :=
  match m s with Ok a s' => Q a s' | Err _ s' => X s' | Panic w => ok w | OOF => True end.
Definition anyp (w : string) : Prop := True.
#[global] Hint Extern 0 (anyp _) => exact I : core.
Ltac silent := let H := fresh in intros _ H; cbv [In bookkeeping] in H; repeat (destruct H as [H|H]; [discriminate H|]); exact H.
#[global] Hint Extern 0 (quiet _ _) => silent : core.
Ltac noise := first [exact I | silent].

Section Wp.
Context (ok : string -> Prop).
Notation wpq := (wp ok).
Lemma wp_bind : forall {A B} (m : M A) (k : A -> M B) s Q X,
  wpq m s (fun a s' => wpq (k a) s' Q X) X -> wpq (bind m k) s Q X.
Proof. intros. unfold wp, bind in *. destruct (m s); auto. Qed.
Lemma wp_mono : forall {A} (m : M A) s (Q Q' : A -> rt -> Prop) (X X' : rt -> Prop),
  wpq m s Q X -> (forall a s', Q a s' -> Q' a s') -> (forall s', X s' -> X' s') -> wpq m s Q' X'.
Proof. intros. unfold wp in *. destruct (m s); auto. Qed.
Lemma wp_ret : forall {A} (a : A) s (Q : A -> rt -> Prop) X, Q a s -> wpq (ret a) s Q X.
Proof. intros. exact H. Qed.
Lemma wp_fail : forall {A} e s (Q : A -> rt -> Prop) (X : rt -> Prop), X s -> wpq (fail e) s Q X.
Proof. intros. exact H. Qed.
Lemma wp_panic : forall {A} e s (Q : A -> rt -> Prop) (X : rt -> Prop), ok e -> wpq (panic e) s Q X.
Proof. intros. exact H. Qed.
Lemma wp_oof : forall {A} s (Q : A -> rt -> Prop) (X : rt -> Prop), wpq oof s Q X.
Proof. intros. exact I. Qed.
Lemma wp_gets : forall {A} (f : rt -> A) s (Q : A -> rt -> Prop) X, Q (f s) s -> wpq (gets f) s Q X.
Proof. intros. exact H. Qed.
Lemma wp_modify : forall f s (Q : unit -> rt -> Prop) X, Q tt (f s) -> wpq (modify f) s Q X.
Proof. intros. exact H. Qed.
Lemma wp_slot : forall i s (Q : value -> rt -> Prop) X, ok "index" ->
  (forall v, nth_error (r_stack s) i = Some v -> Q v s) -> wpq (slot i) s Q X.
Proof. intros. unfold wp, slot. destruct (nth_error _ _) eqn:H1; auto. Qed.
End Wp.
Arguments wp_bind {ok A B}. Arguments wp_mono {ok A}. Arguments wp_ret {ok A}. Arguments wp_fail {ok A}.
Arguments wp_panic {ok A}. Arguments wp_oof {ok A}. Arguments wp_gets {ok A}. Arguments wp_modify {ok}. Arguments wp_slot {ok}.

(** ** Lists *)

Lemma trunc_top_app : forall {A} (l l0 : list A), trunc_top (length l0) (l ++ l0) = l0.
Proof.
  intros. unfold trunc_top. rewrite app_length.
  replace (length l + length l0 - length l0) with (length l + 0) by lia.
  rewrite skipn_app. replace (length l + 0 - length l) with 0 by lia.
  rewrite skipn_all2 by lia. reflexivity.
Qed.
Lemma list_set_length : forall {A} i (x : A) l, length (list_set i x l) = length l.
Proof. intros A i x l. revert i. induction l; intros; destruct i; simpl; auto. Qed.
Lemma Forall_list_set : forall {A} (P : A -> Prop) i x l, Forall P l -> P x -> Forall P (list_set i x l).
Proof.
  intros A P i x l H. revert i. induction H; intros; destruct i; simpl; auto.
Qed.
Lemma nth_error_Forall : forall {A} (P : A -> Prop) l i x, Forall P l -> nth_error l i = Some x -> P x.
Proof. intros. rewrite Forall_forall in H. apply H. eapply nth_error_In; eauto. Qed.
Lemma removelast_length : forall {A} (l : list A), length (removelast l) = length l - 1.
Proof.
  intros A l. destruct l as [|a l]; [reflexivity|].
  assert (a :: l <> []) by discriminate.
  pose proof (app_removelast_last a H) as E. apply (f_equal (@length A)) in E.
  rewrite app_length in E. simpl in *. lia.
Qed.
Lemma Forall_removelast : forall {A} (P : A -> Prop) l, Forall P l -> Forall P (removelast l).
Proof.
  intros A P l H. induction H; simpl; auto. destruct l; auto.
Qed.
Lemma Forall_firstn : forall {A} (P : A -> Prop) n l, Forall P l -> Forall P (firstn n l).
Proof.
  intros A P n l. revert n. induction l; intros; destruct n; simpl; auto; inversion H; subst; auto.
Qed.
Lemma Forall_skipn : forall {A} (P : A -> Prop) n l, Forall P l -> Forall P (skipn n l).
Proof.
  intros A P n l. revert n. induction l; intros; destruct n; simpl; auto; inversion H; subst; auto.
Qed.

Lemma all_ok_Forall : forall {A} (P : A -> Prop) l, all_ok P l <-> Forall P l.
Proof.
  intros A P l. induction l; simpl; split; intros; auto.
  - destruct H. constructor; tauto.
  - inversion H; subst. tauto.
Qed.
Lemma all_ok_app : forall {A} (P : A -> Prop) l1 l2, all_ok P (l1 ++ l2) <-> all_ok P l1 /\ all_ok P l2.
Proof. intros. rewrite !all_ok_Forall. apply Forall_app. Qed.

Lemma assoc_In : forall {A} k (v : A) l, assoc k l = Some v -> In (k, v) l.
Proof.
  intros A k v l. induction l as [|[k' v'] l]; simpl; intros; [discriminate|].
  destruct (String.eqb k' k) eqn:E.
  - apply String.eqb_eq in E. inversion H; subst. auto.
  - auto.
Qed.

(** ** Frames *)

Lemma frame_locals_app : forall base a cs,
  frame_locals base (a ++ cs) = frame_locals (base + length cs) a ++ frame_locals base cs.
Proof.
  intros base a cs. induction a as [|[x|] a]; simpl; auto.
  rewrite IHa, app_length. f_equal. f_equal. lia.
Qed.
Lemma frame_locals_none : forall base n, frame_locals base (repeat None n) = [].
Proof. intros. induction n; simpl; auto. Qed.
Lemma assoc_app : forall {A} k (l1 l2 : list (string * A)),
  assoc k (l1 ++ l2) = match assoc k l1 with Some v => Some v | None => assoc k l2 end.
Proof.
  intros A k l1 l2. induction l1 as [|[k' v'] l1]; simpl; auto.
  destruct (String.eqb k' k); auto.
Qed.

Section Base.
Context (chk : bool) (E : env) (arity : string -> nat).
Notation wpq := (wp (quiet chk)).
Notation wf_v := (wf_v chk E arity).
Notation wf := (wf chk E arity).
Notation wf_state := (wf_state chk E arity).
Notation ready := (ready chk E arity).

(** [s] is [s0] with [d] more values and the given locals and current objects. *)
Definition plus (s0 : rt) (d : nat) (nl nc : list (string * nat)) (s : rt) : Prop :=
  wf_state s /\ r_mod s = r_mod s0 /\ r_calls s = r_calls s0 /\
  length (r_stack s) = length (r_stack s0) + d /\
  r_locals s = nl ++ r_locals s0 /\ r_currents s = nc ++ r_currents s0.
Definition bal (s0 s : rt) : Prop := plus s0 0 [] [] s.
Definition abv (s0 s : rt) : Prop := wf_state s /\ above s0 s /\ r_calls s = r_calls s0.
Definition errs (s0 s : rt) : Prop := wf_state s /\ above s0 s.

Lemma above_refl : forall s, above s s.
Proof.
  intros. unfold above. splits; auto; exists []; reflexivity.
Qed.
Lemma above_trans : forall s0 s1 s2, above s0 s1 -> above s1 s2 -> above s0 s2.
Proof.
  unfold above. intros s0 s1 s2 (A & (l1 & B) & C & (l2 & D) & (l3 & F)) (A' & (l1' & B') & C' & (l2' & D') & (l3' & F')).
  splits; try congruence; try lia.
  - exists (l1' ++ l1). rewrite B', B. apply app_assoc.
  - exists (l2' ++ l2). rewrite D', D. apply app_assoc.
  - exists (l3' ++ l3). rewrite F', F. apply app_assoc.
Qed.
Lemma plus_above : forall s0 d nl nc s, plus s0 d nl nc s -> above s0 s.
Proof.
  unfold plus, above. intros s0 d nl nc s (A & B & C & D & F & G). splits; auto; try lia; eauto.
  exists []. rewrite C. reflexivity.
Qed.
Lemma plus_abv : forall s0 d nl nc s, plus s0 d nl nc s -> abv s0 s.
Proof.
  intros. pose proof H as H1. unfold plus in H. unfold abv. split; [|split]; try tauto.
  eapply plus_above; eauto.
Qed.
Lemma plus_errs : forall s0 d nl nc s, plus s0 d nl nc s -> errs s0 s.
Proof. intros. apply plus_abv in H. unfold abv, errs in *. tauto. Qed.
Lemma abv_errs : forall s0 s, abv s0 s -> errs s0 s.
Proof. unfold abv, errs. tauto. Qed.
Lemma plus_trans : forall s0 s1 s2 d1 d2 nl1 nl2 nc1 nc2,
  plus s0 d1 nl1 nc1 s1 -> plus s1 d2 nl2 nc2 s2 -> plus s0 (d1 + d2) (nl2 ++ nl1) (nc2 ++ nc1) s2.
Proof.
  unfold plus. intros s0 s1 s2 d1 d2 nl1 nl2 nc1 nc2 (A & B & C & D & F & G) (A' & B' & C' & D' & F' & G').
  splits; try congruence; try tauto; try lia.
  - rewrite F', F. apply app_assoc.
  - rewrite G', G. apply app_assoc.
Qed.
Lemma plus_errs_trans : forall s0 s1 s2 d nl nc, plus s0 d nl nc s1 -> errs s1 s2 -> errs s0 s2.
Proof.
  intros. apply plus_above in H. unfold errs in *. split; [tauto|]. eapply above_trans; eauto. tauto.
Qed.
Lemma plus_abv_trans : forall s0 s1 s2 d nl nc, plus s0 d nl nc s1 -> abv s1 s2 -> abv s0 s2.
Proof.
  intros s0 s1 s2 d nl nc H0 H1. pose proof (plus_above _ _ _ _ _ H0). unfold abv, plus in *.
  split; [tauto|]. split; [eapply above_trans; eauto; tauto|]. destruct H0 as (_&_&H0&_). destruct H1 as (_&_&H1).
  congruence.
Qed.
Lemma bal_refl : forall s, wf_state s -> bal s s.
Proof. intros. unfold bal, plus. splits; auto. Qed.
Lemma bal_plus : forall s0 s1 s2 d nl nc, plus s0 d nl nc s1 -> bal s1 s2 -> plus s0 d nl nc s2.
Proof.
  intros. pose proof (plus_trans _ _ _ _ _ _ _ _ _ H H0). simpl in H1. rewrite Nat.add_0_r in H1. exact H1.
Qed.
Lemma plus_bal : forall s0 s1 s2 d nl nc, bal s0 s1 -> plus s1 d nl nc s2 -> plus s0 d nl nc s2.
Proof.
  intros. pose proof (plus_trans _ _ _ _ _ _ _ _ _ H H0). rewrite !app_nil_r in H1. exact H1.
Qed.

Lemma frame_ok_plus : forall cs s a nc s',
  frame_ok cs s -> plus s (length a) (frame_locals (length (r_stack s)) a) nc s' -> frame_ok (a ++ cs) s'.
Proof.
  intros cs s a nc s' (c & rest & base & H1 & H2 & H3 & H4) (A & B & C & D & F & G).
  exists c, rest, base. splits.
  - congruence.
  - rewrite F, app_length. lia.
  - rewrite D, app_length. lia.
  - intros x. rewrite F, app_length.
    replace (length (frame_locals (length (r_stack s)) a) + length (r_locals s) - c_local c)
      with (length (frame_locals (length (r_stack s)) a) + (length (r_locals s) - c_local c)) by lia.
    rewrite firstn_app_2, assoc_app, frame_locals_app, assoc_app, <- H3, H4. reflexivity.
Qed.
Lemma ready_plus : forall md fi cs s a nc s',
  ready md fi cs s -> plus s (length a) (frame_locals (length (r_stack s)) a) nc s' -> ready md fi (a ++ cs) s'.
Proof.
  intros md fi cs s a nc s' (A & B & C & D) H. unfold ready. pose proof H as H0. destruct H as (H1 & H2 & H3 & _).
  split; auto. split; [congruence|]. split.
  - unfold top_of in *. rewrite H3. exact C.
  - intros K. destruct (D K). split; [eapply frame_ok_plus; eauto|assumption].
Qed.
Lemma ready_bal : forall md fi cs s s', ready md fi cs s -> bal s s' -> ready md fi cs s'.
Proof. intros. apply (ready_plus md fi cs s [] [] s' H). exact H0. Qed.
Lemma ready_wf : forall md fi cs s, ready md fi cs s -> wf_state s.
Proof. unfold ready. tauto. Qed.

Lemma ready_calls : forall md fi cs s, ready md fi cs s -> chk = true -> r_calls s <> [].
Proof. intros md fi cs s (_ & _ & _ & D) K. destruct (D K) as ((c & rest & base & -> & _) & _). discriminate. Qed.
Lemma ready_module : forall md fi cs s, ready md fi cs s -> chk = true -> nth_error (e_mods E) md <> None.
Proof. intros md fi cs s (_ & _ & _ & D) K. apply (D K). Qed.

Lemma plus_push : forall s v, wf_state s -> wf_v v -> plus s 1 [] [] (set_stack (r_stack s ++ [v]) s).
Proof.
  intros s v [A B] H. unfold plus. simpl. splits; auto.
  - split; simpl; auto. apply Forall_app. auto.
  - rewrite app_length. reflexivity.
Qed.
Lemma ready_push : forall md fi cs s v, ready md fi cs s -> wf_v v ->
  ready md fi (None :: cs) (set_stack (r_stack s ++ [v]) s).
Proof.
  intros. apply (ready_plus md fi cs s [None] [] _ H). apply plus_push; auto. eapply ready_wf; eauto.
Qed.

(** Truncating back to where [s0] was. *)
Definition cut (s0 s : rt) : rt :=
  set_currents (r_currents s0) (set_locals (r_locals s0)
    (set_stack (firstn (length (r_stack s0)) (r_stack s)) s)).
Lemma cut_bal : forall s0 s, abv s0 s -> bal s0 (cut s0 s).
Proof.
  intros s0 s ([A A'] & (B & C & D & F & G) & H). unfold bal, plus, cut. simpl. splits; auto.
  - split; simpl; auto. apply Forall_firstn. auto.
  - rewrite firstn_length. lia.
Qed.
Lemma trunc_locals_above : forall s0 s, above s0 s ->
  trunc_top (length (r_locals s0)) (r_locals s) = r_locals s0.
Proof. intros s0 s (_ & _ & _ & (l & H) & _). rewrite H. apply trunc_top_app. Qed.
Lemma trunc_currents_above : forall s0 s, above s0 s ->
  trunc_top (length (r_currents s0)) (r_currents s) = r_currents s0.
Proof. intros s0 s (_ & _ & _ & _ & (l & H)). rewrite H. apply trunc_top_app. Qed.
Lemma trunc_calls_above : forall s0 s, above s0 s ->
  trunc_top (length (r_calls s0)) (r_calls s) = r_calls s0.
Proof. intros s0 s (_ & (l & H) & _). rewrite H. apply trunc_top_app. Qed.
Lemma wp_cut : forall {A} s0 s (k : M A) Q X, above s0 s -> wpq k (cut s0 s) Q X ->
  wpq (trunc_stack (length (r_stack s0)) ;;; trunc_locals (length (r_locals s0)) ;;;
      trunc_currents (length (r_currents s0)) ;;; k) s Q X.
Proof.
  intros. unfold wp, bind, trunc_stack, trunc_locals, trunc_currents, modify in *. simpl.
  rewrite (trunc_locals_above _ _ H), (trunc_currents_above _ _ H). exact H0.
Qed.
(** The loops do not truncate current objects. *)
Definition cut2 (s0 s : rt) : rt :=
  set_locals (r_locals s0) (set_stack (firstn (length (r_stack s0)) (r_stack s)) s).
Lemma cut2_bal : forall s0 s, abv s0 s -> r_currents s = r_currents s0 -> bal s0 (cut2 s0 s).
Proof.
  intros s0 s ([A A'] & (B & C & D & F & G) & H) HH. unfold bal, plus, cut2. simpl. splits; auto.
  - split; simpl; auto. apply Forall_firstn. auto.
  - rewrite firstn_length. lia.
Qed.
Lemma wp_cut2 : forall {A} s0 s (k : M A) Q X, above s0 s -> wpq k (cut2 s0 s) Q X ->
  wpq (trunc_stack (length (r_stack s0)) ;;; trunc_locals (length (r_locals s0)) ;;; k) s Q X.
Proof.
  intros. unfold wp, bind, trunc_stack, trunc_locals, modify in *. simpl.
  rewrite (trunc_locals_above _ _ H). exact H0.
Qed.

(** ** Values stay well-formed *)

Lemma wf_slot : forall s i v, wf_state s -> nth_error (r_stack s) i = Some v -> wf_v v.
Proof. intros s i v [A B] H. eapply nth_error_Forall; eauto. Qed.
Lemma wp_getv : forall v s (Q : value -> rt -> Prop) X, wf_state s -> wf_v v ->
  (forall v', wf_v v' -> Q v' s) -> wpq (getv v) s Q X.
Proof.
  intros v s Q X H H0 H1. destruct v; simpl; try (apply wp_ret; auto; fail).
  (apply wp_slot; [noise|]). intros. apply H1. eapply wf_slot; eauto.
Qed.

Lemma wf_VObject : forall l, wf_v (VObject l) <-> Forall (fun kv => wf_v (snd kv)) l.
Proof.
  intros. etransitivity; [apply (all_ok_Forall (fun kv => match kv with (_, x) => wf_v x end))|].
  split; intros H; eapply Forall_impl; try exact H; intros [k x]; auto.
Qed.
Lemma wf_VArray : forall l, wf_v (VArray l) <-> Forall wf_v l.
Proof. intros. apply (all_ok_Forall wf_v). Qed.
Lemma wf_v_assoc : forall k l x, wf_v (VObject l) -> assoc k l = Some x -> wf_v x.
Proof.
  intros k l x H H0. apply wf_VObject in H. rewrite Forall_forall in H.
  apply assoc_In in H0. apply (H _ H0).
Qed.
Lemma wf_v_nth : forall i l x, wf_v (VArray l) -> nth_error l i = Some x -> wf_v x.
Proof. intros i l x H H0. apply wf_VArray in H. eapply nth_error_Forall; eauto. Qed.
Lemma wf_v_assoc_set : forall k l x, wf_v (VObject l) -> wf_v x -> wf_v (VObject (assoc_set k x l)).
Proof.
  intros k l x H H0. apply wf_VObject in H. apply wf_VObject.
  induction H as [|[k' y] l]; simpl; auto. destruct (String.eqb k' k); constructor; auto.
Qed.
Lemma wf_v_list_set : forall i l x, wf_v (VArray l) -> wf_v x -> wf_v (VArray (list_set i x l)).
Proof.
  intros i l x H H0. apply wf_VArray in H. apply wf_VArray. apply Forall_list_set; auto.
Qed.
Lemma rd_wf : forall p v x, wf_v v -> rd v p = Some x -> wf_v x.
Proof.
  induction p as [|st p IH]; intros v x H H0.
  - simpl in H0. inversion H0. subst. auto.
  - destruct st; simpl in H0; destruct v; try discriminate.
    + destruct (assoc k l) eqn:F; try discriminate. apply (IH v); [eapply wf_v_assoc; eassumption|assumption].
    + destruct (nth_error l i) eqn:F; try discriminate. apply (IH v); [eapply wf_v_nth; eassumption|assumption].
Qed.
Lemma wr_wf : forall p v y v', wf_v v -> wf_v y -> wr v p y = Some v' -> wf_v v'.
Proof.
  induction p as [|st p IH]; intros v y v' H Hy H0.
  - simpl in H0. inversion H0. subst. auto.
  - destruct st; simpl in H0; destruct v; try discriminate.
    + destruct (assoc k l) eqn:F; try discriminate. destruct (wr v p y) eqn:G; try discriminate.
      inversion H0. apply wf_v_assoc_set; auto. apply (IH v y); [eapply wf_v_assoc; eassumption|assumption|assumption].
    + destruct (nth_error l i) eqn:F; try discriminate. destruct (wr v p y) eqn:G; try discriminate.
      inversion H0. apply wf_v_list_set; auto. apply (IH v y); [eapply wf_v_nth; eassumption|assumption|assumption].
Qed.
Lemma wp_pread : forall p s (Q : value -> rt -> Prop) X, wf_state s ->
  (forall v, wf_v v -> Q v s) -> wpq (pread p) s Q X.
Proof.
  intros p s Q X H H0. unfold pread. apply wp_bind. (apply wp_slot; [noise|]). intros v F.
  destruct (rd v (snd p)) eqn:G; [|(apply wp_panic; noise)]. apply wp_ret. apply H0.
  apply (rd_wf (snd p) v); [eapply wf_slot; eassumption|assumption].
Qed.
Lemma bal_set : forall s i v, wf_state s -> wf_v v -> bal s (set_stack (list_set i v (r_stack s)) s).
Proof.
  intros s i v [A B] H. unfold bal, plus. simpl. splits; auto.
  - split; simpl; auto. apply Forall_list_set; auto.
  - rewrite list_set_length. lia.
Qed.
Lemma wp_pwrite : forall p y s (Q : unit -> rt -> Prop) X, wf_state s -> wf_v y ->
  (forall s', bal s s' -> Q tt s') -> wpq (pwrite p y) s Q X.
Proof.
  intros p y s Q X H Hy H0. unfold pwrite. apply wp_bind. (apply wp_slot; [noise|]). intros v F.
  destruct (wr v (snd p) y) eqn:G; [|(apply wp_panic; noise)]. apply wp_modify. apply H0.
  apply bal_set; auto. apply (wr_wf (snd p) v y); [eapply wf_slot; eassumption|assumption|assumption].
Qed.

Lemma dmap_arr_err : forall f l d, dmap_arr f l = inr d -> forall v, d <> DOk v.
Proof.
  intros f l. induction l; simpl; intros d H v; [discriminate|].
  destruct (f a); try (inversion H; discriminate). destruct (dmap_arr f l); [discriminate|].
  inversion H; subst. apply IHl. reflexivity.
Qed.
Lemma dmap_obj_err : forall f l d, dmap_obj f l = inr d -> forall v, d <> DOk v.
Proof.
  intros f l. induction l as [|[k a] l IHl]; simpl; intros d H v; [discriminate|].
  destruct (f a); try (inversion H; discriminate). destruct (dmap_obj f l); [discriminate|].
  inversion H; subst. apply IHl. reflexivity.
Qed.
Lemma dmap_arr_ok : forall f l l', dmap_arr f l = inl l' -> Forall2 (fun x y => f x = DOk y) l l'.
Proof.
  intros f l. induction l; simpl; intros l' H; [inversion H; constructor|].
  destruct (f a) eqn:F; try discriminate. destruct (dmap_arr f l); [|discriminate].
  inversion H; subst. constructor; auto.
Qed.
Lemma dmap_obj_ok : forall f l l', dmap_obj f l = inl l' ->
  Forall2 (fun x y => fst x = fst y /\ f (snd x) = DOk (snd y)) l l'.
Proof.
  intros f l. induction l as [|[k a] l IHl]; simpl; intros l' H; [inversion H; constructor|].
  destruct (f a) eqn:F; try discriminate. destruct (dmap_obj f l); [|discriminate].
  inversion H; subst. constructor; auto.
Qed.
Fixpoint value_ind' (P : value -> Prop)
  (Hleaf : forall v, match v with VArray _ | VObject _ => False | _ => True end -> P v)
  (Harr : forall l, Forall P l -> P (VArray l))
  (Hobj : forall l, Forall (fun kv => P (snd kv)) l -> P (VObject l)) (v : value) : P v :=
  match v with
  | VArray l => Harr l (forall_all (value_ind' P Hleaf Harr Hobj) l)
  | VObject l => Hobj l (forall_all (P := fun kv => P (snd kv)) (fun kv => value_ind' P Hleaf Harr Hobj (snd kv)) l)
  | v => Hleaf v I
  end.
Lemma deep_val_wf : forall via, (forall i w, via i = DOk w -> wf_v w) ->
  forall v w, wf_v v -> deep_val via v = DOk w -> wf_v w.
Proof.
  intros via Hvia v. induction v using value_ind'; intros w Hw H0.
  - destruct v; simpl in *; try tauto; try discriminate; try (inversion H0; subst; assumption).
    eapply Hvia; eauto.
  - simpl in H0. destruct (dmap_arr (deep_val via) l) eqn:F.
    2: { exfalso. eapply dmap_arr_err; eauto. }
    inversion H0; subst. apply dmap_arr_ok in F. apply wf_VArray. apply wf_VArray in Hw.
    clear H0. induction F; constructor; inversion H; inversion Hw; subst; auto.
  - simpl in H0. destruct (dmap_obj (deep_val via) l) eqn:F.
    2: { exfalso. eapply dmap_obj_err; eauto. }
    inversion H0; subst. apply dmap_obj_ok in F. apply wf_VObject. apply wf_VObject in Hw.
    clear H0. induction F; constructor; inversion H; inversion Hw; subst; auto. destruct H0. eauto.
Qed.
Lemma deep_clone_wf : forall n stack v w, Forall wf_v stack -> wf_v v -> deep_clone n stack v = DOk w -> wf_v w.
Proof.
  induction n; intros stack v w HS H H0.
  - refine (deep_val_wf _ _ v w H H0). intros i x F. discriminate.
  - refine (deep_val_wf _ _ v w H H0). intros i x F. cbv beta iota in F.
    destruct (nth_error stack i) eqn:G; [|discriminate].
    apply (IHn stack v0 x HS); [eapply nth_error_Forall; eassumption|exact F].
Qed.
Lemma wp_deep : forall n v s (Q : value -> rt -> Prop) X, wf_state s -> wf_v v ->
  (forall w, wf_v w -> Q w s) -> wpq (deep n v) s Q X.
Proof.
  intros. unfold wp, deep. destruct (deep_clone n (r_stack s) v) eqn:F; auto.
  apply H1. destruct H. eapply deep_clone_wf; eauto.
Qed.

Lemma try_msg_wf : forall v, wf_v v ->
  match try_msg v with Some (TOk y) => wf_v y | Some (TErr m _) => wf_v m | None => True end.
Proof.
  intros v H. destruct v; simpl in *; auto; try exact I.
  - destruct b; [|exact I]. destruct sec; [exact H|exact I].
  - destruct (fis_nan x); [exact I|]. destruct sec; [exact H|exact I].
Qed.
Lemma all_ok_sec : forall (o : option (list value)) l,
  match o with Some l => all_ok wf_v l | None => True end -> all_ok wf_v l ->
  match o with Some l' => all_ok wf_v (l' ++ l) | None => all_ok wf_v l end.
Proof. intros. destruct o; auto. apply all_ok_app. auto. Qed.
End Base.

(** Links and loops over them. *)
Definition link_head (e : expr) : nat :=
  match e with ELink _ => 1 | EForN KLink _ _ _ _ _ => 2 | EForIn KLink _ _ _ _ => 3 | _ => 0 end.
Lemma link_body_head : forall b, link_body b <-> match b with e :: _ => link_head e = 1 \/ link_head e = 2 | [] => False end.
Proof.
  intros [|e b]; [simpl; tauto|]. destruct e; try (simpl; split; [tauto|intros [H|H]; discriminate H]).
  - simpl. tauto.
  - destruct k; simpl; split; auto; try tauto; intros [H|H]; discriminate H.
  - destruct k; simpl; split; auto; try tauto; intros [H|H]; discriminate H.
Qed.
Lemma link_body_in_head : forall b, link_body_in b <-> match b with e :: _ => link_head e = 1 \/ link_head e = 3 | [] => False end.
Proof.
  intros [|e b]; [simpl; tauto|]. destruct e; try (simpl; split; [tauto|intros [H|H]; discriminate H]).
  - simpl. tauto.
  - destruct k; simpl; split; auto; try tauto; intros [H|H]; discriminate H.
  - destruct k; simpl; split; auto; try tauto; intros [H|H]; discriminate H.
Qed.
