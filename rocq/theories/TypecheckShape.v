(** * What every step of the type checker keeps, and what the last checks say. *)
From Coq Require Import String List Bool Arith Lia.
From Verif Require Import Syntax TypeModel LifetimeModel TypecheckModel TypecheckSpec TypecheckProofs.
Import ListNotations.
Local Open Scope string_scope.
Local Open Scope nat_scope.
Local Open Scope list_scope.

Lemma tbind_ok : forall A B (a : tres A) (f : A -> tres B) b, tbind a f = TOk b -> exists x, a = TOk x /\ f x = TOk b.
Proof. intros A B [a|c i| | |] f b H; simpl in H; try discriminate. eauto. Qed.
Lemma get_ok : forall g i n, get g i = TOk n <-> is_node g i n.
Proof.
  intros g i n. unfold get, is_node. destruct (nth_error g i); split; intros H; inversion H; auto.
Qed.
Ltac tinv H :=
  match type of H with
  | tbind _ _ = TOk _ => let x := fresh "x" in let E := fresh "E" in apply tbind_ok in H; destruct H as (x & E & H)
  | match ?a with _ => _ end = TOk _ => let E := fresh "E" in destruct a eqn:E; try discriminate H
  | TOk _ = TOk _ => injection H as <-
  end.
Ltac tinvs H := repeat (tinv H).

Lemma finish_shape : forall i t s s', finish i t s = TOk s' -> shape (s_g s) (s_g s').
Proof.
  intros i t s s' H. unfold finish in H. tinvs H; simpl; try apply shape_refl; try apply shape_put.
  all: repeat match goal with H : _ = TOk _ |- _ => tinv H end; simpl; try apply shape_put.
  all: match goal with |- context [match g_ty ?n with _ => _ end] => destruct (g_ty n) end; simpl; apply shape_put.
Qed.
Lemma set_ty_shape : forall i t s, shape (s_g s) (s_g (set_ty i t s)). Proof. intros. apply shape_put. Qed.
Ltac fin H := solve [apply shape_refl
  | eapply finish_shape; exact H
  | eapply shape_trans; [|eapply finish_shape; exact H]; simpl; first [apply shape_refl|apply shape_put]].
Lemma fold_push : forall l s, s_g (fold_left (fun s j => push j s) l s) = s_g s.
Proof. induction l as [|a l IH]; intros s; simpl; auto. now rewrite IH. Qed.
Lemma pass_up_shape : forall i s s', pass_up i s = TOk s' -> shape (s_g s) (s_g s').
Proof.
  intros i s s' H. unfold pass_up in H. repeat (first [fin H|tinv H]); try apply shape_refl.
  eapply shape_trans; [|eapply finish_shape; exact H].
  match goal with E : match ?a with _ => _ end = TOk _ |- _ => tinvs E end; simpl; first [apply shape_refl|apply shape_put].
Qed.
Lemma assign_shape : forall i s s', assign i s = TOk s' -> shape (s_g s) (s_g s').
Proof.
  intros i s s' H. unfold assign in H. repeat (first [fin H|tinv H]); try apply shape_refl.
  eapply shape_trans; [|eapply finish_shape; exact H]. simpl.
  match goal with |- context [match ?a with _ => _ end] => destruct a end; simpl; rewrite ?fold_push; simpl; apply shape_put.
Qed.
Lemma item_shape : forall i s s', item i s = TOk s' -> shape (s_g s) (s_g s').
Proof.
  intros i s s' H. unfold item in H. repeat (first [fin H|tinv H]); try apply shape_refl.
  all: eapply shape_trans; [|eapply finish_shape; exact H]; match goal with |- context [is_kind ?a ?b] => destruct (is_kind a b) end; simpl; first [apply shape_refl|apply shape_put].
Qed.
Lemma visit_shape : forall K i s s', visit K i s = TOk s' -> shape (s_g s) (s_g s').
Proof.
  intros K i s s' H. unfold visit in H. tinv H. destruct (g_kind x) eqn:E0; try fin H; eauto using pass_up_shape, assign_shape, item_shape.
  all: unfold go_, fn_, call_arg, call, refine_call, call_closure, compare, block, sift, component, if_, arg_, closure_ in H.
  all: repeat (first [fin H|tinv H]); try apply shape_refl.
Qed.
Lemma round_shape : forall K todo s s', round K todo s = TOk s' -> shape (s_g s) (s_g s').
Proof.
  induction todo as [|i todo IH]; intros s s' H; simpl in H; tinv H; [apply shape_refl|].
  eapply shape_trans; [eapply visit_shape; eauto|eauto].
Qed.
Lemma propagate_shape : forall K n todo errs g r, propagate K n todo errs g = TOk r -> shape g (fst r).
Proof.
  induction n as [|n IH]; intros todo errs g r H; simpl in H; [discriminate|]. tinv H. apply round_shape in E. simpl in E.
  destruct (s_changed x).
  - eapply shape_trans; eauto.
  - injection H as <-. exact E.
Qed.

(** ** The last checks *)
Lemma after_all_in : forall fuel g l i, after_all fuel g l = TOk tt -> In i l -> after fuel g i = TOk tt.
Proof.
  induction l as [|j l IH]; intros i H I; simpl in *; [contradiction|]. tinv H. destruct x. destruct I as [-> |I]; auto.
Qed.
Lemma typecheck_after : forall K r f g g' i n, typecheck K r f g = TOk g' -> is_node g' i n -> after f g' i = TOk tt.
Proof.
  intros K r f g g' i n H N. unfold typecheck in H. tinv H. destruct (snd x); [|discriminate]. tinv H. injection H as <-.
  destruct x0. eapply after_all_in; eauto. apply in_seq. rewrite (shape_len _ _ (propagate_shape _ _ _ _ _ _ E)).
  unfold is_node in N. assert (nth_error (fst x) i <> None) as X by congruence. apply nth_error_Some in X. lia.
Qed.
Lemma find_child_first : forall g n k c, find_child g n k = TOk (Some c) -> first_of g n k c.
Proof.
  intros g n k c H. unfold find_child in H. unfold first_of. induction (g_children n) as [|d l IH]; simpl in H; [discriminate|].
  tinv H. apply get_ok in E. destruct (is_kind (g_kind x) k) eqn:F.
  - injection H as <-. exists [], l. split; auto. split; [|contradiction]. apply is_kind_iff in F. eexists; eauto.
  - destruct (IH H) as (pre & post & A & B & C). exists (d :: pre), post. split; [simpl; congruence|]. split; auto.
    intros e [<- |X]; auto. intros (m & M & Y). rewrite (node_det _ _ _ _ M E) in Y. apply is_kind_iff in Y. congruence.
Qed.
Lemma find_child_none : forall g n k c, find_child g n k = TOk None -> ~ first_of g n k c.
Proof.
  intros g n k c H (pre & post & A & B & C). unfold find_child in H. rewrite A in H. clear A C. induction pre as [|d l IH]; simpl in H.
  - tinv H. apply get_ok in E. destruct B as (m & M & Y). rewrite (node_det _ _ _ _ M E) in Y. apply is_kind_iff in Y. rewrite Y in H. discriminate.
  - tinv H. destruct (is_kind (g_kind x) k); [discriminate|auto].
Qed.
Lemma first_det : forall g n k c d, first_of g n k c -> first_of g n k d -> c = d.
Proof.
  intros g n k c d (p & q & A & B & C) (p' & q' & A' & B' & C'). rewrite A in A'. clear A.
  revert p' A' C'. induction p as [|x p IH]; intros [|y p'] E C'; simpl in E; inversion E; subst; auto.
  - exfalso. apply (C' y); [now left|auto].
  - exfalso. eapply C; [now left|eauto].
  - eapply IH; eauto; intros; [apply C|apply C']; now right.
Qed.
Lemma find_child_is : forall g n k c, first_of g n k c -> forall o, find_child g n k = TOk o -> o = Some c.
Proof.
  intros g n k c F [d|] H; [|exfalso; eapply find_child_none; eauto]. f_equal. eapply first_det; eauto using find_child_first.
Qed.
