(** * Lemmas for P_Library.v: the functions of the library take their arguments off the stack. *)
From Coq Require Import String List ZArith Bool Arith Lia.
From Verif Require Import ColorModel PrintModel Float64 TypeModel LifetimeModel NodesModel Syntax SyntaxProofs InterpModel StdModel PreludeModel LibraryModel WfSpec BalanceBase.
Import ListNotations.
Local Open Scope string_scope.
Local Open Scope nat_scope.
Local Open Scope list_scope.

Section Takes.
Context (chk : bool) (E : env) (arity : string -> nat).
Notation wf_v := (wf_v chk E arity).
Notation wf_state := (wf_state chk E arity).
(** It takes [k] values off the stack and gives a good result. *)
Definition takes {A} (k : nat) (R : A -> Prop) (m : M A) : Prop :=
  forall s, wf_state s -> k <= length (r_stack s) ->
  match m s with
  | Ok a s' => R a /\ wf_state s' /\ r_mod s' = r_mod s /\ r_calls s' = r_calls s /\
               length (r_stack s') + k = length (r_stack s) /\ r_locals s' = r_locals s /\ r_currents s' = r_currents s
  | Err _ s' => wf_state s' /\ r_mod s' = r_mod s /\ r_calls s' = r_calls s /\
               length (r_stack s) <= length (r_stack s') + k /\ r_locals s' = r_locals s /\ r_currents s' = r_currents s
  | Panic w => quiet chk w
  | OOF => True
  end.
Lemma takes_ret : forall {A} (R : A -> Prop) a, R a -> takes 0 R (ret a).
Proof. intros A R a H s W K. cbn. splits; auto. Qed.
Lemma takes_fail : forall {A} (R : A -> Prop) k e, takes k R (fail e).
Proof. intros A R k e s W K. cbn. splits; auto. lia. Qed.
Lemma takes_panic : forall {A} (R : A -> Prop) k e, quiet chk e -> takes k R (panic e).
Proof. intros A R k e H s W K. exact H. Qed.
Lemma takes_bind : forall {A B} i j k (R : A -> Prop) (R' : B -> Prop) m f, i + j = k -> takes i R m -> (forall a, R a -> takes j R' (f a)) -> takes k R' (bind m f).
Proof.
  intros A B i j k R R' m f K H1 H2 s W L. unfold bind. specialize (H1 s W). destruct (m s) as [a s'|e s'|w|]; auto; try (apply H1; lia).
  - destruct H1 as (Ra & W' & M & C & N & Lo & Cu); [lia|]. specialize (H2 a Ra s' W'). destruct (f a s') as [b s2|e s2|w|]; auto; try (apply H2; lia).
    + destruct H2 as (Rb & W2 & M2 & C2 & N2 & Lo2 & Cu2); [lia|]. splits; auto; try congruence. lia.
    + destruct H2 as (W2 & M2 & C2 & N2 & Lo2 & Cu2); [lia|]. splits; auto; try congruence. lia.
  - destruct H1 as (W' & M & C & N & Lo & Cu); [lia|]. splits; auto. lia.
Qed.
Lemma takes_pop : takes 1 wf_v pop.
Proof.
  intros s [W Q] K. unfold pop. destruct (rev (r_stack s)) as [|v l] eqn:R.
  { exfalso. apply (f_equal (@length value)) in R. rewrite rev_length in R. cbn in R. lia. }
  assert (r_stack s = rev l ++ [v]) as Es by (rewrite <- (rev_involutive (r_stack s)), R; reflexivity).
  rewrite Es in *. apply Forall_app in W. destruct W as [W1 W2]. inversion W2; subst.
  cbn. rewrite removelast_last, app_length. cbn. splits; auto. split; auto.
Qed.
Lemma takes_slot : forall i, takes 0 wf_v (slot i).
Proof.
  intros i s W K. unfold slot. destruct (nth_error (r_stack s) i) eqn:N; [|noise]. splits; auto. destruct W as [W _]. eapply nth_error_Forall; eauto.
Qed.
Lemma takes_getv : forall v, wf_v v -> takes 0 wf_v (getv v).
Proof. intros v H. destruct v; try (apply takes_ret; exact H). apply takes_slot. Qed.
Lemma takes_deep : forall n v, wf_v v -> takes 0 wf_v (deep n v).
Proof.
  intros n v H s W K. unfold deep. destruct (deep_clone n (r_stack s) v) eqn:D; auto. splits; auto. destruct W as [W _]. eapply deep_clone_wf; eauto.
Qed.
Lemma takes_set : forall i v, wf_v v -> takes 0 (fun _ => True) (modify (fun s => set_stack (list_set i v (r_stack s)) s)).
Proof.
  intros i v H s [W Q] K. cbn. splits; auto; [|rewrite list_set_length; lia]. split; auto. cbn. apply Forall_list_set; auto.
Qed.
Lemma takes_mono : forall {A} k (R R' : A -> Prop) m, takes k R m -> (forall a, R a -> R' a) -> takes k R' m.
Proof. intros A k R R' m H I s W K. specialize (H s W K). destruct (m s); auto. destruct H. split; auto. Qed.

Lemma wf_plain_bool : forall b, wf_v (vbool b). Proof. intros. exact I. Qed.
Lemma wf_plain_f64 : forall b, wf_v (vf64 b). Proof. intros. exact I. Qed.
Lemma sec_wf_ff : forall x y sec, wf_v (VF64 x sec) -> wf_v (VF64 y sec). Proof. intros. exact H. Qed.
Lemma sec_wf_fb : forall x y sec, wf_v (VF64 x sec) -> wf_v (VBool y sec). Proof. intros. exact H. Qed.
Lemma sec_wf_bb : forall x y sec, wf_v (VBool x sec) -> wf_v (VBool y sec). Proof. intros. exact H. Qed.

(** one argument of a kind *)
Lemma takes_arg : forall {A} (f : value -> option A), takes 1 (fun _ => True) (arg f).
Proof.
  intros A f. apply (takes_bind 1 0 1 wf_v); [reflexivity|apply takes_pop|]. intros v Hv. apply (takes_bind 0 0 0 wf_v); [reflexivity|now apply takes_getv|].
  intros x Hx. destruct (f x); [now apply takes_ret|apply takes_fail].
Qed.
Lemma takes_arg_expect : forall {A} (f : value -> option A), takes 1 (fun _ => True) (arg_expect f).
Proof.
  intros A f. apply (takes_bind 1 0 1 wf_v); [reflexivity|apply takes_pop|]. intros v Hv. apply (takes_bind 0 0 0 wf_v); [reflexivity|now apply takes_getv|].
  intros x Hx. destruct (f x); [now apply takes_ret|apply takes_panic; noise].
Qed.
Lemma takes_number : forall v, wf_v v -> takes 0 (fun _ => True) (number_arg v).
Proof.
  intros v Hv. apply (takes_bind 0 0 0 wf_v); [reflexivity|now apply takes_getv|]. intros x _. destruct x; try apply takes_fail. now apply takes_ret.
Qed.
Lemma takes_copy : forall n, takes 1 wf_v (copy_arg n).
Proof.
  intros n. apply (takes_bind 1 0 1 wf_v); [reflexivity|apply takes_pop|]. intros v Hv. apply (takes_bind 0 0 0 wf_v); [reflexivity|now apply takes_getv|].
  intros x Hx. now apply takes_deep.
Qed.
Lemma takes_best : forall better l best, Forall wf_v l -> takes 0 (fun _ => True) (best_of better l best).
Proof.
  intros better l. induction l as [|v l IH]; intros best H; [now apply takes_ret|]. inversion H; subst.
  apply (takes_bind 0 0 0 wf_v); [reflexivity|now apply takes_getv|]. intros x _. now apply IH.
Qed.
Lemma takes_at_array : forall {A} (R : A -> Prop) v f, wf_v v -> (forall l, Forall wf_v l -> takes 0 (fun r => Forall wf_v (fst r) /\ R (snd r)) (f l)) ->
  takes 0 R (at_array v f).
Proof.
  intros A R v f Hv H. destruct v; try apply takes_fail. cbn [at_array]. apply (takes_bind 0 0 0 wf_v); [reflexivity|apply takes_slot|].
  intros w Hw. destruct w; try apply takes_fail. apply wf_VArray in Hw. eapply (takes_bind 0 0 0); [reflexivity|now apply H|]. intros [l' a] [H1 H2]. cbn [fst snd] in *.
  apply (takes_bind 0 0 0 (fun _ => True)); [reflexivity|apply takes_set; now apply wf_VArray|]. intros _ _. now apply takes_ret.
Qed.
Lemma takes_at_array_bind : forall {A B} k (R : A -> Prop) (R' : B -> Prop) v f (g : A -> M B), wf_v v ->
  (forall l, Forall wf_v l -> takes 0 (fun r => Forall wf_v (fst r) /\ R (snd r)) (f l)) -> (forall a, R a -> takes k R' (g a)) -> takes k R' (bind (at_array v f) g).
Proof. intros. apply (takes_bind 0 k k R); [reflexivity|now apply takes_at_array|auto]. Qed.
(** steps with the number of arguments left *)
Lemma b_pop : forall {B} k (R : B -> Prop) f, (forall v, wf_v v -> takes k R (f v)) -> takes (S k) R (bind pop f).
Proof. intros. apply (takes_bind 1 k _ wf_v); [reflexivity|apply takes_pop|auto]. Qed.
Lemma b_getv : forall {B} k (R : B -> Prop) f v, wf_v v -> (forall x, wf_v x -> takes k R (f x)) -> takes k R (bind (getv v) f).
Proof. intros. apply (takes_bind 0 k _ wf_v); [reflexivity|now apply takes_getv|auto]. Qed.
Lemma b_deep : forall {B} k (R : B -> Prop) f n v, wf_v v -> (forall x, wf_v x -> takes k R (f x)) -> takes k R (bind (deep n v) f).
Proof. intros. apply (takes_bind 0 k _ wf_v); [reflexivity|now apply takes_deep|auto]. Qed.
Lemma b_arg : forall {A B} k (R : B -> Prop) (g : value -> option A) f, (forall a, takes k R (f a)) -> takes (S k) R (bind (arg g) f).
Proof. intros. apply (takes_bind 1 k _ (fun _ => True)); [reflexivity|apply takes_arg|auto]. Qed.
Lemma b_expect : forall {A B} k (R : B -> Prop) (g : value -> option A) f, (forall a, takes k R (f a)) -> takes (S k) R (bind (arg_expect g) f).
Proof. intros. apply (takes_bind 1 k _ (fun _ => True)); [reflexivity|apply takes_arg_expect|auto]. Qed.
Lemma b_number : forall {B} k (R : B -> Prop) f v, wf_v v -> (forall x, takes k R (f x)) -> takes k R (bind (number_arg v) f).
Proof. intros. apply (takes_bind 0 k _ (fun _ => True)); [reflexivity|now apply takes_number|auto]. Qed.
Lemma b_copy : forall {B} k (R : B -> Prop) n f, (forall v, wf_v v -> takes k R (f v)) -> takes (S k) R (bind (copy_arg n) f).
Proof. intros. apply (takes_bind 1 k _ wf_v); [reflexivity|apply takes_copy|auto]. Qed.
Lemma b_best : forall {B} k (R : B -> Prop) better l b f, Forall wf_v l -> (forall x, takes k R (f x)) -> takes k R (bind (best_of better l b) f).
Proof. intros. apply (takes_bind 0 k _ (fun _ => True)); [reflexivity|now apply takes_best|auto]. Qed.

Lemma Forall_rev' : forall l, Forall wf_v l -> Forall wf_v (rev l).
Proof. intros. now apply Forall_rev. Qed.
Lemma wf_sec_array : forall l, match Some l with Some l => all_ok wf_v l | None => True end -> wf_v (VArray (rev l)).
Proof. intros l H. apply wf_VArray. apply Forall_rev. now apply all_ok_Forall. Qed.
Lemma wf_texts : forall l, wf_v (VArray (map VStr l)).
Proof. intros l. apply wf_VArray. rewrite Forall_map. apply Forall_forall. intros. exact I. Qed.
Lemma wf_key_texts : forall (l : list (string * value)), wf_v (VArray (map (fun kx => VStr (fst kx)) l)).
Proof. intros l. apply wf_VArray. rewrite Forall_map. apply Forall_forall. intros. exact I. Qed.
Lemma wf_opt : forall x, wf_v (opt x).
Proof. intros [[| |]|]; exact I. Qed.
Lemma wf_bool_why : forall b sec w, wf_v (VBool b sec) -> wf_v w -> wf_v (VBool b (Some match sec with None => [w] | Some l => l ++ [w] end)).
Proof. intros b sec w H W. change (match sec with Some l => all_ok wf_v l | None => True end) in H. change (all_ok wf_v match sec with None => [w] | Some l => l ++ [w] end). destruct sec; [apply all_ok_app; split; [exact H|]|]; (split; [exact W|exact I]). Qed.
Lemma wf_f64_where : forall b sec w, wf_v (VF64 b sec) -> wf_v w -> wf_v (VF64 b (Some match sec with None => [w] | Some l => l ++ [w] end)).
Proof. intros b sec w H W. exact (wf_bool_why true sec w H W). Qed.
End Takes.

Ltac lib_wf := first [assumption | exact I | apply wf_opt | apply wf_texts | apply wf_key_texts | (apply wf_sec_array; assumption)
  | (apply wf_bool_why; assumption) | (apply wf_f64_where; assumption) | (apply wf_VArray; assumption) | (eapply sec_wf_bb; eassumption)].
Ltac lib_step :=
  match goal with
  | |- takes _ _ _ _ _ (fail _) => apply takes_fail
  | |- takes _ _ _ _ _ (panic _) => apply takes_panic; noise
  | |- takes _ _ _ _ _ (ret _) => apply takes_ret
  | |- takes _ _ _ _ _ (bind pop _) => apply b_pop; intros
  | |- takes _ _ _ _ _ (bind (getv _) _) => apply b_getv; [assumption|intros]
  | |- takes _ _ _ _ _ (getv _) => apply takes_getv; assumption
  | |- takes _ _ _ _ _ (bind (deep _ _) _) => apply b_deep; [assumption|intros]
  | |- takes _ _ _ _ _ (bind (arg _) _) => apply b_arg; intros
  | |- takes _ _ _ _ _ (bind (arg_expect _) _) => apply b_expect; intros
  | |- takes _ _ _ _ _ (bind (number_arg _) _) => apply b_number; [assumption|intros]
  | |- takes _ _ _ _ _ (bind (copy_arg _) _) => apply b_copy; intros
  | |- takes _ _ _ _ _ (copy_arg _) => apply takes_copy
  | |- takes _ _ _ _ _ (bind (best_of _ _ _) _) => apply b_best; [apply wf_VArray; assumption|intros]
  | |- takes _ _ _ _ _ (at_array _ _) => apply takes_at_array; [assumption|intros]
  | |- takes _ _ _ _ _ (match ?x with _ => _ end) => destruct x
  end.

Section Entries.
Context (chk : bool) (E : env) (arity : string -> nat).
Context (O : math) (L : libm) (n : nat).
Notation wf_v := (wf_v chk E arity).
(** what is asked of a function, with the declaration *)
Definition keeps (e : PreludeModel.entry) : Prop :=
  match e_impl e with
  | IVoid f => takes chk E arity (length (p_tys (e_decl e))) (fun _ => True) f
  | IRet f => takes chk E arity (length (p_tys (e_decl e))) wf_v f
  | IBin f => forall a b, wf_v a -> wf_v b -> match f a b with POk v => wf_v v | PPanic w => quiet chk w | PErr _ => True end
  | IUn f => forall a, wf_v a -> match f a with POk v => wf_v v | PPanic w => quiet chk w | PErr _ => True end
  | IOther => True
  end.
Lemma equal_wf : forall a b, wf_v a -> match equal a b with POk v => (exists x sec, v = VBool x sec) /\ wf_v v | PPanic w => quiet chk w | PErr _ => True end.
Proof.
  fix IH 1. intros a b H. destruct a; try exact I; destruct b; try exact I; try (split; [eexists; eexists; reflexivity|first [exact I|exact H]]).
  exact (IH a b H).
Qed.
Lemma negated_wf : forall r, match r with POk v => (exists x sec, v = VBool x sec) /\ wf_v v | PPanic w => quiet chk w | PErr _ => True end ->
  match negated r with POk v => wf_v v | PPanic w => quiet chk w | PErr _ => True end.
Proof. intros [v|e|w] H; try exact H. destruct H as [(x & sec & ->) H]. exact H. Qed.
Lemma less_wf : forall a b, wf_v a -> match less a b with POk v => (exists x sec, v = VBool x sec) /\ wf_v v | PPanic w => quiet chk w | PErr _ => True end.
Proof. intros a b H. destruct a; try exact I; destruct b; try exact I; (split; [eexists; eexists; reflexivity|first [exact I|exact H]]). Qed.
Lemma less_or_equal_wf : forall a b, wf_v a -> match less_or_equal a b with POk v => (exists x sec, v = VBool x sec) /\ wf_v v | PPanic w => quiet chk w | PErr _ => True end.
Proof. intros a b H. destruct a; try exact I; destruct b; try exact I; (split; [eexists; eexists; reflexivity|first [exact I|exact H]]). Qed.
Lemma boolean_wf : forall r, match r with POk v => (exists x sec, v = VBool x sec) /\ wf_v v | PPanic w => quiet chk w | PErr _ => True end ->
  match r with POk v => wf_v v | PPanic w => quiet chk w | PErr _ => True end.
Proof. intros [v|e|w] H; try exact H. exact (proj2 H). Qed.

Lemma takes_keeps_array : forall l x, Forall wf_v l -> wf_v x -> Forall wf_v (l ++ [x]).
Proof. intros. apply Forall_app. auto. Qed.
Lemma takes_logic : forall op, takes chk E arity 2 wf_v (logic op).
Proof. intros op. unfold logic. repeat lib_step. lib_wf. Qed.
Lemma insert_wf : forall i x l, Forall wf_v l -> wf_v x -> Forall wf_v (insert_at i x l).
Proof. intros. apply Forall_app. split; [now apply Forall_firstn|]. constructor; auto. now apply Forall_skipn. Qed.
Lemma remove_wf : forall i l, Forall wf_v l -> Forall wf_v (remove_at i l).
Proof. intros. apply Forall_app. split; [now apply Forall_firstn|now apply Forall_skipn]. Qed.
Lemma takes_push : forall v x, wf_v v -> wf_v x -> takes chk E arity 0 (fun _ => True) (push_core v x).
Proof. intros. unfold push_core. repeat lib_step. split; [|exact I]. now apply takes_keeps_array. Qed.
Lemma takes_insert : forall v i x, wf_v v -> wf_v x -> takes chk E arity 0 (fun _ => True) (insert_core v i x).
Proof. intros. unfold insert_core. repeat lib_step. split; [|exact I]. now apply insert_wf. Qed.
Lemma keeps_std : Forall keeps (std O L n).
Proof.
  unfold std. repeat (apply Forall_cons; [|]); [..|apply Forall_nil]; unfold keeps; cbn [e_impl e_decl p_tys nl length]; try exact I.
  all: try (intros a b Ha Hb; first [apply boolean_wf; now apply less_wf | apply boolean_wf; now apply less_or_equal_wf | apply boolean_wf; now apply equal_wf
    | apply negated_wf; now apply less_wf | apply negated_wf; now apply less_or_equal_wf | apply negated_wf; now apply equal_wf]).
  all: try (intros a b Ha Hb; destruct a; try exact I; destruct b; first [exact I | exact Ha]).
  all: try (intros a Ha; destruct a; first [exact I | exact Ha]).
  all: try apply takes_logic.
  all: try (apply takes_ret; exact I).
  all: unfold cross, component, det, inv, mov, rot__axis_angle, ortho__pos_right_up_forward, proj__fov_near_far_ar, mvp__model_view_projection, scale,
    row_, col_, cv, rv, s_, indexed, clone_, print_, num, atan2, sleep, tau, parse_number, text, str__color, recolor, typeof, none, some_, ok_, err_, dir__angle, is_nan,
    is_err, is_ok, array_min, array_max, best_arg, unwrap, why, where_, explain_why, explain_where, head, tip, tail, neck, is_empty, array_push_ref, array_insert_ref,
    array_push, array_insert, array_reverse, array_clear, unwrap_or, unwrap_err, has, keys, chars.
  all: try (repeat lib_step; lib_wf).
  - lib_step. apply takes_ret. destruct (l_parse L a); exact I.
  - repeat lib_step. now apply takes_push.
  - repeat lib_step. now apply takes_insert.
  - repeat lib_step. now apply takes_push.
  - repeat lib_step. now apply takes_insert.
  - unfold array_pop. lib_step. apply takes_at_array; [assumption|]. intros l Hl. pose proof (Forall_rev Hl) as Hr. destruct (rev l) as [|x r] eqn:R; [apply takes_fail|].
    apply takes_ret. split; [now apply Forall_removelast|]. now inversion Hr.
  - unfold array_remove. do 3 lib_step. apply takes_at_array; [assumption|]. intros l Hl. cbv zeta. destruct (_ <=? _)%Z; [apply takes_fail|].
    destruct (nth_error l _) eqn:N; [|apply takes_panic; noise]. apply takes_ret. split; [now apply remove_wf|]. eapply nth_error_Forall; eauto.
  - repeat lib_step. split; [now apply Forall_rev|exact I].
  - repeat lib_step. split; [constructor|exact I].
  - unfold array_swap. do 5 lib_step. apply takes_at_array; [assumption|]. intros l Hl. cbv zeta. destruct (_ && _); [|apply takes_panic; noise].
    destruct (nth_error l (Z.to_nat (f64_to_usize _))) eqn:N1; [|apply takes_panic; noise]. destruct (nth_error l _) eqn:N2 in |- *; [|apply takes_panic; noise].
    apply takes_ret. split; [|exact I]. apply Forall_list_set; [apply Forall_list_set; auto|]; eapply nth_error_Forall; eauto.
Qed.
End Entries.
