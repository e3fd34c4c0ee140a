(** * C05: copies contain no references. *)
From Coq Require Import String List ZArith Bool Arith Lia.
From Verif Require Import Float64 Syntax InterpModel BalanceBase ControlSpec StdModel PathSpec P_Std P_Array Samples.
Import ListNotations.
Local Open Scope string_scope.
Local Open Scope nat_scope.
Local Open Scope list_scope.

Lemma each_Forall : forall {A} (P : A -> Prop) l, each P l <-> Forall P l.
Proof.
  intros A P l. induction l as [|x l IH]; simpl; split; intros H; auto.
  - destruct H. constructor; auto. apply IH; auto.
  - inversion H; subst. split; auto. apply IH; auto.
Qed.

Section Ind.
Context (P : value -> Prop)
  (Harr : forall l, Forall P l -> P (VArray l))
  (Hobj : forall l, Forall (fun kx => P (snd kx)) l -> P (VObject l))
  (Hsome : forall x, P x -> P (VSome x)) (Hok : forall x, P x -> P (VOk x)) (Herr : forall x t, P x -> P (VErr x t))
  (Hbool : forall b l, Forall P l -> P (VBool b (Some l))) (Hf64 : forall x l, Forall P l -> P (VF64 x (Some l)))
  (Hrest : forall v, match v with
     | VArray _ | VObject _ | VSome _ | VOk _ | VErr _ _ | VBool _ (Some _) | VF64 _ (Some _) => False | _ => True end -> P v).
Fixpoint value_ind2 (v : value) : P v :=
  let all := fix go (l : list value) : Forall P l :=
      match l with [] => Forall_nil _ | x :: l => Forall_cons _ (value_ind2 x) (go l) end in
  match v with
  | VArray l => Harr l (all l)
  | VObject l => Hobj l ((fix go (l : list (string * value)) : Forall (fun kx => P (snd kx)) l :=
      match l with [] => Forall_nil _ | kx :: l => Forall_cons kx (value_ind2 (snd kx)) (go l) end) l)
  | VSome x => Hsome x (value_ind2 x)
  | VOk x => Hok x (value_ind2 x)
  | VErr x t => Herr x t (value_ind2 x)
  | VBool b (Some l) => Hbool b l (all l)
  | VF64 b (Some l) => Hf64 b l (all l)
  | v => Hrest v I
  end.
End Ind.

Section Ind2.
Context (stack : list value) (P : value -> value -> Prop)
  (Href : forall i v w, nth_error stack i = Some v -> resolves stack v w -> P v w -> P (VRef i) w)
  (Harr : forall l l', Forall2 (resolves stack) l l' -> Forall2 P l l' -> P (VArray l) (VArray l'))
  (Hobj : forall l l', Forall2 (fun a b => fst a = fst b /\ P (snd a) (snd b)) l l' -> P (VObject l) (VObject l'))
  (Hsome : forall x y, resolves stack x y -> P x y -> P (VSome x) (VSome y))
  (Hok : forall x y, resolves stack x y -> P x y -> P (VOk x) (VOk y))
  (Herr : forall x y t, resolves stack x y -> P x y -> P (VErr x t) (VErr y t))
  (Hbool : forall b l l', Forall2 (resolves stack) l l' -> Forall2 P l l' -> P (VBool b (Some l)) (VBool b (Some l')))
  (Hf64 : forall x l l', Forall2 (resolves stack) l l' -> Forall2 P l l' -> P (VF64 x (Some l)) (VF64 x (Some l')))
  (Hleaf : forall v, plain_leaf v -> P v v).
Fixpoint resolves_ind2 (v w : value) (H : resolves stack v w) {struct H} : P v w :=
  let all := fix go (l l' : list value) (F : Forall2 (resolves stack) l l') {struct F} : Forall2 P l l' :=
      match F with
      | Forall2_nil _ => Forall2_nil _
      | Forall2_cons x y h t => Forall2_cons x y (resolves_ind2 x y h) (go _ _ t)
      end in
  match H with
  | Rs_ref _ i v w h r => Href i v w h r (resolves_ind2 v w r)
  | Rs_array _ l l' F => Harr l l' F (all l l' F)
  | Rs_object _ l l' F => Hobj l l'
      ((fix go (l l' : list (string * value)) (F : Forall2 (fun a b => fst a = fst b /\ resolves stack (snd a) (snd b)) l l') {struct F}
          : Forall2 (fun a b => fst a = fst b /\ P (snd a) (snd b)) l l' :=
          match F with
          | Forall2_nil _ => Forall2_nil _
          | Forall2_cons x y h t => Forall2_cons x y (match h with conj e r => conj e (resolves_ind2 _ _ r) end) (go _ _ t)
          end) l l' F)
  | Rs_some _ x y r => Hsome x y r (resolves_ind2 x y r)
  | Rs_ok _ x y r => Hok x y r (resolves_ind2 x y r)
  | Rs_err _ x y t r => Herr x y t r (resolves_ind2 x y r)
  | Rs_bool _ b l l' F => Hbool b l l' F (all l l' F)
  | Rs_f64 _ b l l' F => Hf64 b l l' F (all l l' F)
  | Rs_leaf _ v h => Hleaf v h
  end.
End Ind2.

Lemma no_refs_obj : forall l, each (fun kx : string * value => match kx with (_, x) => no_refs x end) l <->
  Forall (fun kx => no_refs (snd kx)) l.
Proof. intros l. rewrite each_Forall. split; apply Forall_impl; intros []; auto. Qed.
Lemma sealed_obj : forall l, each (fun kx : string * value => match kx with (_, x) => sealed x end) l <->
  Forall (fun kx => sealed (snd kx)) l.
Proof. intros l. rewrite each_Forall. split; apply Forall_impl; intros []; auto. Qed.
Lemma no_refs_sealed : forall v, no_refs v -> sealed v.
Proof.
  apply (value_ind2 (fun v => no_refs v -> sealed v)); intros; simpl in *; auto.
  - rewrite each_Forall in *. rewrite Forall_forall in *. auto.
  - rewrite no_refs_obj in H0. rewrite sealed_obj. rewrite Forall_forall in *. auto.
  - destruct v; auto; contradiction.
Qed.

Lemma Forall_F2 : forall {A} (P : A -> A -> Prop) l, Forall (fun x => P x x) l -> Forall2 P l l.
Proof. induction 1; constructor; auto. Qed.
Lemma F2_impl : forall {A B} (P Q : A -> B -> Prop) l l', (forall a b, P a b -> Q a b) -> Forall2 P l l' -> Forall2 Q l l'.
Proof. induction 2; constructor; auto. Qed.
Lemma F2_eq : forall {A} (l l' : list A), Forall2 eq l l' -> l' = l.
Proof. induction 1; subst; auto. Qed.

(** What has no references is its own copy, and the only one. *)
Lemma resolves_refl : forall stack v, no_refs v -> resolves stack v v.
Proof.
  intros stack. apply (value_ind2 (fun v => no_refs v -> resolves stack v v)); intros; simpl in *; try contradiction.
  - apply Rs_array, Forall_F2. rewrite each_Forall in H0. rewrite Forall_forall in *. auto.
  - apply Rs_object, Forall_F2. rewrite no_refs_obj in H0. rewrite Forall_forall in *. auto.
  - apply Rs_some; auto.
  - apply Rs_ok; auto.
  - apply Rs_err; auto.
  - apply Rs_bool, Forall_F2. rewrite each_Forall in H0. rewrite Forall_forall in *. auto.
  - apply Rs_f64, Forall_F2. rewrite each_Forall in H0. rewrite Forall_forall in *. auto.
  - apply Rs_leaf. destruct v as [| |? []|? []| | | | | | | | | | | | | | | ]; simpl in *; auto.
Qed.
Lemma resolves_same : forall stack v w, resolves stack v w -> no_refs v -> w = v.
Proof.
  intros stack. assert (forall l l', Forall2 (fun v w => no_refs v -> w = v) l l' -> each no_refs l -> l' = l) as HL.
  { induction 1; simpl; intros Hn; auto. destruct Hn. f_equal; auto. }
  apply (resolves_ind2 stack (fun v w => no_refs v -> w = v)); intros; simpl in *; try contradiction; auto; try (f_equal; auto; fail).
  - f_equal. induction H as [|[k x] [k' y] l l' [E H] F IH]; auto. simpl in *. destruct H0. subst. f_equal; auto. f_equal; auto.
  - do 2 f_equal; auto.
  - do 2 f_equal; auto.
Qed.

(** ** The model's copy *)

Definition via (n : nat) (stack : list value) (i : nat) : dres :=
  match n with
  | O => DOOF
  | S n => match nth_error stack i with Some w => deep_clone n stack w | None => DPanic end
  end.
Lemma deep_clone_via : forall n stack v, deep_clone n stack v = deep_val (via n stack) v.
Proof. destruct n; reflexivity. Qed.

Lemma F2_impl_In : forall {A B} (P Q : A -> B -> Prop) l l', Forall (fun a => forall b, P a b -> Q a b) l -> Forall2 P l l' -> Forall2 Q l l'.
Proof. intros A B P Q l l' H. revert l'. induction H; intros l' F; inversion F; subst; constructor; auto. Qed.

Lemma deep_sound : forall n stack v w, Forall sealed stack -> sealed v -> deep_clone n stack v = DOk w ->
  no_refs w /\ resolves stack v w.
Proof.
  induction n as [n IHn] using lt_wf_ind. intros stack v w Hs. revert v w.
  apply (value_ind2 (fun v => forall w, sealed v -> deep_clone n stack v = DOk w -> no_refs w /\ resolves stack v w));
    intros; rewrite ?deep_clone_via in *; cbn [deep_val] in *.
  - destruct (dmap_arr (deep_val (via n stack)) l) as [l'|d] eqn:F; [|exfalso; subst d; eapply dmap_arr_err; eauto].
    apply dmap_arr_ok in F. inversion H1; subst. cbn [sealed] in H0. rewrite each_Forall in H0.
    assert (Forall2 (fun x y => no_refs y /\ resolves stack x y) l l') as G.
    { eapply F2_impl_In; [|exact F]. rewrite Forall_forall in *. intros x Hx y Hy. apply (H x Hx y (H0 x Hx)).
      rewrite deep_clone_via. exact Hy. }
    split; [|apply Rs_array; eapply F2_impl; [|exact G]; intros ? ? [_ Q]; exact Q].
    simpl. rewrite each_Forall. clear -G. induction G; constructor; tauto.
  - destruct (dmap_obj (deep_val (via n stack)) l) as [l'|d] eqn:F; [|exfalso; subst d; eapply dmap_obj_err; eauto].
    apply dmap_obj_ok in F. inversion H1; subst. cbn [sealed] in H0. rewrite sealed_obj in H0.
    assert (Forall2 (fun a b => fst a = fst b /\ no_refs (snd b) /\ resolves stack (snd a) (snd b)) l l') as G.
    { eapply F2_impl_In; [|exact F]. rewrite Forall_forall in *. intros x Hx y [E Hy]. split; auto. apply (H x Hx _ (H0 x Hx)).
      rewrite deep_clone_via. exact Hy. }
    split; [|apply Rs_object; eapply F2_impl; [|exact G]; intros ? ? (E & _ & Q); exact (conj E Q)].
    simpl. rewrite no_refs_obj. clear -G. induction G; constructor; tauto.
  - inversion H1; subst. split; auto. apply resolves_refl; auto.
  - inversion H1; subst. split; auto. apply resolves_refl; auto.
  - inversion H1; subst. split; auto. apply resolves_refl; auto.
  - inversion H1; subst. split; auto. apply resolves_refl; auto.
  - inversion H1; subst. split; auto. apply resolves_refl; auto.
  - destruct v as [| |? []|? []| | | | | | | | | | | | | | | ]; try contradiction; cbn [deep_val] in H1; try discriminate;
      try (inversion H1; subst; split; [exact I|apply Rs_leaf; exact I]).
    destruct n as [|m]; [discriminate|]. simpl in H1. destruct (nth_error stack i) as [v|] eqn:N; [|discriminate].
    assert (sealed v) as Hv by (eapply nth_error_Forall; eauto).
    destruct (IHn m (Nat.lt_succ_diag_r m) stack v w Hs Hv H1) as [A B]. split; auto. eapply Rs_ref; eauto.
Qed.

Definition fine (n : nat) (stack : list value) (v w : value) : Prop := forall m, n <= m -> deep_clone m stack v = DOk w.
Lemma fine_le : forall n k stack v w, n <= k -> fine n stack v w -> fine k stack v w.
Proof. intros n k stack v w H F m Hm. apply F. lia. Qed.
Lemma fine_all : forall stack l l', Forall2 (fun v w => exists n, fine n stack v w) l l' -> exists n, Forall2 (fine n stack) l l'.
Proof.
  intros stack l l'. induction 1 as [|v w l l' (n & H) F (k & IH)]; [exists 0; constructor|]. exists (n + k). constructor.
  - eapply fine_le; [|exact H]. lia.
  - eapply F2_impl; [|exact IH]. intros a b G. eapply fine_le; [|exact G]. lia.
Qed.
Lemma dmap_arr_run : forall f l l', Forall2 (fun x y => f x = DOk y) l l' -> dmap_arr f l = inl l'.
Proof. induction 1 as [|x y l l' H F IH]; simpl; auto. rewrite H, IH. reflexivity. Qed.
Lemma dmap_obj_run : forall f l l', Forall2 (fun a b => fst a = fst b /\ f (snd a) = DOk (snd b)) l l' -> dmap_obj f l = inl l'.
Proof. induction 1 as [|[k x] [k' y] l l' [E H] F IH]; simpl in *; auto. subst. rewrite H, IH. reflexivity. Qed.

Lemma deep_complete : forall stack v w, Forall sealed stack -> resolves stack v w -> sealed v -> exists n, fine n stack v w.
Proof.
  intros stack v w Hs. revert v w.
  assert (forall v, no_refs v -> (forall i, v <> VRef i) -> (forall l, v <> VArray l) -> (forall l, v <> VObject l) -> fine 0 stack v v) as HN.
  { intros v Hv A B C m _. rewrite deep_clone_via. destruct v; try reflexivity; try contradiction; [edestruct B|edestruct C]; reflexivity. }
  apply (resolves_ind2 stack (fun v w => sealed v -> exists n, fine n stack v w)); intros; simpl in *.
  - destruct H1 as (n & F); [eapply nth_error_Forall; eauto|]. exists (S n). intros [|m] Hm; [lia|].
    simpl. rewrite H. apply F. lia.
  - rewrite each_Forall in H1. assert (Forall2 (fun v w => exists n, fine n stack v w) l l') as G.
    { clear -H0 H1. revert H1. induction H0; intros G; inversion G; subst; constructor; auto. }
    destruct (fine_all _ _ _ G) as (n & F). exists n. intros m Hm. rewrite deep_clone_via. simpl.
    rewrite (dmap_arr_run _ l l'); auto. eapply F2_impl; [|exact F]. intros a b Q. rewrite <- deep_clone_via. apply Q. auto.
  - rewrite sealed_obj in H0. assert (exists n, Forall2 (fun a b => fst a = fst b /\ fine n stack (snd a) (snd b)) l l') as (n & F).
    { clear -H H0. revert H0. induction H as [|a b l l' [E H] F IH]; intros G; inversion G; subst; [exists 0; constructor|].
      destruct (H H2) as (n & Q). destruct (IH H3) as (k & R). exists (n + k). constructor.
      - split; auto. eapply fine_le; [|exact Q]. lia.
      - eapply F2_impl; [|exact R]. intros x y [E' S]. split; auto. eapply fine_le; [|exact S]. lia. }
    exists n. intros m Hm. rewrite deep_clone_via. simpl.
    rewrite (dmap_obj_run _ l l'); auto. eapply F2_impl; [|exact F]. intros a b [E Q]. split; auto. rewrite <- deep_clone_via. apply Q. auto.
  - exists 0. rewrite (resolves_same _ _ _ H H1). apply HN; auto; discriminate.
  - exists 0. rewrite (resolves_same _ _ _ H H1). apply HN; auto; discriminate.
  - exists 0. rewrite (resolves_same _ _ _ H H1). apply HN; auto; discriminate.
  - exists 0. rewrite (resolves_same stack (VBool b (Some l)) (VBool b (Some l'))); [apply HN; auto; discriminate|apply Rs_bool; auto|auto].
  - exists 0. rewrite (resolves_same stack (VF64 x (Some l)) (VF64 x (Some l'))); [apply HN; auto; discriminate|apply Rs_f64; auto|auto].
  - exists 0. intros m _. rewrite deep_clone_via. destruct v; try reflexivity; contradiction.
Qed.

(** ** C05 *)

(** A copy exists exactly when every reference leads to a value after finitely many steps; it has no
    references and is the original with references replaced. Missing in the whole: [sealed] is assumed
    of the values; see [C05_try_refuted] for a program that breaks it. *)
Theorem C05_copy_partial : forall stack v, Forall sealed stack -> sealed v ->
  (forall n w, deep_clone n stack v = DOk w -> no_refs w /\ resolves stack v w) /\
  (forall w, resolves stack v w -> exists n, forall m, n <= m -> deep_clone m stack v = DOk w).
Proof.
  intros stack v Hs Hv. split; [intros n w H; eapply deep_sound; eauto|]. intros w H. exact (deep_complete stack v w Hs H Hv).
Qed.
Print Assumptions C05_copy_partial.
(** There is one copy. *)
Theorem C05_unique : forall stack v w w', Forall sealed stack -> sealed v -> resolves stack v w -> resolves stack v w' -> w = w'.
Proof.
  intros stack v w w' Hs Hv H1 H2. destruct (deep_complete _ _ _ Hs H1 Hv) as (n & F1). destruct (deep_complete _ _ _ Hs H2 Hv) as (k & F2).
  specialize (F1 (n + k)). specialize (F2 (n + k)). assert (DOk w = DOk w') as Q; [|congruence].
  rewrite <- F1, <- F2 by lia. reflexivity.
Qed.
Print Assumptions C05_unique.
(** A value without references is copied unchanged, whatever the stack. *)
Theorem C05_unchanged : forall n stack v w, no_refs v -> deep_clone n stack v = DOk w -> w = v.
Proof.
  intros n stack v w H C. assert (exists n, deep_clone n [] v = DOk w) as (m & Q).
  { exists 0. rewrite deep_clone_via in *. revert v w H C. apply (value_ind2 (fun v => forall w, no_refs v -> deep_val (via n stack) v = DOk w -> deep_val (via 0 []) v = DOk w));
      intros; cbn [deep_val no_refs] in *; auto.
    - destruct (dmap_arr (deep_val (via n stack)) l) as [l'|d] eqn:F; [|exfalso; subst d; eapply dmap_arr_err; eauto].
      rewrite (dmap_arr_run (deep_val (via 0 [])) l l'); auto. apply dmap_arr_ok in F. eapply F2_impl_In; [|exact F].
      rewrite each_Forall in H0. rewrite Forall_forall in *. auto.
    - destruct (dmap_obj (deep_val (via n stack)) l) as [l'|d] eqn:F; [|exfalso; subst d; eapply dmap_obj_err; eauto].
      rewrite (dmap_obj_run (deep_val (via 0 [])) l l'); auto. apply dmap_obj_ok in F. eapply F2_impl_In; [|exact F].
      rewrite no_refs_obj in H0. rewrite Forall_forall in *. intros x Hx y [E Hy]. split; auto.
    - destruct v; cbn [deep_val no_refs] in *; auto; contradiction. }
  destruct (deep_sound m [] v w (Forall_nil _) (no_refs_sealed v H) Q) as [_ R]. eapply resolves_same; eauto.
Qed.
Print Assumptions C05_unchanged.

(** ** Where copies are made *)

Definition sealed_state (s : rt) : Prop := Forall sealed (r_stack s).

(** [clone], [some], [ok], [err]: the argument is taken off, what they give contains no reference. *)
Theorem C05_intrinsics : forall n s stk v x r s', r_stack s = stk ++ [v] -> Forall sealed stk ->
  denotes (set_stack stk s) v x -> sealed x ->
  (clone_ n s = Ok r s' -> s' = set_stack stk s /\ no_refs r /\ resolves stk x r) /\
  (some_ n s = Ok r s' -> s' = set_stack stk s /\ exists y, r = VSome y /\ no_refs r /\ resolves stk x y) /\
  (ok_ n s = Ok r s' -> s' = set_stack stk s /\ exists y, r = VOk y /\ no_refs r /\ resolves stk x y) /\
  (err_ n s = Ok r s' -> s' = set_stack stk s /\ exists y, r = VErr y [] /\ no_refs r /\ resolves stk x y).
Proof.
  intros n s stk v x r s' Hs Hk D Hx.
  assert (copy_arg n s = match deep_clone n stk x with DOk w => Ok w (set_stack stk s) | DPanic => Panic "deep_clone" | DOOF => OOF end) as Q.
  { unfold copy_arg, bind. rewrite (pop_run _ _ _ Hs), (getv_run _ _ _ D). reflexivity. }
  unfold clone_, some_, ok_, err_, bind. rewrite Q. destruct (deep_clone n stk x) as [w| |] eqn:C; try (splits; discriminate).
  destruct (deep_sound _ _ _ _ Hk Hx C). splits; intros H1; inversion H1; subst; eauto 6.
Qed.
Print Assumptions C05_intrinsics.

(** [go f(..)]: the arguments are evaluated in order, [log] has the state and value of each; the new
    thread starts with their copies. *)
Inductive evaluated (E : env) (n : nat) : list expr -> rt -> list (rt * value) -> rt -> Prop :=
| Ev_nil : forall s, evaluated E n [] s [] s
| Ev_cons : forall e es s x s1 log s', eval E n e Right s = Ok (Some x, FContinue) s1 -> evaluated E n es s1 log s' ->
    evaluated E n (e :: es) s ((s1, x) :: log) s'.
Definition copied (a : rt * value) (w : value) : Prop :=
  sealed_state (fst a) -> sealed (snd a) -> no_refs w /\ resolves (r_stack (fst a)) (snd a) w.
Lemma go_args_log : forall E n args acc s stk s', go_args (eval E n) n args acc s = Ok (inl stk) s' ->
  exists log ws, evaluated E n args s log s' /\ Forall2 copied log ws /\ stk = rev ws ++ acc.
Proof.
  intros E n. induction args as [|e args IH]; intros acc s stk s' H; cbn [go_args] in H.
  - inversion H; subst. exists [], []. repeat constructor.
  - unfold vexpr, bind in H. destruct (eval E n e Right s) as [[[x|] fl] s1|m s1|w|] eqn:He; try discriminate.
    2: { destruct fl; discriminate. }
    destruct fl; try discriminate. unfold deep in H. destruct (deep_clone n (r_stack s1) x) as [w| |] eqn:C; try discriminate.
    apply IH in H. destruct H as (log & ws & A & B & ->). exists ((s1, x) :: log), (w :: ws). splits.
    + econstructor; eauto.
    + constructor; auto. intros Hs Hx. simpl in *. eapply deep_sound; eauto.
    + simpl. rewrite <- app_assoc. reflexivity.
Qed.
Theorem C05_thread_partial : forall E n name args s t s', eval E (S n) (EGo name args) Right s = Ok (Some (VThread (Some t)), FContinue) s' ->
  (exists c, r_calls s = c :: tl (r_calls s)) ->
  exists log ws s1 sp, evaluated E n args s log s1 /\ Forall2 copied log ws /\
    nth_error (w_threads (r_world s')) t = Some sp /\ sp_stack sp = rev ws /\ r_stack s' = r_stack s1.
Proof.
  intros E n name args s t s' H (c & Hc). cbn [eval expression] in H. unfold go_, bind, gets in H. rewrite Hc in H.
  destruct (nth_error (e_mods E) (r_mod s)); [|discriminate].
  destruct (go_args (eval E n) n args [] s) as [[stk|x] s1|? ?|?|] eqn:G; try discriminate.
  apply go_args_log in G. destruct G as (log & ws & A & B & ->). inversion H; subst. exists log, ws, s1. eexists. splits; eauto.
  - simpl. rewrite nth_error_app2, Nat.sub_diag by lia. reflexivity.
  - simpl. apply app_nil_r.
Qed.
Print Assumptions C05_thread_partial.

(** What a thread gives back when it ends is a copy of the result of the call, or of the top of its
    stack if the call gave none. *)
Theorem C05_result_partial : forall E n sp w r s', thread_run E n sp (thread_rt w sp) = Ok r s' ->
  exists o fl s1 x, call_internal E (eval E n) n (sp_fn sp) (sp_name sp) (sp_args sp) false (thread_rt w sp) = Ok (o, fl) s1 /\
    match o with Some y => x = y /\ s' = s1 | None => r_stack s1 = r_stack s' ++ [x] end /\
    (sealed_state s' -> sealed x -> no_refs r /\ resolves (r_stack s') x r).
Proof.
  intros E n sp w r s' H. unfold thread_run, bind in H.
  destruct (call_internal E (eval E n) n (sp_fn sp) (sp_name sp) (sp_args sp) false (thread_rt w sp)) as [[o fl] s1|? ?|?|] eqn:C; try discriminate.
  destruct (match fst (o, fl) with Some x => ret x | None => pop end s1) as [x s2|? ?|?|] eqn:Q; try discriminate.
  unfold deep in H. destruct (deep_clone n (r_stack s2) x) as [y| |] eqn:D; try discriminate. inversion H; subst.
  exists o, fl, s1, x. splits; auto.
  - destruct o; simpl in Q; [inversion Q; auto|]. unfold pop in Q. destruct (rev (r_stack s1)) as [|z l] eqn:R; [discriminate|].
    assert (r_stack s1 = rev l ++ [z]) as S1 by (rewrite <- (rev_involutive (r_stack s1)), R; reflexivity).
    inversion Q; subst. simpl. rewrite S1, removelast_app by discriminate. simpl. rewrite app_nil_r. reflexivity.
  - intros Hs Hx. eapply deep_sound; eauto.
Qed.
Print Assumptions C05_result_partial.

(** A call sends one message to the channels opened on the function: the list of copies of its
    arguments and current objects ([st] is where they begin). Nothing else changes. *)
Lemma deep_all_copy : forall n vs s xs s', deep_all n vs s = Ok xs s' -> s' = s /\
  Forall2 (fun v x => sealed_state s -> sealed v -> no_refs x /\ resolves (r_stack s) v x) vs xs.
Proof.
  intros n. induction vs as [|v vs IH]; intros s xs s' H; cbn [deep_all] in H; [inversion H; auto|].
  unfold bind, deep in H. destruct (deep_clone n (r_stack s) v) as [y| |] eqn:D; try discriminate.
  destruct (deep_all n vs s) as [l s1|? ?|?|] eqn:Q; try discriminate. inversion H; subst. destruct (IH _ _ _ Q) as [-> F].
  split; auto. constructor; auto. intros Hs Hv. eapply deep_sound; eauto.
Qed.
Lemma send_all_msgs : forall chans msg qs c q', nth_error (send_all chans msg qs) c = Some q' ->
  exists q, nth_error qs c = Some q /\ q' = q ++ repeat msg (count_occ Nat.eq_dec chans c).
Proof.
  unfold send_all. induction chans as [|d chans IH]; intros msg qs c q' H; simpl in H.
  - exists q'. simpl. rewrite app_nil_r. auto.
  - apply IH in H. destruct H as (q & Hq & ->). simpl. destruct (nth_error qs d) as [qd|] eqn:Qd.
    + assert (d < length qs) by (apply nth_error_Some; congruence). destruct (Nat.eq_dec d c) as [->|N].
      * rewrite nth_set_eq in Hq by auto. inversion Hq; subst. exists qd. split; auto. rewrite <- app_assoc. reflexivity.
      * rewrite nth_set_ne in Hq by auto. eauto.
    + destruct (Nat.eq_dec d c) as [->|N]; [congruence|eauto].
Qed.
Theorem C05_message_partial : forall n fi st s s', send_args n fi st s = Ok tt s' ->
  (s' = s /\ forall c, ~ In (r_mod s, fi, c) (w_senders (r_world s))) \/
  (r_stack s' = r_stack s /\ exists msg,
    Forall2 (fun v x => sealed_state s -> sealed v -> no_refs x /\ resolves (r_stack s) v x) (skipn st (r_stack s)) msg /\
    forall c q', nth_error (w_queues (r_world s')) c = Some q' ->
      exists q k, nth_error (w_queues (r_world s)) c = Some q /\ q' = q ++ repeat (VArray msg) k /\
        (0 < k <-> In (r_mod s, fi, c) (w_senders (r_world s)))).
Proof.
  intros n fi st s s' H. unfold send_args, bind, gets in H.
  set (chans := map snd (filter (fun x => Nat.eqb (fst (fst x)) (r_mod s) && Nat.eqb (snd (fst x)) fi) (w_senders (r_world s)))) in *.
  assert (forall c, In c chans <-> In (r_mod s, fi, c) (w_senders (r_world s))) as HC.
  { intros c. subst chans. rewrite in_map_iff. split.
    - intros ([[a b] d] & E & I1). apply filter_In in I1. destruct I1 as [I1 T]. simpl in *. apply andb_prop in T. destruct T as [T1 T2].
      apply Nat.eqb_eq in T1, T2. subst. auto.
    - intros I1. exists (r_mod s, fi, c). split; auto. apply filter_In. split; auto. simpl. rewrite !Nat.eqb_refl. reflexivity. }
  clearbody chans. destruct chans as [|c0 cl] eqn:Hch.
  - inversion H; subst. left. split; auto. intros c Hc. apply HC in Hc. destruct Hc.
  - right. rewrite <- Hch in *. cbv beta in H. destruct (deep_all n (skipn st (r_stack s)) s) as [msg s1|? ?|?|] eqn:D; try discriminate.
    destruct (deep_all_copy _ _ _ _ _ D) as [-> F]. unfold modify in H. inversion H; subst s'. simpl. split; auto. exists msg. split; auto.
    intros c q' Hq. apply send_all_msgs in Hq. destruct Hq as (q & Hq & ->). eexists q, _. splits; eauto.
    rewrite <- HC, (count_occ_In Nat.eq_dec). reflexivity.
Qed.
Print Assumptions C05_message_partial.

(** ** Where it fails

    [try x] wraps a bare variable without copying it (mod.rs 707-734, item returns a reference), and
    copying does not look into results: [clone] gives back a reference.
    x := "a"; y := try x; clone(y) *)
Theorem C05_try_refuted :
  exists s', eval std_ 20 (EBlock [decl "x" false (EVar (VStr "a")); decl "y" false (ETryExpr (loc "x" 1));
    ECall (FRet "clone") "clone" [loc "y" 1]]) Right (RT 0 [] [Call "main" 0 0 0 0] [] [] (World [] [] [])) =
  Ok (Some (VOk (VRef 0)), FContinue) s'.
Proof. eexists. vm_compute. reflexivity. Qed.
(** So the copy changes with the variable: the result is "b".
    x := "a"; y := clone(try x); x = "b"; z := unwrap(y); z *)
Theorem C05_try_alias_refuted :
  exists s', eval std_ 20 (EBlock [decl "x" false (EVar (VStr "a"));
    decl "y" false (ECall (FRet "clone") "clone" [ETryExpr (loc "x" 1)]);
    EAssign OpSet (loc "x" 2) (EVar (VStr "b"));
    decl "z" false (ECall (FRet "unwrap") "unwrap" [loc "y" 1]);
    ECall (FRet "clone") "clone" [loc "z" 1]]) Right (RT 0 [] [Call "main" 0 0 0 0] [] [] (World [] [] [])) =
  Ok (Some (VStr "b"), FContinue) s'.
Proof. eexists. vm_compute. reflexivity. Qed.
(** A thread can get a reference into the stack it was started from. go f(try x) *)
Theorem C05_thread_refuted :
  exists s' sp, eval std_ 20 (EBlock [decl "x" false (EVar (VStr "a")); EGo "f" [ETryExpr (loc "x" 1)]]) Right
    (RT 0 [] [Call "main" 0 0 0 0] [] [] (World [] [] [])) = Ok (Some (VThread (Some 0)), FContinue) s' /\
  nth_error (w_threads (r_world s')) 0 = Some sp /\ sp_stack sp = [VOk (VRef 0)].
Proof. eexists. eexists. vm_compute. splits; reflexivity. Qed.

(** n := [1]; m := {a: n, b: ["q"]}: the copy of m is {a: [1], b: ["q"]}. *)
Example C05_example :
  let stk := [VArray [vf64 (f_of_Z 1)]; VObject [("a", VRef 0); ("b", VArray [VStr "q"])]] in
  Forall sealed stk /\
  deep_clone 2 stk (VRef 1) = DOk (VObject [("a", VArray [vf64 (f_of_Z 1)]); ("b", VArray [VStr "q"])]).
Proof. split; [repeat constructor|reflexivity]. Qed.
Example C05_example_thread :
  exists s' sp, eval std_ 20 (EBlock [decl "x" false (EVar (VStr "a")); EGo "f" [EArray [loc "x" 1]]]) Right
    (RT 0 [] [Call "main" 0 0 0 0] [] [] (World [] [] [])) = Ok (Some (VThread (Some 0)), FContinue) s' /\
  nth_error (w_threads (r_world s')) 0 = Some sp /\ sp_stack sp = [VArray [VStr "a"]].
Proof. eexists. eexists. vm_compute. splits; reflexivity. Qed.
