(** * Lemmas for P_Prelude.v: the functions of the library that take their arguments from the stack. *)
From Coq Require Import String List ZArith Bool Arith Lia Floats.SpecFloat.
From Verif Require Import Float64 Syntax InterpModel StdModel ColorModel TypeModel LifetimeModel TypecheckModel PreludeModel PreludeSpec PreludeProofs.
Import ListNotations.
Local Open Scope string_scope.
Local Open Scope nat_scope.
Local Open Scope list_scope.

(** Those that may fail, do not keep what they promise, or copy. *)
Definition limited : list string :=
  ["why"; "where"; "pop(mut)"; "remove(mut,_)"; "unwrap"; "unwrap_err"; "unwrap_or"; "s"; "rv"; "cv"; "str__color";
   "clone"; "some"; "ok"; "err"; "explain_why"; "explain_where"].

Section Calls.
Variables (S : option (list value) -> Prop) (stk : list value).
Hypothesis HS : Forall (sound (length stk)) stk.
Variables (O : math) (L : libm) (n : nat).

Ltac pre := first [apply prefix_refl | apply prefix_snoc; pre].
Ltac step1 := repeat rewrite e_pop.
Ltac start He Hf Hsg Hargs Hr Hn :=
  unfold signatures in Hsg; simpl in He;
  repeat (destruct He as [<- | He]; [simpl in Hf; try discriminate Hf; try (exfalso; apply Hn; simpl; tauto)|]); try contradiction He;
  injection Hf as <-; simpl in Hsg;
  repeat (destruct Hsg as [<- | Hsg]; [simpl in Hargs; simpl sret|]); try contradiction Hsg;
  clear Hn;
  repeat match goal with K : fit_args _ _ _ (_ :: _) |- _ => let H := fresh "Ha" in let R := fresh in inversion K as [|? ? ? ? H R]; subst; clear K; change (fit_args S stk) with (Forall2 (fits S stk)) in *
                       | K : Forall2 (fits S stk) _ (_ :: _) |- _ => let H := fresh "Ha" in let R := fresh in inversion K as [|? ? ? ? H R]; subst; clear K
                       | K : fit_args _ _ _ [] |- _ => inversion K; subst; clear K
                       | K : Forall2 (fits S stk) _ [] |- _ => inversion K; subst; clear K end;
  rewrite ?app_nil_r in Hr; repeat rewrite snoc2 in Hr;
  match type of Hr with r_stack ?s = ?l => rewrite <- (set_stack_id s l Hr) end; clear Hr.

Ltac no_ref D := exfalso; apply D; eexists; reflexivity.
Ltac take lem l s v H := let E := fresh "E" in let x := fresh "x" in
  destruct (lem S stk HS l s v ltac:(pre) H) as [x E]; rewrite E; clear E.
Ltac steps := repeat first
  [ rewrite e_pop | rewrite e_assoc | rewrite e_ret
  | match goal with
    | |- context [bind (arg as_f64) _ (set_stack (?l ++ [?v]) ?s)] => match goal with H : fits S stk v TF64 |- _ => take a_f64 l s v H end
    | |- context [bind (arg as_vec4) _ (set_stack (?l ++ [?v]) ?s)] => match goal with H : fits S stk v TVec4 |- _ => take a_vec4 l s v H end
    | |- context [bind (arg as_mat4) _ (set_stack (?l ++ [?v]) ?s)] => match goal with H : fits S stk v TMat4 |- _ => take a_mat4 l s v H end
    | |- context [bind (arg as_str) _ (set_stack (?l ++ [?v]) ?s)] => match goal with H : fits S stk v TStr |- _ => take a_str l s v H end
    | |- context [bind (arg as_link) _ (set_stack (?l ++ [?v]) ?s)] => match goal with H : fits S stk v TLink |- _ => take a_link l s v H end
    | |- context [bind (arg_expect as_f64) _ (set_stack (?l ++ [?v]) ?s)] => match goal with H : fits S stk v TF64 |- _ => take x_f64 l s v H end
    | |- context [bind (arg_expect as_vec4) _ (set_stack (?l ++ [?v]) ?s)] => match goal with H : fits S stk v TVec4 |- _ => take x_vec4 l s v H end
    | |- context [bind (arg_expect as_mat4) _ (set_stack (?l ++ [?v]) ?s)] => match goal with H : fits S stk v TMat4 |- _ => take x_mat4 l s v H end
    | |- context [bind (getv ?v) _ (set_stack ?l ?s)] => match goal with H : fits S stk v ?t |- _ =>
        let E := fresh "E" in let w := fresh "w" in let D := fresh "D" in let Hw := fresh "Hw" in let T := fresh "T" in
        destruct (e_getv S stk HS l s v t ltac:(pre) H) as (w & E & [Hw T] & D); rewrite E; clear E H;
        first [ let D' := fresh in assert (~ a_reference w) as D' by (exact (D I)); clear D; inversion T; subst; clear T; try no_ref D' | clear D T ] end
    end ].
Ltac unfolds := unfold and_also, or_else, logic, cross, component, det, inv, mov, rot__axis_angle, ortho__pos_right_up_forward,
  proj__fov_near_far_ar, mvp__model_view_projection, scale, row_, col_, num, atan2, head, tip, tail, neck, is_empty, tau, parse_number,
  text, recolor, typeof, none, dir__angle, chars, is_nan, array_min, array_max, best_arg, has, keys, is_ok, is_err.
Ltac done := eexists; split; [reflexivity|]; split; [sounds|repeat constructor; assumption].

Lemma opt_fits : forall x, fits S stk (opt x) (TOption TAny).
Proof. intros [[]|]; split; repeat constructor; discriminate. Qed.
Lemma strs_fit : forall l, fits S stk (VArray (map VStr l)) (TArray TStr).
Proof. intros l. split; constructor; induction l; constructor; auto; constructor. Qed.

Lemma ret_answers : forall e f sg args s, In e (std O L n) -> e_impl e = IRet f -> In sg (signatures (e_decl e)) -> ~ In (e_name e) limited ->
  fit_args S stk args (sargs sg) -> r_stack s = stk ++ args -> answers stk s (fun v => fits S stk v (sret sg)) (f s).
Proof.
  intros e f sg args s He Hf Hsg Hn Hargs Hr.
  start He Hf Hsg Hargs Hr Hn; unfolds; steps.
  all: try (done; fail).
  all: try match goal with H : sound _ (VArray ?l) |- context [best_of ?b ?l ?x] => inversion H as [| | | | | | |? Hl| | | | | | | | | |]; subst;
    destruct (best_of_ok S stk HS b l s x Hl) as [y E]; rewrite E; done end.
  - destruct (l_parse L x0); (eexists; split; [reflexivity|]); split; repeat constructor; discriminate.
  - eexists; split; [reflexivity|]. split; [apply opt_fits|apply Ty_any].
  - eexists; split; [reflexivity|]. apply opt_fits.
  - eexists; split; [reflexivity|]. rewrite <- map_map. apply strs_fit.
  - eexists; split; [reflexivity|]. apply strs_fit.
Qed.

(** *** Functions that may fail *)
Lemma Forall_firstn : forall {A} (P : A -> Prop) k l, Forall P l -> Forall P (firstn k l).
Proof. intros A P k l H. revert k. induction H; intros []; simpl; constructor; auto. Qed.
Lemma Forall_skipn' : forall {A} (P : A -> Prop) k l, Forall P l -> Forall P (skipn k l).
Proof. intros A P k l H. revert k. induction H; intros []; simpl; auto. Qed.
Lemma usize_pos : forall p, (0 <= f64_to_usize p)%Z.
Proof.
  intros [| | |[] m e]; simpl; try lia; try destruct s; try (unfold USIZE_MAX; lia).
  apply Z.min_glb; [|unfold USIZE_MAX; lia].
  destruct (0 <=? e)%Z; [destruct (1024 <? e)%Z; [unfold USIZE_MAX; lia|]|]; [apply Z.shiftl_nonneg|apply Z.shiftr_nonneg]; lia.
Qed.
Lemma Forall_snoc : forall {A} (P : A -> Prop) (l : list A) x, Forall P l -> P x -> Forall P (l ++ [x]).
Proof. intros. apply Forall_app. auto. Qed.
Lemma list_set_length : forall {A} i (x : A) l, length (list_set i x l) = length l.
Proof. intros A i x l. revert i. induction l; intros []; simpl; auto. Qed.
Lemma list_set_nth : forall {A} i (x : A) l j, nth_error (list_set i x l) j = if (Nat.eqb i j && Nat.ltb i (length l))%bool then Some x else nth_error l j.
Proof.
  intros A i x l. revert i. induction l as [|y l IH]; intros i j; simpl.
  - rewrite andb_false_r. destruct i; destruct j; reflexivity.
  - destruct i as [|i], j as [|j]; simpl; auto.
    rewrite IH. unfold Nat.ltb. reflexivity.
Qed.
Lemma list_set_Forall : forall {A} (P : A -> Prop) i x l, P x -> Forall P l -> Forall P (list_set i x l).
Proof. intros A P i x l Hx H. revert i. induction H; intros []; simpl; constructor; auto. Qed.
Lemma kept_set : forall l i a b, nth_error l i = Some (VArray a) -> kept l (list_set i (VArray b) l).
Proof.
  intros l i a b H. split; [apply list_set_length|]. intros j. rewrite list_set_nth.
  destruct (Nat.eqb_spec i j) as [->|]; simpl; [|left; reflexivity].
  destruct (Nat.ltb j (length l)); [right; eauto|left; reflexivity].
Qed.

Lemma at_array_gives : forall {A} t v s (f : list value -> M (list value * A)) (good : list value -> A -> Prop),
  fits S stk v (TArray t) ->
  (forall l, sound (length stk) (VArray l) -> match f l (set_stack stk s) with
     | Ok (l', a) s' => s' = set_stack stk s /\ Forall (sound (length stk)) l' /\ forall stk', kept stk stk' -> good stk' a
     | Err _ _ | OOF => True
     | Panic _ => False end) ->
  gives stk s good (at_array v f (set_stack stk s)).
Proof.
  intros A t v s f good [Hv _] Hf. destruct v as [i| | | | | | | | | | | | | | | | | |]; try exact I.
  inversion Hv as [? Hi| | | | | | | | | | | | | | | | |]; subst.
  simpl. unfold bind at 1, slot. simpl. destruct (nth_error stk i) as [w|] eqn:E; [|apply nth_error_None in E; lia].
  destruct w; try exact I.
  assert (sound (length stk) (VArray l)) as Hl by (rewrite Forall_forall in HS; apply HS; eapply nth_error_In; eauto).
  specialize (Hf l Hl). unfold bind. destruct (f l (set_stack stk s)) as [[l' a] s'| | |]; try exact Hf.
  destruct Hf as (-> & H1 & H2). simpl. exists (list_set i (VArray l') stk).
  split; [reflexivity|]. assert (kept stk (list_set i (VArray l') stk)) as K by (eapply kept_set; eauto).
  split; [exact K|]. split; [|apply H2; exact K].
  apply list_set_Forall; [constructor; exact H1|exact HS].
Qed.
Lemma e_deep : forall l s v, prefix stk l -> Forall (sound (length stk)) l -> sound (length stk) v ->
  (forall B (k : value -> M B), bind (deep n v) k (set_stack l s) = OOF) \/
  exists w, (forall B (k : value -> M B), bind (deep n v) k (set_stack l s) = k w (set_stack l s)) /\ fits S stk w TAny.
Proof.
  intros l s v Hp Hl Hv. pose proof (deep_sound n (length stk) l Hl (prefix_le _ _ Hp) v Hv) as H.
  unfold bind, deep. simpl. destruct (deep_clone n l v) as [w| |]; [right|contradiction|left; reflexivity].
  exists w. split; [reflexivity|]. split; [exact H|constructor].
Qed.
Lemma deep_gives : forall s v, sound (length stk) v -> gives stk s (fun stk' w => fits S stk' w TAny) (deep n v (set_stack stk s)).
Proof.
  intros s v Hv. pose proof (deep_sound n (length stk) stk HS (le_n _) v Hv) as H.
  unfold deep. simpl. destruct (deep_clone n stk v) as [w| |]; [|contradiction|exact I].
  exists stk. split; [reflexivity|]. split; [apply kept_refl|]. split; [exact HS|]. split; [exact H|constructor].
Qed.

Hypothesis HSome : forall l, S (Some l).
Ltac gave := exists stk; split; [reflexivity|]; split; [apply kept_refl|]; split; [exact HS|].

Lemma ret_gives : forall e f sg args s, In e (std O L n) -> e_impl e = IRet f -> In sg (signatures (e_decl e)) ->
  ~ In (e_name e) ["cv"; "str__color"] ->
  fit_args S stk args (sargs sg) -> r_stack s = stk ++ args -> gives stk s (fun stk' v => fits S stk' v (sret sg)) (f s).
Proof.
  intros e f sg args s He Hf Hsg Hn Hargs Hr.
  destruct (existsb (String.eqb (e_name e)) limited) eqn:Hl.
  2: { assert (~ In (e_name e) limited) as Hl'.
       { intros K. assert (existsb (String.eqb (e_name e)) limited = true) as K' by (apply existsb_exists; eexists; split; [exact K|apply String.eqb_refl]). congruence. }
       pose proof (ret_answers e f sg args s He Hf Hsg Hl' Hargs Hr) as H. apply (answers_gives stk HS) in H.
       destruct (f s); simpl in *; auto. destruct H as (stk' & H1 & H2 & H3 & -> & H4). eauto. }
  simpl in He; repeat (destruct He as [<- | He]; [try discriminate Hl; try (exfalso; apply Hn; simpl; tauto)|]); try contradiction He; clear Hl Hn.
  all: unfold signatures in Hsg; simpl in Hf, Hsg; injection Hf as <-; repeat (destruct Hsg as [<- | Hsg]; [simpl in Hargs; simpl sret|]); try contradiction Hsg.
  all: repeat match goal with K : fit_args _ _ _ (_ :: _) |- _ => let H := fresh "Ha" in let R := fresh in inversion K as [|? ? ? ? H R]; subst; clear K; change (fit_args S stk) with (Forall2 (fits S stk)) in *
                       | K : Forall2 (fits S stk) _ (_ :: _) |- _ => let H := fresh "Ha" in let R := fresh in inversion K as [|? ? ? ? H R]; subst; clear K
                       | K : Forall2 (fits S stk) _ [] |- _ => inversion K; subst; clear K end.
  all: rewrite ?app_nil_r in Hr; repeat rewrite snoc2 in Hr;
    match type of Hr with r_stack ?s = ?l => rewrite <- (set_stack_id s l Hr) end; clear Hr.
  all: unfold why, where_, array_pop, array_remove, number_arg, unwrap, unwrap_err, unwrap_or, s_, rv, clone_, some_, ok_, err_, copy_arg, explain_why, explain_where, indexed; steps.
  all: match goal with |- gives stk (set_stack _ ?s) ?g ?o => change (gives stk s g o) end.
  - apply deep_gives. exact Hw.
  - destruct (4 <=? f64_to_usize x1)%Z; [exact I|]. steps. gave. split; [sounds|constructor].
  - destruct (4 <=? f64_to_usize x1)%Z; [exact I|]. steps. gave. split; [sounds|constructor].
  - destruct (e_deep stk s w (prefix_refl _) HS Hw) as [E|(v & E & [H _])]; rewrite E; [exact I|]. gave. split; repeat constructor; exact H.
  - destruct (e_deep stk s w (prefix_refl _) HS Hw) as [E|(v & E & [H _])]; rewrite E; [exact I|]. gave. split; repeat constructor; exact H.
  - destruct (e_deep stk s w (prefix_refl _) HS Hw) as [E|(v & E & [H _])]; rewrite E; [exact I|]. gave. split; repeat constructor; exact H.
  - destruct w; try exact I; gave; inversion Hw; subst; (split; [assumption|constructor]).
  - inversion Hw; subst. destruct b; [|exact I]. destruct sec as [l|]; [|exact I]. gave. split; constructor.
    + apply Forall_rev. auto.
    + apply Forall_forall. intros. constructor.
  - inversion Hw; subst. destruct sec as [l|]; [|exact I]. destruct (fis_nan x0); [exact I|]. gave. split; constructor.
    + apply Forall_rev. auto.
    + apply Forall_forall. intros. constructor.
  - destruct (e_deep stk s x0 (prefix_refl _) HS (proj1 Ha0)) as [E|(v & E & [H' _])]; rewrite E; [exact I|]. gave. split; [|constructor; apply HSome].
    inversion Hw; subst. constructor. intros l El. injection El as <-. destruct sec; [apply Forall_app; split; auto|auto].
  - destruct (e_deep stk s x0 (prefix_refl _) HS (proj1 Ha0)) as [E|(v & E & [H' _])]; rewrite E; [exact I|]. gave. split; [|constructor; apply HSome].
    inversion Hw; subst. constructor. intros l El. injection El as <-. destruct sec; [apply Forall_app; split; auto|auto].
  - eapply at_array_gives; [eassumption|]. intros l Hl. inversion Hl as [| | | | | | |? Hl'| | | | | | | | | |]; subst.
    destruct (rev l) as [|y r] eqn:E; [exact I|]. simpl. split; [reflexivity|].
    assert (l = rev r ++ [y]) as -> by (rewrite <- (rev_involutive l), E; reflexivity).
    apply Forall_app in Hl' as [H1 H2]. inversion H2; subst. rewrite removelast_last. split; [exact H1|].
    intros stk' [K _]. split; [rewrite K; assumption|constructor].
  - eapply at_array_gives; [eassumption|]. intros l Hl. inversion Hl as [| | | | | | |? Hl'| | | | | | | | | |]; subst.
    destruct (Z.leb_spec (Z.of_nat (length l)) (f64_to_usize x1)); [exact I|].
    destruct (nth_error l (Z.to_nat (f64_to_usize x1))) as [y|] eqn:E; [|apply nth_error_None in E; pose proof (usize_pos x1); lia].
    simpl. split; [reflexivity|]. split.
    + apply Forall_app. split; [apply Forall_firstn|apply (Forall_skipn' _ (Datatypes.S _))]; exact Hl'.
    + intros stk' [K _]. split; [rewrite K; rewrite Forall_forall in Hl'; apply Hl'; eapply nth_error_In; eauto|constructor].
  - destruct (getv_ok S stk HS stk s x0 TAny (prefix_refl _) Ha0) as (d & E & [Hd _] & _).
    destruct w; try exact I; try (gave; inversion Hw; subst; (split; [assumption|constructor])); rewrite E; gave; (split; [exact Hd|constructor]).
  - destruct w; try exact I; gave; inversion Hw; subst; (split; [assumption|constructor]).
Qed.
Lemma push_gives : forall t v x s, fits S stk v (TArray t) -> sound (length stk) x -> gives stk s (fun _ _ => True) (push_core v x (set_stack stk s)).
Proof.
  intros t v x s Hv Hx. eapply at_array_gives; [eassumption|]. intros l Hl. inversion Hl as [| | | | | | |? Hl'| | | | | | | | | |]; subst.
  simpl. split; [reflexivity|]. split; [apply Forall_snoc; assumption|auto].
Qed.
Lemma insert_gives : forall t v i x s, fits S stk v (TArray t) -> sound (length stk) x -> gives stk s (fun _ _ => True) (insert_core v i x (set_stack stk s)).
Proof.
  intros t v i x s Hv Hx. eapply at_array_gives; [eassumption|]. intros l Hl. inversion Hl as [| | | | | | |? Hl'| | | | | | | | | |]; subst.
  cbv zeta. destruct (Z.of_nat (length l) <? f64_to_usize i)%Z; [exact I|]. simpl. split; [reflexivity|]. split; [|auto].
  apply Forall_app. split; [apply Forall_firstn; exact Hl'|]. constructor; [exact Hx|apply Forall_skipn'; exact Hl'].
Qed.
Lemma void_gives : forall e f sg args s, In e (std O L n) -> e_impl e = IVoid f -> In sg (signatures (e_decl e)) ->
  e_name e <> "swap(mut,_,_)" ->
  fit_args S stk args (sargs sg) -> r_stack s = stk ++ args -> gives stk s (fun _ _ => True) (f s).
Proof.
  intros e f sg args s He Hf Hsg Hn Hargs Hr.
  start He Hf Hsg Hargs Hr Hn.
  all: unfold print_, sleep, array_push_ref, array_insert_ref, array_push, array_insert, array_reverse, array_clear, number_arg; steps.
  all: try match goal with |- gives stk (set_stack _ ?s) ?g ?o => change (gives stk s g o) end.
  1-7: gave; exact I.
  - eapply push_gives; [eassumption|exact (proj1 Ha0)].
  - eapply insert_gives; [eassumption|exact (proj1 Ha1)].
  - destruct (e_deep (stk ++ [x]) s w ltac:(pre) (Forall_snoc _ _ _ HS (proj1 Ha)) Hw) as [E|(v & E & [H _])]; rewrite E; [exact I|].
    steps. eapply push_gives; eassumption.
  - destruct (e_deep ((stk ++ [x]) ++ [x0]) s w ltac:(pre) (Forall_snoc _ _ _ (Forall_snoc _ _ _ HS (proj1 Ha)) (proj1 Ha0)) Hw) as [E|(v & E & [H _])]; rewrite E; [exact I|].
    steps. eapply insert_gives; eassumption.
  - eapply at_array_gives; [eassumption|]. intros l Hl. inversion Hl as [| | | | | | |? Hl'| | | | | | | | | |]; subst.
    simpl. split; [reflexivity|]. split; [apply Forall_rev; exact Hl'|auto].
  - eapply at_array_gives; [eassumption|]. intros l Hl. simpl. auto.
Qed.
End Calls.
