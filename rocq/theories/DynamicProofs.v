(** * Lemmas for P_Dynamic.v: calls through values keep the contract of external functions. *)
From Coq Require Import String List ZArith Bool Arith Lia.
From Verif Require Import ColorModel PrintModel AstModel LoadModel Float64 TypeModel LifetimeModel NodesModel Syntax SyntaxProofs InterpModel StdModel PreludeModel LibraryModel DynamicModel WfSpec BalanceBase BalanceEval BalanceCalls BalanceGrab BalanceProofs LibraryProofs P_Balance.
Import ListNotations.
Local Open Scope string_scope.
Local Open Scope nat_scope.
Local Open Scope list_scope.

Lemma find_loaded_pos : forall m name i, Forall (fun nc : string * callee => match snd nc with FLoaded _ => False | _ => True end) (m_ext m) ->
  find_function m name 0 = FLoaded i -> (0 <= i)%Z.
Proof.
  intros m name i X H. unfold find_function in H. destruct (find_last name 0 (m_funs m) None) as [j|].
  - injection H as <-. lia.
  - exfalso. assert (G : forall l acc, Forall (fun nc : string * callee => match snd nc with FLoaded _ => False | _ => True end) l -> find_ext name l acc = FLoaded i -> acc = FLoaded i).
    { induction l as [|[y c] l IH]; intros acc F E; [exact E|]. inversion F; subst. cbn in E. apply IH in E; auto. destruct (String.eqb y name); [|exact E]. subst c. cbn in *. contradiction. }
    discriminate (G _ _ X H).
Qed.

Section Calls.
Context (chk : bool) (E : env) (arity : string -> nat).
Notation wf_v := (wf_v chk E arity).
Notation wf_state := (wf_state chk E arity).
Context (HM : wf_mods chk E arity) (HL : forall m, In m (e_mods E) -> Forall (fun nc : string * callee => match snd nc with FLoaded _ => False | _ => True end) (m_ext m)).

(** A call from the outside: [call_]. *)
Lemma outside_ok : forall (HX : ext_ok chk E arity) n md m i f name args s, wf_state s -> nth_error (e_mods E) md = Some m -> find_function m name 0 = FLoaded i ->
  nth_error (m_funs m) (Z.to_nat i) = Some f -> Forall wf_v args -> length args = length (fn_args f) ->
  match call_ E n (FLoaded i) name (map EVar args) md s with
  | Ok r s' => match fst r with Some v => wf_v v | None => True end /\ snd r = FContinue /\ (fn_ret f = true <-> fst r <> None) /\ wf_state s' /\ r_mod s' = r_mod s /\ r_calls s' = r_calls s /\
               length (r_stack s') = length (r_stack s) /\ r_locals s' = r_locals s /\ r_currents s' = r_currents s
  | Err _ s' => wf_state s' /\ above s s'
  | Panic w => quiet chk w
  | OOF => True
  end.
Proof.
  intros HX n md m i f name args s Hs Em Ef Eg Ha Hl.
  pose proof (find_loaded_pos _ _ _ (HL m (nth_error_In _ _ Em)) Ef) as Hi.
  assert (Ht : target E md 0 i = Some f).
  { unfold target. rewrite Z.add_0_r. destruct (Z.ltb_spec i 0); [lia|]. rewrite Em. exact Eg. }
  assert (fn_lazy f = []) as Hz by (destruct (HM _ _ _ _ Em Eg); assumption).
  pose proof (call_loader_bp chk E arity HM HX n md i f name args (set_mod md s) Hs eq_refl Ht Ha (fun _ => Hl)) as H.
  pose proof (loaded_value E (eval E n) n (map EVar args) i name true f (set_mod md s)
    (fun r _ => snd r = FContinue /\ one_value (fn_ret f) (fst r)) Ht) as H1.
  assert (forall P Q : Prop, (P -> Q) -> P -> Q) as Tr by auto.
  eapply Tr in H1; [|intros H2; apply H2; intros k Hk s0; exact (push_loaded_vars E n _ args k s0 _ Hz Hk 0)].
  unfold wp in H, H1. unfold call_. cbn [call_internal].
  destruct (call_loaded E (eval E n) n (map EVar args) i name true (set_mod md s)) as [[x fl] s1|msg s1| |] eqn:Ec; auto.
  - destruct H1 as [H1 O]. cbn [snd fst] in *. subst fl. destruct H as (Wx & H). cbn [snd fst] in *. destruct H as ((P1 & P2 & P3 & P4 & P5 & P6) & _). cbn in *.
    rewrite Nat.add_0_r in P4. rewrite P3. unfold trunc_top. rewrite Nat.sub_diag. cbn. splits; auto.
    unfold one_value in O. destruct x as [v|]; [destruct O as [O _]; split; [intros _; discriminate|intros _; exact O]|split; [congruence|intros Q; exfalso; apply Q; reflexivity]].
  - destruct H as (W & A & (l1 & B) & C & D & F). cbn in *. split; [exact W|]. unfold above. cbn. rewrite B, trunc_top_app. splits; auto. exists []. reflexivity.
Qed.
End Calls.

Section Through.
Context (chk : bool) (E : env) (arity : string -> nat).
Notation wf_v := (wf_v chk E arity).
Notation wf_state := (wf_state chk E arity).
Context (HM : wf_mods chk E arity) (HL : forall m, In m (e_mods E) -> Forall (fun nc : string * callee => match snd nc with FLoaded _ => False | _ => True end) (m_ext m)).

(** The same for an environment with other functions behind [call] and [call_ret]: conditions on values and states do not mention them. *)
Lemma outside_ok_in : forall v r (HX : ext_ok chk (put_calls E v r) arity) n md m i f name args s, wf_state s -> nth_error (e_mods E) md = Some m -> find_function m name 0 = FLoaded i ->
  nth_error (m_funs m) (Z.to_nat i) = Some f -> Forall wf_v args -> length args = length (fn_args f) ->
  match call_ (put_calls E v r) n (FLoaded i) name (map EVar args) md s with
  | Ok r s' => match fst r with Some v => wf_v v | None => True end /\ snd r = FContinue /\ (fn_ret f = true <-> fst r <> None) /\ wf_state s' /\ r_mod s' = r_mod s /\ r_calls s' = r_calls s /\
               length (r_stack s') = length (r_stack s) /\ r_locals s' = r_locals s /\ r_currents s' = r_currents s
  | Err _ s' => wf_state s' /\ above s s'
  | Panic w => quiet chk w
  | OOF => True
  end.
Proof. intros v r HX. exact (outside_ok chk (put_calls E v r) arity HM HL HX). Qed.

Section At.
Context (X : outer) (n : nat) (inner : nat -> env) (held : list nat).
Context (HI : forall o, exists v r, inner o = put_calls E v r).
Context (HX : forall o, ext_ok chk (inner o) arity).
Lemma through_ok : forall o name args s, wf_state s -> Forall wf_v args ->
  match through X (e_mods E) n inner held o name args s with
  | Ok r s' => match r with Some v => wf_v v | None => True end /\ wf_state s' /\ r_mod s' = r_mod s /\ r_calls s' = r_calls s /\
               length (r_stack s') = length (r_stack s) /\ r_locals s' = r_locals s /\ r_currents s' = r_currents s
  | Err _ s' => wf_state s' /\ above s s'
  | Panic w => quiet chk w
  | OOF => True
  end.
Proof.
  intros o name args s Hs Ha. unfold through. destruct (existsb (Nat.eqb o) held); [cbn; noise|].
  destruct (mod_of X o) as [md|]; [|split; [exact Hs|apply above_refl]].
  destruct (nth_error (e_mods E) md) as [m|] eqn:Em; [|cbn; noise].
  destruct (find_function m name 0) as [|i|g|g|g|g|g] eqn:Ef; try (split; [exact Hs|apply above_refl]).
  destruct (nth_error (m_funs m) (Z.to_nat i)) as [f|] eqn:Eg; [|cbn; noise].
  destruct (Nat.eqb_spec (length (fn_args f)) (length args)) as [Hl|]; [|split; [exact Hs|apply above_refl]]. cbn [negb].
  destruct (LifetimeModel.check (lifetimes X f) args); [|split; [exact Hs|apply above_refl]|cbn; noise].
  destruct (HI o) as (v & r & Ei). pose proof (HX o) as Xo. unfold bind. rewrite Ei in *.
  pose proof (outside_ok_in v r Xo n md m i f name args s Hs Em Ef Eg Ha (eq_sym Hl)) as H.
  destruct (call_ (put_calls E v r) n (FLoaded i) name (map EVar args) md s) as [[x fl] s'|e s'|w|]; try exact H. cbn in *. tauto.
Qed.
Lemma takes_calling : takes chk E arity 0 (fun _ => True) (calling (e_mods E)).
Proof.
  intros s W K. unfold calling. destruct (r_calls s) as [|c l] eqn:C; [noise|]. destruct (nth_error (e_mods E) (r_mod s)) as [m|]; [|noise]. destruct (nth_error (m_funs m) (c_index c)); [|noise].
  splits; auto.
Qed.
Lemma takes_text : forall v, wf_v v -> takes chk E arity 0 (fun _ => True) (as_text v).
Proof. intros v H. apply b_getv; [exact H|]. intros x Hx. destruct x; try apply takes_fail. now apply takes_ret. Qed.
Lemma takes_array : forall v, wf_v v -> takes chk E arity 0 (Forall wf_v) (as_array v).
Proof. intros v H. apply b_getv; [exact H|]. intros x Hx. destruct x; try apply takes_fail. apply takes_ret. now apply wf_VArray in Hx. Qed.
Lemma takes_object : forall v, wf_v v -> takes chk E arity 0 (fun _ => True) (as_object v).
Proof. intros v H. apply b_getv; [exact H|]. intros x Hx. destruct x; try apply takes_fail. now apply takes_ret. Qed.
(** the arguments are taken, then something that leaves the stack as high as it was *)
Lemma after_taken : forall {A B} k (R : A -> Prop) (Q : B -> Prop) (m : M A) (f : A -> M B) s, takes chk E arity k R m -> wf_state s -> k <= length (r_stack s) ->
  (forall a s1, R a -> wf_state s1 ->
     match f a s1 with
     | Ok b s' => Q b /\ wf_state s' /\ r_mod s' = r_mod s1 /\ r_calls s' = r_calls s1 /\ length (r_stack s') = length (r_stack s1) /\ r_locals s' = r_locals s1 /\ r_currents s' = r_currents s1
     | Err _ s' => wf_state s' /\ above s1 s'
     | Panic w => quiet chk w
     | OOF => True
     end) ->
  match bind m f s with
  | Ok b s' => Q b /\ wf_state s' /\ r_mod s' = r_mod s /\ r_calls s' = r_calls s /\ length (r_stack s') + k = length (r_stack s) /\ r_locals s' = r_locals s /\ r_currents s' = r_currents s
  | Err _ s' => wf_state s' /\ above (set_stack (firstn (length (r_stack s) - k) (r_stack s)) s) s'
  | Panic w => quiet chk w
  | OOF => True
  end.
Proof.
  intros A B k R Q m f s Hm Hs Hk Hf. specialize (Hm s Hs Hk). unfold bind. destruct (m s) as [a s1|e s1|w|]; try exact Hm.
  - destruct Hm as (Ra & W1 & M1 & C1 & N1 & L1 & U1). specialize (Hf a s1 Ra W1). destruct (f a s1) as [b s'|e s'|w|]; try exact Hf.
    + destruct Hf as (Qb & W & M & C & N & L & U). splits; auto; try congruence; try lia.
    + destruct Hf as (W & (M & (l1 & C) & N & (l2 & L) & (l3 & U))). split; [exact W|]. unfold above. cbn. rewrite M1, C1, L1, U1 in *. splits; eauto. rewrite firstn_length. lia.
  - destruct Hm as (W1 & M1 & C1 & N1 & L1 & U1). split; [exact W1|]. unfold above. cbn. rewrite firstn_length. splits; auto; try (exists []; assumption). lia.
Qed.
Definition good_call (x : nat * string * list value) : Prop := match x with (_, _, args) => Forall wf_v args end.
Lemma taken_text_first : takes chk E arity 3 good_call
  (calling (e_mods E) ;;; a <- pop ;; f <- pop ;; m <- pop ;; name <- as_text f ;; args <- as_array a ;; o <- as_object m ;; ret (o, name, args)).
Proof.
  apply (takes_bind chk E arity 0 3 3 (fun _ => True)); [reflexivity|apply takes_calling|intros _ _]. apply b_pop. intros a Ha. apply b_pop. intros f Hf. apply b_pop. intros m Hm.
  apply (takes_bind chk E arity 0 0 0 (fun _ => True)); [reflexivity|now apply takes_text|intros name _].
  apply (takes_bind chk E arity 0 0 0 (Forall wf_v)); [reflexivity|now apply takes_array|intros args Hg].
  apply (takes_bind chk E arity 0 0 0 (fun _ => True)); [reflexivity|now apply takes_object|intros o _]. now apply takes_ret.
Qed.
Lemma taken_args_first : takes chk E arity 3 good_call
  (calling (e_mods E) ;;; a <- pop ;; f <- pop ;; m <- pop ;; args <- as_array a ;; name <- as_text f ;; o <- as_object m ;; ret (o, name, args)).
Proof.
  apply (takes_bind chk E arity 0 3 3 (fun _ => True)); [reflexivity|apply takes_calling|intros _ _]. apply b_pop. intros a Ha. apply b_pop. intros f Hf. apply b_pop. intros m Hm.
  apply (takes_bind chk E arity 0 0 0 (Forall wf_v)); [reflexivity|now apply takes_array|intros args Hg].
  apply (takes_bind chk E arity 0 0 0 (fun _ => True)); [reflexivity|now apply takes_text|intros name _].
  apply (takes_bind chk E arity 0 0 0 (fun _ => True)); [reflexivity|now apply takes_object|intros o _]. now apply takes_ret.
Qed.
Lemma call_value_ok : forall s, wf_state s -> 3 <= length (r_stack s) ->
  match call_value X (e_mods E) n inner held s with
  | Ok _ s' => True /\ wf_state s' /\ r_mod s' = r_mod s /\ r_calls s' = r_calls s /\ length (r_stack s') + 3 = length (r_stack s) /\ r_locals s' = r_locals s /\ r_currents s' = r_currents s
  | Err _ s' => wf_state s' /\ above (set_stack (firstn (length (r_stack s) - 3) (r_stack s)) s) s'
  | Panic w => quiet chk w
  | OOF => True
  end.
Proof.
  intros s Hs Hk. unfold call_value. refine (after_taken 3 good_call (fun _ => True) _ _ s taken_text_first Hs Hk _). intros [[o name] args] s1 G W1. cbn [good_call] in G.
  pose proof (through_ok o name args s1 W1 G) as H. unfold bind. destruct (through X (e_mods E) n inner held o name args s1) as [r s'|e s'|w|]; try exact H. cbn. tauto.
Qed.
Lemma call_ret_value_ok : forall s, wf_state s -> 3 <= length (r_stack s) ->
  match call_ret_value X (e_mods E) n inner held s with
  | Ok v s' => wf_v v /\ wf_state s' /\ r_mod s' = r_mod s /\ r_calls s' = r_calls s /\ length (r_stack s') + 3 = length (r_stack s) /\ r_locals s' = r_locals s /\ r_currents s' = r_currents s
  | Err _ s' => wf_state s' /\ above (set_stack (firstn (length (r_stack s) - 3) (r_stack s)) s) s'
  | Panic w => quiet chk w
  | OOF => True
  end.
Proof.
  intros s Hs Hk. unfold call_ret_value. refine (after_taken 3 good_call wf_v _ _ s taken_args_first Hs Hk _). intros [[o name] args] s1 G W1. cbn [good_call] in G.
  pose proof (through_ok o name args s1 W1 G) as H. unfold bind. destruct (through X (e_mods E) n inner held o name args s1) as [r s'|e s'|w|]; try exact H.
  destruct r as [v|]; [exact H|]. cbn. destruct H as (_ & W & M & C & N & L & U). split; [exact W|]. unfold above. splits; auto; try (exists []; assumption). lia.
Qed.
End At.
End Through.

Section Contract.
Context (chk : bool) (E : env) (arity : string -> nat).
Notation wf_v := (wf_v chk E arity).
Notation wf_state := (wf_state chk E arity).
Lemma takes_recv : forall ch, takes chk E arity 0 (fun r => match r with Some v => wf_v v | None => True end) (recv ch).
Proof.
  intros ch s W K. unfold recv. destruct (nth_error (w_queues (r_world s)) ch) as [[|v q]|] eqn:Q; [splits; auto| |splits; auto].
  destruct W as [W1 W2]. pose proof (proj1 (Forall_forall _ _) W2 _ (nth_error_In _ _ Q)) as Wq. inversion Wq; subst.
  splits; auto. split; [exact W1|]. cbn. now apply Forall_list_set.
Qed.
Lemma takes_next : takes chk E arity 1 wf_v next_value.
Proof.
  unfold next_value. apply b_pop. intros v Hv. apply b_getv; [exact Hv|]. intros x Hx. destruct x; try apply takes_fail.
  apply (takes_bind chk E arity 0 0 0 (fun r => match r with Some v => wf_v v | None => True end)); [reflexivity|apply takes_recv|]. intros r Hr. apply takes_ret. destruct r; [exact Hr|exact Logic.I].
Qed.
Lemma takes_wait_next : forall X, takes chk E arity 1 wf_v (wait_next_value X).
Proof.
  intros X. unfold wait_next_value. apply b_pop. intros v Hv. apply b_getv; [exact Hv|]. intros x Hx. destruct x; try apply takes_fail.
  apply (takes_bind chk E arity 0 0 0 (fun r => match r with Some v => wf_v v | None => True end)); [reflexivity|apply takes_recv|]. intros r Hr. destruct r as [y|]; [now apply takes_ret|].
  intros s W K. destruct (can_send X ch s); [exact Logic.I|]. splits; auto; try exact Logic.I.
Qed.
End Contract.
