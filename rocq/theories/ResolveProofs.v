(** * Resolving a well-scoped program gives a well-formed one. *)
From Coq Require Import String List ZArith Bool Arith Lia.
From Verif Require Import Float64 Syntax InterpModel WfSpec SyntaxProofs BalanceBase ResolveModel ResolveSpec.
Import ListNotations.
Local Open Scope string_scope.
Local Open Scope nat_scope.
Local Open Scope list_scope.

Lemma trunc_app : forall p st, trunc (length st) (p ++ st) = st.
Proof.
  intros p st. unfold trunc. rewrite app_length. replace (length p + length st - length st) with (length p) by lia.
  rewrite skipn_app, skipn_all, Nat.sub_diag. reflexivity.
Qed.
Lemma trunc_same : forall st, trunc (length st) st = st. Proof. intros st. apply (trunc_app []). Qed.
Lemma trunc_le : forall m p st, m <= length st -> trunc m (p ++ st) = trunc m st.
Proof.
  intros m p st L. unfold trunc. rewrite app_length. replace (length p + length st - m) with (length p + (length st - m)) by lia.
  rewrite skipn_app. rewrite skipn_all2 by lia. cbn. f_equal. lia.
Qed.
Lemma position_find : forall x st i, position i x st = option_map (fun k => i + k) (find_var x st).
Proof.
  intros x. induction st as [|[y|] st IH]; intros i; cbn; [reflexivity| |].
  - destruct (String.eqb y x); [cbn; f_equal; lia|]. rewrite IH. destruct (find_var x st); cbn; [f_equal; lia|reflexivity].
  - rewrite IH. destruct (find_var x st); cbn; [f_equal; lia|reflexivity].
Qed.

(** What [cs] finds, [st] finds in the same place. *)
Definition sub (cs st : scope) : Prop := forall x k, find_var x cs = Some k -> find_var x st = Some k.
Lemma sub_refl : forall cs, sub cs cs. Proof. intros cs x k H. exact H. Qed.
Lemma sub_app : forall a cs st, sub cs st -> sub (a ++ cs) (a ++ st).
Proof.
  intros a cs st H. induction a as [|[y|] a IH]; [exact H| |]; intros x k; cbn.
  - destruct (String.eqb y x); [auto|]. destruct (find_var x (a ++ cs)) eqn:F; [|discriminate]. rewrite (IH _ _ F). auto.
  - destruct (find_var x (a ++ cs)) eqn:F; [|discriminate]. rewrite (IH _ _ F). auto.
Qed.
Lemma sub_cons : forall o cs st, sub cs st -> sub (o :: cs) (o :: st).
Proof. intros o cs st H. apply (sub_app [o]). exact H. Qed.
Lemma sub_under : forall cs st, sub cs (cs ++ st).
Proof.
  intros cs st. induction cs as [|[y|] cs IH]; intros x k; cbn; [discriminate| |].
  - destruct (String.eqb y x); [auto|]. destruct (find_var x cs) eqn:F; [|discriminate]. rewrite (IH _ _ F). auto.
  - destruct (find_var x cs) eqn:F; [|discriminate]. rewrite (IH _ _ F). auto.
Qed.
Lemma sub_trans : forall a b c, sub a b -> sub b c -> sub a c.
Proof. intros a b c H1 H2 x k H. auto. Qed.
Lemma hide_return : forall cs, find_var "return" (hide cs) = None.
Proof.
  induction cs as [|[y|] cs IH]; [reflexivity| |].
  - change (hide (Some y :: cs)) with ((if String.eqb y "return" then None else Some y) :: hide cs).
    destruct (String.eqb_spec y "return") as [->|N]; cbn [find_var]; rewrite IH; [reflexivity|]. destruct (String.eqb_spec y "return"); [contradiction|reflexivity].
  - change (hide (None :: cs)) with (None :: hide cs). cbn [find_var]. rewrite IH. reflexivity.
Qed.
Lemma sub_hide : forall cs, sub (hide cs) cs.
Proof.
  intros cs. induction cs as [|[y|] cs IH]; intros x k; [discriminate| |].
  - change (hide (Some y :: cs)) with ((if String.eqb y "return" then None else Some y) :: hide cs).
    destruct (String.eqb_spec y "return") as [->|N]; cbn [find_var].
    + destruct (find_var x (hide cs)) as [j|] eqn:F; [|discriminate]. intros H. injection H as <-.
      destruct (String.eqb_spec "return" x) as [<-|N]; [rewrite hide_return in F; discriminate|rewrite (IH _ _ F); reflexivity].
    + destruct (String.eqb y x); [auto|]. destruct (find_var x (hide cs)) eqn:F; [|discriminate]. rewrite (IH _ _ F). auto.
  - change (hide (None :: cs)) with (None :: hide cs). cbn [find_var]. destruct (find_var x (hide cs)) eqn:F; [|discriminate]. rewrite (IH _ _ F). auto.
Qed.
Lemma sub_return : forall cs st, sub cs st -> sub (None :: hide cs) (Some "return" :: st).
Proof.
  intros cs st H x k. cbn [find_var]. destruct (find_var x (hide cs)) as [j|] eqn:F; [|discriminate]. intros K. injection K as <-.
  destruct (String.eqb_spec "return" x) as [<-|N]; [rewrite hide_return in F; discriminate|].
  rewrite (H _ _ (sub_hide _ _ _ F)). reflexivity.
Qed.

(** The scopes around the closures, as the source has them, as they are at run time, and as
    [closure_stack] marks them on the stack. *)
Definition outs (outer outer_r : list scope) (clos : list nat) (st : cstack) : Prop :=
  forall k c, nth_error outer k = Some c ->
    (exists cr, nth_error outer_r k = Some cr /\ sub c cr) /\
    (exists m, nth_error clos k = Some m /\ m <= length st /\ sub c (trunc m st)).
Lemma outs_app : forall p outer outer_r clos st, outs outer outer_r clos st -> outs outer outer_r clos (p ++ st).
Proof.
  intros p outer outer_r clos st H k c N. destruct (H k c N) as [A (m & B & C & D)]. split; [exact A|]. exists m.
  rewrite app_length. split; [exact B|]. split; [lia|]. rewrite trunc_le by exact C. exact D.
Qed.
Lemma outs_nil : forall outer_r clos st, outs [] outer_r clos st.
Proof. intros outer_r clos st k c N. destruct k; discriminate. Qed.
Lemma outs_cons : forall cs csr outer outer_r clos st p, sub cs csr -> sub cs st -> outs outer outer_r clos st ->
  outs (cs :: outer) (csr :: outer_r) (length st :: clos) (p ++ st).
Proof.
  intros cs csr outer outer_r clos st p H1 H2 H3 [|k] c N.
  - injection N as <-. split; [exists csr; split; [reflexivity|exact H1]|]. exists (length st). split; [reflexivity|].
    rewrite app_length. split; [lia|]. rewrite trunc_app. exact H2.
  - apply (outs_app p _ _ _ _ H3 k c N).
Qed.

Lemma literal_wf : forall chk E arity v, literal v -> wf_v chk E arity v.
Proof.
  intros chk E arity.
  assert (forall l, Forall (fun v => literal v -> wf_v chk E arity v) l -> all_ok literal l -> all_ok (wf_v chk E arity) l) as G.
  { intros l F. induction F as [|x l Hx F IH]; cbn; [auto|]. intros [H1 H2]. split; auto. }
  apply (v_ind (fun v => literal v -> wf_v chk E arity v) (fun _ => True) (fun _ => True) (fun _ => True) (fun _ => True));
    try (intros; exact I).
  - intros b [sec|] F H; [exact (G _ F H)|exact I].
  - intros b [sec|] F H; [exact (G _ F H)|exact I].
  - intros l F H. exact (G _ F H).
  - intros l F H. change (all_ok (fun kv => match kv with (_, x) => wf_v chk E arity x end) l). cbn [literal] in H.
    induction F as [|[k x] l Hx F IH]; [exact I|]. destruct H as [H1 H2]. split; [apply Hx, H1|auto].
  - intros v H1 H2. exact (H1 H2).
  - intros v H1 H2. exact (H1 H2).
  - intros m t H1 H2. exact (H1 H2).
  - intros c md rel _ H. destruct H.
Qed.

Section Res.
Context (E : env) (arity : string -> nat) (md fi : nat) (m : modl).
Hypothesis Hm : nth_error (e_mods E) md = Some m.
Let fs := m_funs m.
Let E' := gl_env E.
Notation gl := (gl fs fi).
Notation scoped := (scoped E arity md fi).
Notation wf := (wf true E' arity md fi).

Lemma gl_funs_nth : forall l i k, nth_error (gl_funs fs i l) k = option_map (gl_fun fs (i + k)) (nth_error l k).
Proof.
  induction l as [|f l IH]; intros i [|k]; cbn; try reflexivity; [rewrite Nat.add_0_r; reflexivity|]. rewrite IH. f_equal. f_equal. lia.
Qed.
Lemma target_gl : forall i, target E' md fi i = option_map (gl_fun fs (Z.to_nat (i + Z.of_nat fi))) (target E md fi i).
Proof.
  intros i. unfold target. cbv zeta. destruct (_ <? 0)%Z; [reflexivity|]. unfold E'. cbn [gl_env e_mods].
  rewrite nth_error_map, Hm. cbn [option_map]. unfold gl_modl. cbn [m_funs]. rewrite (gl_funs_nth (m_funs m) 0). reflexivity.
Qed.
Lemma target_ret : forall i, match target E' md fi i with Some f => fn_ret f | None => true end = match target E md fi i with Some f => fn_ret f | None => true end.
Proof. intros i. rewrite target_gl. destruct (target E md fi i); reflexivity. Qed.
Lemma call_returns_target : forall i g, target E md fi i = Some g -> call_returns fs fi i = fn_ret g.
Proof.
  intros i g H. unfold target in H. cbv zeta in H. unfold call_returns. cbv zeta. destruct (_ <? 0)%Z; [discriminate|].
  rewrite Hm in H. fold fs in H. rewrite H. reflexivity.
Qed.

(** A variable without indices. *)
Definition bare (e : expr) : bool := match e with EItem (Item _ _ _ _ [] _) => true | _ => false end.
Definition declares (op : assign_op) (e : expr) : bool := match op with OpAssign => bare e | _ => false end.
Lemma gl_assign : forall clos st op a b, declares op a = false ->
  gl clos st (EAssign op a b) = let (b', st1) := gl clos st b in let (a', st2) := gl clos (trunc (length st) st1) a in (EAssign op a' b', trunc (length st) st2).
Proof.
  intros clos st op a b H. cbn [ResolveModel.gl]. destruct (gl clos st b) as [b' st1]. destruct op; try reflexivity. destruct a; try reflexivity.
  destruct it as [n s c t [|i ids] ti]; [discriminate|reflexivity].
Qed.
Lemma adds_assign : forall op a b, declares op a = false -> adds (EAssign op a b) = [] /\ adds_current (EAssign op a b) = [].
Proof.
  intros op a b H. destruct op; try (split; reflexivity). destruct a; try (split; reflexivity).
  destruct it as [n s c t [|i ids] ti]; [discriminate|destruct c; split; reflexivity].
Qed.
Lemma scoped_assign : forall outer cs op a b, declares op a = false -> scoped outer cs (EAssign op a b) -> scoped outer cs a /\ scoped outer cs b.
Proof.
  intros outer cs op a b H W. destruct op; try exact W. destruct a; try exact W.
  destruct it as [n s c t [|i ids] ti]; [discriminate|exact W].
Qed.
Lemma wf_assign : forall outer cs op a b, declares op a = false -> wf outer cs a -> wf outer cs b -> wf outer cs (EAssign op a b).
Proof.
  intros outer cs op a b H W1 W2. pose proof (conj W1 W2) as W. destruct op; try exact W. destruct a; try exact W.
  destruct it as [n s c t [|i ids] ti]; [discriminate|exact W].
Qed.

(** What resolving does not change. *)
Definition shape (e e' : expr) : Prop :=
  adds e' = adds e /\ adds_current e' = adds_current e /\ is_swizzle e' = is_swizzle e /\ width e' = width e /\
  bare e' = bare e /\ valued E' md fi e' = valued E md fi e /\ link_head e' = link_head e.
Definition Pe (e : expr) : Prop := forall clos st, exists e' p, gl clos st e = (e', p ++ st) /\ shape e e' /\
  (tidy e = true -> p = adds e) /\
  forall outer outer_r cs csr, scoped outer cs e -> sub cs csr -> sub cs st -> outs outer outer_r clos st -> wf outer_r csr e'.
Definition Pi (it : item) : Prop := forall clos st, exists it', gl_item fs fi clos st it = (it', st) /\
  (match it, it' with Item n _ c _ ids _, Item n' _ c' _ ids' _ => n' = n /\ c' = c /\ (ids = [] <-> ids' = []) end) /\
  forall outer outer_r cs csr, scoped_item E arity md fi outer cs it -> sub cs csr -> sub cs st -> outs outer outer_r clos st ->
    wf_item true E' arity md fi outer_r csr it'.
Definition Px (i : idx) : Prop := forall clos st, exists i', gl_idx fs fi clos st i = (i', st) /\
  (match i, i' with IdExpr _, IdExpr _ => True | IdExpr _, _ | _, IdExpr _ => False | _, _ => True end) /\
  forall outer outer_r cs csr, scoped_idx E arity md fi outer cs i -> sub cs csr -> sub cs st -> outs outer outer_r clos st ->
    wf_idx true E' arity md fi outer_r csr i'.
Definition Pc (c : closure) : Prop := forall clos st, exists c' p, gl_clo fs fi clos st c = (c', p ++ st) /\
  forall outer outer_r cs csr, scoped_clo E arity md fi (cs :: outer) c -> sub cs csr -> sub cs st -> outs outer outer_r clos st ->
    wf_clo true E' arity md fi (csr :: outer_r) c'.

Lemma walk_ok : forall l, Forall Pe l -> forall clos st, exists l' p, walk (gl clos) st l = (l', p ++ st) /\
  Forall2 shape l l' /\
  forall outer outer_r cs csr, seq_ok (scoped outer) cs l -> sub cs csr -> sub cs st -> outs outer outer_r clos st ->
    thread_ok (wf outer_r) adds csr l'.
Proof.
  intros l F. induction F as [|e l He F IH]; intros clos st.
  - exists [], []. split; [reflexivity|]. split; [constructor|]. intros; exact I.
  - destruct (He clos st) as (e' & p & Eq & Sh & Ti & W). destruct (IH clos (p ++ st)) as (l' & q & Eq2 & Sh2 & W2).
    exists (e' :: l'), (q ++ p). cbn [walk]. rewrite Eq, Eq2, app_assoc. split; [reflexivity|]. split; [constructor; auto|].
    intros outer outer_r cs csr (H1 & H2 & H3) S1 S2 O. split; [eapply W; eauto|].
    destruct H2 as [->|T].
    + inversion Sh2; subst. exact I.
    + specialize (Ti T). subst p. rewrite (proj1 Sh). eapply W2; [exact H3| | |apply outs_app; exact O]; apply sub_app; auto.
Qed.
Lemma repeat_temps : forall e, repeat None (arg_slots e) = temps e. Proof. reflexivity. Qed.

(** Lists whose elements leave the stack as it was, except for [push]. *)
Lemma walk_trunc_ok : forall (push : expr -> nat) (add : expr -> scope) l, (forall e, In e l -> repeat None (push e) = add e) ->
  (forall e e', shape e e' -> add e' = add e) ->
  Forall Pe l -> forall clos st, exists l' p, walk_trunc (gl clos) push st l = (l', p ++ st) /\
  Forall2 shape l l' /\
  (forall outer outer_r cs csr, thread_ok (scoped outer) add cs l -> sub cs csr -> sub cs st -> outs outer outer_r clos st ->
    thread_ok (wf outer_r) add csr l').
Proof.
  intros push add l HP HA F. induction F as [|e l He F IH]; intros clos st.
  - exists [], []. split; [reflexivity|]. split; [constructor|]. intros; exact I.
  - destruct (He clos st) as (e' & p & Eq & Sh & Ti & W).
    destruct (IH (fun x Hx => HP x (or_intror Hx)) clos (repeat None (push e) ++ st)) as (l' & q & Eq2 & Sh2 & W2).
    exists (e' :: l'), (q ++ repeat None (push e)). cbn [walk_trunc]. rewrite Eq, trunc_app, Eq2, app_assoc.
    split; [reflexivity|]. split; [constructor; auto|].
    intros outer outer_r cs csr (H1 & H2) S1 S2 O. split; [eapply W; eauto|]. rewrite (HA _ _ Sh).
    rewrite (HP e (or_introl eq_refl)) in W2. eapply W2; [exact H2| | |apply outs_app; exact O]; apply sub_app; auto.
Qed.
Lemma walk_none_ok : forall l, Forall Pe l -> forall clos st, exists l', walk_trunc (gl clos) no_slots st l = (l', st) /\
  Forall2 shape l l' /\
  (forall outer outer_r cs csr, all_ok (scoped outer cs) l -> sub cs csr -> sub cs st -> outs outer outer_r clos st -> all_ok (wf outer_r csr) l').
Proof.
  intros l F. induction F as [|e l He F IH]; intros clos st.
  - exists []. split; [reflexivity|]. split; [constructor|]. intros; exact I.
  - destruct (He clos st) as (e' & p & Eq & Sh & Ti & W). destruct (IH clos st) as (l' & Eq2 & Sh2 & W2).
    exists (e' :: l'). cbn [walk_trunc]. rewrite Eq, trunc_app. cbn [no_slots repeat app]. rewrite Eq2. split; [reflexivity|]. split; [constructor; auto|].
    intros outer outer_r cs csr (H1 & H2) S1 S2 O. split; [eapply W; eauto|eapply W2; eauto].
Qed.
Lemma walk_pairs_ok : forall l, Forall (fun kv => Pe (snd kv)) l -> forall clos st, exists l',
  walk_trunc (fun st kv => match kv with (k, x) => let (x', st1) := gl clos st x in ((k : string, x'), st1) end) no_slots st l = (l', st) /\
  (forall outer outer_r cs csr, all_ok (fun kv => match kv with (_, x) => scoped outer cs x end) l -> sub cs csr -> sub cs st -> outs outer outer_r clos st ->
    all_ok (fun kv => match kv with (_, x) => wf outer_r csr x end) l').
Proof.
  intros l F. induction F as [|[k e] l He F IH]; intros clos st.
  - exists []. split; [reflexivity|]. intros; exact I.
  - cbn [snd] in He. destruct (He clos st) as (e' & p & Eq & Sh & Ti & W). destruct (IH clos st) as (l' & Eq2 & W2).
    exists ((k, e') :: l'). cbn [walk_trunc]. rewrite Eq, trunc_app. cbn [no_slots repeat app]. rewrite Eq2. split; [reflexivity|].
    intros outer outer_r cs csr (H1 & H2) S1 S2 O. split; [eapply W; eauto|eapply W2; eauto].
Qed.
Lemma walk_blocks_ok : forall l, Forall (Forall Pe) l -> forall clos st, exists l',
  walk_trunc (fun st b => let (b', st1) := walk (gl clos) st b in (b', trunc (length st) st1)) no_slots st l = (l', st) /\
  Forall2 (Forall2 shape) l l' /\
  (forall outer outer_r cs csr, all_ok (seq_ok (scoped outer) cs) l -> sub cs csr -> sub cs st -> outs outer outer_r clos st ->
    all_ok (thread_ok (wf outer_r) adds csr) l').
Proof.
  intros l F. induction F as [|b l Hb F IH]; intros clos st.
  - exists []. split; [reflexivity|]. split; [constructor|]. intros; exact I.
  - destruct (walk_ok _ Hb clos st) as (b' & p & Eq & Sh & W). destruct (IH clos st) as (l' & Eq2 & Sh2 & W2).
    exists (b' :: l'). cbn [walk_trunc]. rewrite Eq, !trunc_app, trunc_same. cbn [no_slots repeat app]. rewrite Eq2.
    split; [reflexivity|]. split; [constructor; auto|].
    intros outer outer_r cs csr (H1 & H2) S1 S2 O. split; [eapply W; eauto|eapply W2; eauto].
Qed.

Lemma shape_lastb : forall l l', Forall2 shape l l' -> lastb (valued E' md fi) l' = lastb (valued E md fi) l.
Proof.
  intros l l' F. induction F as [|x y l l' H F IH]; [reflexivity|]. destruct F; [apply H|exact IH].
Qed.
Lemma shape_forallb : forall l l', Forall2 (Forall2 shape) l l' ->
  forallb (lastb (valued E' md fi)) l' = forallb (lastb (valued E md fi)) l.
Proof. intros l l' F. induction F as [|x y l l' H F IH]; [reflexivity|]. cbn [forallb]. rewrite (shape_lastb _ _ H), IH. reflexivity. Qed.
Lemma shape_args : forall l l', Forall2 shape l l' -> all_ok (arg_ok E md fi) l -> all_ok (arg_ok E' md fi) l'.
Proof.
  intros l l' F. induction F as [|x y l l' (_ & _ & S & _ & _ & V & _) F IH]; [auto|]. intros [H1 H2]. split; [|auto].
  unfold arg_ok in *. rewrite S, V. exact H1.
Qed.
Lemma shape_widths : forall l l', Forall2 shape l l' -> widths l' = widths l.
Proof. intros l l' F. induction F as [|x y l l' H F IH]; [reflexivity|]. unfold widths in *. cbn [fold_right]. destruct H as (_ & _ & _ & -> & _). rewrite IH. reflexivity. Qed.
Lemma shape_fills : forall l l', Forall2 shape l l' -> forall k, fills k l' = fills k l.
Proof. intros l l' F. induction F as [|x y l l' H F IH]; intros k; [reflexivity|]. cbn [fills]. destruct H as (_ & _ & _ & -> & _). cbv zeta. rewrite IH. reflexivity. Qed.
Lemma shape_body : forall l l', Forall2 shape l l' -> link_body l -> link_body l'.
Proof.
  intros l l' F. rewrite !link_body_head. destruct F as [|x y l l' (_ & _ & _ & _ & _ & _ & H) F]; [auto|]. rewrite H. auto.
Qed.
Lemma shape_body_in : forall l l', Forall2 shape l l' -> link_body_in l -> link_body_in l'.
Proof.
  intros l l' F. rewrite !link_body_in_head. destruct F as [|x y l l' (_ & _ & _ & _ & _ & _ & H) F]; [auto|]. rewrite H. auto.
Qed.
Lemma shape_length : forall l l', Forall2 shape l l' -> length l' = length l.
Proof. intros l l' F. induction F; cbn; congruence. Qed.
Lemma shape_currents : forall l l', Forall2 shape l l' -> all_ok (fun e => adds_current e = []) l -> all_ok (fun e => adds_current e = []) l'.
Proof. intros l l' F. induction F as [|x y l l' (_ & C & _) F IH]; [auto|]. intros [H1 H2]. split; [congruence|auto]. Qed.

Lemma all_thread : forall f l cs, all_ok (f cs) l <-> thread_ok f (fun _ => []) cs l.
Proof. intros f l cs. induction l as [|x l IH]; cbn; [tauto|]. rewrite IH. reflexivity. Qed.

Lemma gl_EItem : forall clos st it, gl clos st (EItem it) = let (it', st1) := gl_item fs fi clos st it in (EItem it', st1).
Proof. reflexivity. Qed.
Lemma gl_EClosure : forall clos st c, gl clos st (EClosure c) = let (c', st1) := gl_clo fs fi clos st c in (EClosure c', st1).
Proof. reflexivity. Qed.
Lemma gl_ECallClosure : forall clos st it l, gl clos st (ECallClosure it l) =
  let (it', st1) := gl_item fs fi clos st it in
  let (l', st2) := walk_trunc (gl clos) arg_slots (Some "return" :: st1) l in (ECallClosure it' l', trunc (length st) st2).
Proof. reflexivity. Qed.
Lemma gl_IdExpr : forall clos st x, gl_idx fs fi clos st (IdExpr x) = let (x', st1) := gl clos st x in (IdExpr x', trunc (length st) st1).
Proof. reflexivity. Qed.
Lemma gl_Closure : forall clos st args currents body, gl_clo fs fi clos st (Closure args currents body) =
  let (body', st1) := gl (length st :: clos) (rev (map Some ("return" :: args ++ currents)) ++ st) body in (Closure args currents body', st1).
Proof. reflexivity. Qed.
Definition gl_ids (clos : list nat) := fix go (st : cstack) (l : list idx) : list idx * cstack :=
  match l with
  | [] => ([], st)
  | i :: l => let (i', st1) := gl_idx fs fi clos st i in
      let (l', st2) := go (match i with IdExpr _ => None :: st1 | _ => st1 end) l in (i' :: l', st2)
  end.
Lemma gl_Item : forall clos st name sid c t ids ti, gl_item fs fi clos st (Item name sid c t ids ti) =
  let (ids', st1) := gl_ids clos st ids in
  (Item name (match position 0 name st with Some k => Some k | None => sid end) c t ids' ti, trunc (length st) st1).
Proof. reflexivity. Qed.

Ltac shapes := split; [reflexivity|split; [reflexivity|split; [reflexivity|split; [reflexivity|split; [reflexivity|split; [|reflexivity]]]]]].

Theorem gl_ok : (forall v : value, True) /\ (forall e, Pe e) /\ (forall it, Pi it) /\ (forall i, Px i) /\ (forall c, Pc c).
Proof.
  apply syntax_ind; auto.
  - (* link *) intros l F clos st. destruct (walk_ok _ F clos st) as (l' & p & Eq & Sh & W).
    exists (ELink l'), []. cbn [ResolveModel.gl]. rewrite Eq, trunc_app. split; [reflexivity|]. split; [shapes; reflexivity|]. split; [reflexivity|].
    intros outer outer_r cs csr [H1 H2] S1 S2 O. split; [eapply W; eauto|eapply shape_currents; eauto].
  - intros l F clos st. destruct (walk_pairs_ok _ F clos st) as (l' & Eq & W).
    exists (EObject l'), []. cbn [ResolveModel.gl]. rewrite Eq. split; [reflexivity|]. split; [shapes; reflexivity|]. split; [reflexivity|].
    intros outer outer_r cs csr H S1 S2 O. exact (W _ _ _ _ H S1 S2 O).
  - intros l F clos st. destruct (walk_none_ok _ F clos st) as (l' & Eq & Sh & W).
    exists (EArray l'), []. cbn [ResolveModel.gl]. rewrite Eq. split; [reflexivity|]. split; [shapes; reflexivity|]. split; [reflexivity|].
    intros outer outer_r cs csr H S1 S2 O. exact (W _ _ _ _ H S1 S2 O).
  - intros a b Ha Hb clos st. destruct (Ha clos st) as (a' & p & Eq & _ & _ & Wa). destruct (Hb clos st) as (b' & q & Eq2 & _ & _ & Wb).
    exists (EArrayFill a' b'), []. cbn [ResolveModel.gl]. rewrite Eq, trunc_app, Eq2, trunc_app. split; [reflexivity|]. split; [shapes; reflexivity|]. split; [reflexivity|].
    intros outer outer_r cs csr [H1 H2] S1 S2 O. split; [eapply Wa; eauto|eapply Wb; eauto].
  - intros a Ha clos st. destruct (Ha clos st) as (a' & p & Eq & _ & _ & Wa).
    exists (EReturn a'), []. cbn [ResolveModel.gl]. rewrite Eq, trunc_app. split; [reflexivity|]. split; [shapes; reflexivity|]. split; [reflexivity|].
    intros outer outer_r cs csr H S1 S2 O. eapply Wa; eauto.
  - intros clos st. exists EReturnVoid, []. split; [reflexivity|]. split; [shapes; reflexivity|]. split; [reflexivity|]. intros; exact I.
  - intros l clos st. exists (EBreak l), []. split; [reflexivity|]. split; [shapes; reflexivity|]. split; [reflexivity|]. intros; exact I.
  - intros l clos st. exists (EContinue l), []. split; [reflexivity|]. split; [shapes; reflexivity|]. split; [reflexivity|]. intros; exact I.
  - intros l F clos st. destruct (walk_ok _ F clos st) as (l' & p & Eq & Sh & W).
    exists (EBlock l'), []. cbn [ResolveModel.gl]. rewrite Eq, trunc_app. split; [reflexivity|]. split; [shapes; exact (shape_lastb _ _ Sh)|]. split; [reflexivity|].
    intros outer outer_r cs csr H S1 S2 O. exact (W _ _ _ _ H S1 S2 O).
  - intros name l F clos st. destruct (walk_none_ok _ F clos st) as (l' & Eq & Sh & W).
    exists (EGo name l'), []. cbn [ResolveModel.gl]. rewrite Eq, trunc_same. split; [reflexivity|]. split; [shapes; reflexivity|]. split; [reflexivity|].
    intros outer outer_r cs csr H S1 S2 O. exact (W _ _ _ _ H S1 S2 O).
  - (* call *) intros f name l F clos st.
    destruct (walk_trunc_ok arg_slots temps l (fun _ _ => eq_refl) (fun e e' H => f_equal (repeat None) (proj1 (proj2 (proj2 (proj2 H))))) F clos
      match f with FLoaded i => if call_returns fs fi i then None :: st else st | _ => st end) as (l' & p & Eq & Sh & W).
    destruct (walk_none_ok _ F clos st) as (l2 & Eq2 & Sh2 & W2).
    exists (ECall f name (match f with FBin _ => l2 | _ => l' end)), []. cbn [ResolveModel.gl].
    destruct f as [|i|g|g|g|g|g]; rewrite ?Eq, ?Eq2, ?trunc_app, ?trunc_same.
    + split; [reflexivity|]. split; [shapes; reflexivity|]. split; [reflexivity|]. intros outer outer_r cs csr [].
    + split; [|split; [shapes; exact (target_ret i)|split; [reflexivity|]]].
      * destruct (call_returns fs fi i); [change (p ++ None :: st) with (p ++ [None] ++ st); rewrite app_assoc|]; rewrite trunc_app; reflexivity.
      * intros outer outer_r cs csr [H1 H2] S1 S2 O. destruct (target E md fi i) as [g|] eqn:T; [|destruct H1]. destruct H1 as [H1 H3].
        rewrite (call_returns_target _ _ T) in W. split.
        -- rewrite target_gl, T. cbn [option_map gl_fun fn_ret]. destruct (fn_ret g).
           ++ eapply W; [exact H1|apply sub_cons; auto|apply sub_cons; auto|apply (outs_app [None]); exact O].
           ++ eapply W; eauto.
        -- intros _. split; [eapply shape_args; eauto|]. eexists. split; [rewrite target_gl, T; reflexivity|]. cbn. rewrite (shape_widths _ _ Sh). exact H3.
    + split; [reflexivity|]. split; [shapes; reflexivity|]. split; [reflexivity|]. intros outer outer_r cs csr [H1 H2] S1 S2 O.
      split; [rewrite (shape_length _ _ Sh); exact H1|eapply W; eauto].
    + split; [reflexivity|]. split; [shapes; reflexivity|]. split; [reflexivity|]. intros outer outer_r cs csr [H1 H2] S1 S2 O.
      split; [rewrite (shape_length _ _ Sh); exact H1|eapply W; eauto].
    + split; [reflexivity|]. split; [shapes; reflexivity|]. split; [reflexivity|]. intros outer outer_r cs csr [H1 H2] S1 S2 O.
      split; [rewrite (shape_length _ _ Sh); exact H1|eapply W; eauto].
    + split; [reflexivity|]. split; [shapes; reflexivity|]. split; [reflexivity|]. intros outer outer_r cs csr [H H'] S1 S2 O. split; [exact (W2 _ _ _ _ H S1 S2 O)|]. intros _. rewrite (shape_length _ _ Sh2). exact H'.
    + split; [reflexivity|]. split; [shapes; reflexivity|]. split; [reflexivity|]. intros outer outer_r cs csr H S1 S2 O.
      change (match l with [x] => scoped outer cs x | _ => False end) in H. destruct l as [|x [|y l]]; try contradiction.
      inversion Sh as [|? x' ? l3 Hx Hl]; subst. inversion Hl; subst.
      destruct (W outer outer_r cs csr (conj H I) S1 S2 O) as [G _]. split; [split; [exact G|exact I]|]. intros _. apply le_n.
  - intros it Hi clos st. destruct (Hi clos st) as (it' & Eq & Sh & W). exists (EItem it'), []. rewrite gl_EItem, Eq.
    split; [reflexivity|]. split.
    { destruct it as [n sid c t ids ti], it' as [n' sid' c' t' ids' ti']. destruct Sh as (-> & -> & Sh). unfold shape. repeat split.
      destruct ids, ids'; try reflexivity; [discriminate (proj1 Sh eq_refl)|discriminate (proj2 Sh eq_refl)]. }
    split; [reflexivity|]. intros outer outer_r cs csr H S1 S2 O. exact (W _ _ _ _ H S1 S2 O).
  - (* assign *) intros op a b Ha Hb clos st. destruct (Hb clos st) as (b' & p & Eq & _ & _ & Wb). destruct (Ha clos st) as (a' & q & Eq2 & Sh & _ & Wa).
    destruct (declares op a) eqn:D.
    + destruct op; try discriminate. destruct a; try discriminate. destruct it as [name sid c t [|i ids] ti]; [|discriminate].
      exists (EAssign OpAssign (EItem (Item name sid c t [] ti)) b'), [Some name]. cbn [ResolveModel.gl]. rewrite Eq, trunc_app.
      split; [reflexivity|]. split; [shapes; reflexivity|]. split; [reflexivity|]. intros outer outer_r cs csr H S1 S2 O. exact (Wb _ _ _ _ H S1 S2 O).
    + rewrite (gl_assign _ _ _ _ _ D), Eq, trunc_app, Eq2, trunc_app.
      assert (declares op a' = false) as D' by (unfold declares in *; destruct Sh as (_ & _ & _ & _ & -> & _); exact D).
      exists (EAssign op a' b'), []. split; [reflexivity|]. split.
      { unfold shape. destruct (adds_assign op a b D) as [-> ->]. destruct (adds_assign op a' b' D') as [-> ->]. repeat split. }
      split; [intros _; symmetry; apply (adds_assign op a b D)|]. intros outer outer_r cs csr H S1 S2 O.
      apply scoped_assign in H; [|exact D]. apply wf_assign; [exact D'|eapply Wa; [apply H|..]; eauto|eapply Wb; [apply H|..]; eauto].
  - intros l F clos st.
    destruct (walk_trunc_ok arg_slots temps l (fun _ _ => eq_refl) (fun e e' H => f_equal (repeat None) (proj1 (proj2 (proj2 (proj2 H))))) F clos st) as (l' & p & Eq & Sh & W).
    exists (EVec4 l'), []. cbn [ResolveModel.gl]. rewrite Eq, trunc_app. split; [reflexivity|]. split; [shapes; reflexivity|]. split; [reflexivity|].
    intros outer outer_r cs csr (H1 & H2 & H3) S1 S2 O. split; [eapply W; eauto|]. split; [eapply shape_args; eauto|rewrite (shape_fills _ _ Sh); exact H3].
  - intros l F clos st. assert (all_ok (fun e => valued E md fi e = true) l \/ ~ all_ok (fun e => valued E md fi e = true) l) as [V|V].
    { clear F. induction l as [|x l IH]; [left; exact I|]. cbn. destruct (valued E md fi x); [|right; intros [H _]; discriminate].
      destruct IH; [left; auto|right; intros [_ H2]; auto]. }
    + destruct (walk_trunc_ok one_slot temps l) with (clos := clos) (st := st) as (l' & p & Eq & Sh & W); [|intros e e' H; exact (f_equal (repeat None) (proj1 (proj2 (proj2 (proj2 H)))))|exact F|].
      { intros e He. clear F. induction l as [|x l IH]; [destruct He|]. destruct V as [V1 V2]. destruct He as [->|He]; [|auto]. destruct e; try reflexivity. discriminate. }
      exists (EMat4 l'), []. cbn [ResolveModel.gl]. rewrite Eq, trunc_app. split; [reflexivity|]. split; [shapes; reflexivity|]. split; [reflexivity|].
      intros outer outer_r cs csr (H1 & H2 & H3) S1 S2 O. split; [eapply W; eauto|]. split; [|rewrite (shape_widths _ _ Sh); exact H3].
      eapply shape_args; [exact Sh|]. clear -H2. induction l as [|x l IH]; [exact I|]. destruct H2. split; [right; assumption|auto].
    + destruct (walk_trunc_ok one_slot (fun _ => [None]) l (fun _ _ => eq_refl) (fun _ _ _ => eq_refl) F clos st) as (l' & p & Eq & Sh & _).
      exists (EMat4 l'), []. cbn [ResolveModel.gl]. rewrite Eq, trunc_app. split; [reflexivity|]. split; [shapes; reflexivity|]. split; [reflexivity|].
      intros outer outer_r cs csr (H1 & H2 & H3). contradiction.
  - (* for *) intros lb a b c l Ha Hb Hc F clos st.
    destruct (Ha clos st) as (a' & p & Eq & Sa & Ta & Wa). destruct (Hb clos (p ++ st)) as (b' & q & Eq2 & _ & _ & Wb).
    destruct (Hc clos (p ++ st)) as (c' & r & Eq3 & Sc & _ & Wc). destruct (walk_ok _ F clos (p ++ st)) as (l' & q2 & Eq4 & _ & Wl).
    exists (EFor lb a' b' c' l'), []. cbn [ResolveModel.gl]. rewrite Eq, Eq2, trunc_app, Eq3, trunc_app, Eq4, trunc_app, trunc_app.
    split; [reflexivity|]. split; [shapes; reflexivity|]. split; [reflexivity|].
    intros outer outer_r cs csr (H1 & H2 & H3 & H4 & H5 & H6 & H7 & H8) S1 S2 O. specialize (Ta H2). subst p.
    destruct Sa as (A1 & A2 & _). destruct Sc as (C1 & C2 & _).
    assert (sub (adds a ++ cs) (adds a ++ csr)) as S3 by (apply sub_app; exact S1). assert (sub (adds a ++ cs) (adds a ++ st)) as S4 by (apply sub_app; exact S2).
    assert (outs outer outer_r clos (adds a ++ st)) as O' by (apply outs_app; exact O).
    split; [eapply Wa; eauto|]. rewrite A1. split; [eapply Wb; eauto|]. split; [eapply Wc; eauto|]. split; [eapply Wl; eauto|]. split; [congruence|]. split; [congruence|]. intros _. congruence.
  - (* for n *) intros k lb n a b l Ha Hb F clos st.
    assert (exists a', match a with Some x => let (x', st1) := gl clos st x in (Some x', trunc (length st) st1) | None => (None, st) end = (a', st) /\
      forall outer outer_r cs csr, match a with Some x => scoped outer cs x | None => True end -> sub cs csr -> sub cs st -> outs outer outer_r clos st ->
        match a' with Some x => wf outer_r csr x | None => True end) as (a' & Eq & Wa).
    { destruct a as [x|]; [|exists None; split; [reflexivity|auto]]. destruct (Ha clos st) as (x' & p & Eq & _ & _ & W). exists (Some x'). rewrite Eq, trunc_app. split; [reflexivity|]. exact W. }
    destruct (Hb clos st) as (b' & q & Eq2 & _ & _ & Wb). destruct (walk_ok _ F clos (Some n :: st)) as (l' & q2 & Eq3 & Sl & Wl).
    exists (EForN k lb n a' b' l'), []. cbn [ResolveModel.gl]. rewrite Eq, Eq2, trunc_app, Eq3, trunc_app, (trunc_app [Some n]).
    split; [reflexivity|]. split; [shapes; reflexivity|]. split; [reflexivity|].
    intros outer outer_r cs csr (H1 & H2 & H3 & H4) S1 S2 O. split; [exact (Wa _ _ _ _ H1 S1 S2 O)|]. split; [eapply Wb; eauto|].
    split; [|intros _ K; eapply shape_body; eauto].
    eapply Wl; [exact H3|apply sub_cons; auto|apply sub_cons; auto|apply (outs_app [Some n]); exact O].
  - intros k lb n b l Hb F clos st.
    destruct (Hb clos st) as (b' & q & Eq2 & _ & _ & Wb). destruct (walk_ok _ F clos (Some n :: st)) as (l' & q2 & Eq3 & Sl & Wl).
    exists (EForIn k lb n b' l'), []. cbn [ResolveModel.gl]. rewrite Eq2, trunc_app, Eq3, trunc_app, (trunc_app [Some n]).
    split; [reflexivity|]. split; [shapes; reflexivity|]. split; [reflexivity|].
    intros outer outer_r cs csr (H2 & H3 & K1 & K2 & K3) S1 S2 O. split; [eapply Wb; eauto|].
    split; [|intros _; split; [exact K1|split; [exact K2|intros K; eapply shape_body_in; eauto]]].
    eapply Wl; [exact H3|apply sub_cons; auto|apply sub_cons; auto|apply (outs_app [Some n]); exact O].
  - (* if *) intros c tb cs0 bs eb Hc Ft Fc Fb Fe clos st.
    destruct (Hc clos st) as (c' & p & Eq & _ & _ & Wc). destruct (walk_ok _ Ft clos st) as (tb' & p2 & Eq2 & Sh2 & W2).
    destruct (walk_none_ok _ Fc clos st) as (cs' & Eq3 & _ & W3). destruct (walk_blocks_ok _ Fb clos st) as (bs' & Eq4 & Sh4 & W4).
    destruct eb as [b|].
    + cbn [opt_all] in Fe. destruct (walk_ok _ Fe clos st) as (b' & p5 & Eq5 & Sh5 & W5).
      exists (EIf c' tb' cs' bs' (Some b')), []. cbn [ResolveModel.gl]. rewrite Eq, trunc_app, Eq2, trunc_app, trunc_same, Eq3, Eq4, Eq5, trunc_app, trunc_same.
      split; [reflexivity|]. split; [shapes|split; [reflexivity|]].
      * change (lastb (valued E' md fi) tb' && forallb (lastb (valued E' md fi)) bs' && lastb (valued E' md fi) b' =
                lastb (valued E md fi) tb && forallb (lastb (valued E md fi)) bs && lastb (valued E md fi) b).
        rewrite (shape_lastb _ _ Sh2), (shape_forallb _ _ Sh4), (shape_lastb _ _ Sh5). reflexivity.
      * intros outer outer_r cs csr (H1 & H2 & H3 & H4 & H5) S1 S2 O.
        split; [eapply Wc; eauto|]. split; [eapply W2; eauto|]. split; [eapply W3; eauto|]. split; [eapply W4; eauto|eapply W5; eauto].
    + exists (EIf c' tb' cs' bs' None), []. cbn [ResolveModel.gl]. rewrite Eq, trunc_app, Eq2, trunc_app, trunc_same, Eq3, Eq4.
      split; [reflexivity|]. split; [shapes|split; [reflexivity|]].
      * change (lastb (valued E' md fi) tb' && forallb (lastb (valued E' md fi)) bs' && false =
                lastb (valued E md fi) tb && forallb (lastb (valued E md fi)) bs && false). rewrite !andb_false_r. reflexivity.
      * intros outer outer_r cs csr (H1 & H2 & H3 & H4 & H5) S1 S2 O.
        split; [eapply Wc; eauto|]. split; [eapply W2; eauto|]. split; [eapply W3; eauto|]. split; [eapply W4; eauto|exact I].
  - intros v _ clos st. exists (EVar v), []. split; [reflexivity|]. split; [shapes; reflexivity|]. split; [reflexivity|].
    intros outer outer_r cs csr H _ _ _. exact (literal_wf _ _ _ _ H).
  - intros a Ha clos st. destruct (Ha clos st) as (a' & p & Eq & _ & Ti & Wa). exists (ETry a'), p. cbn [ResolveModel.gl]. rewrite Eq.
    split; [reflexivity|]. split; [shapes; reflexivity|]. split; [|intros outer outer_r cs csr H S1 S2 O; exact (Wa _ _ _ _ H S1 S2 O)].
    cbn [tidy]. intros T. apply andb_prop in T. destruct T as [T1 T2]. rewrite (Ti T1). destruct (adds a); [reflexivity|discriminate].
  - intros is a Ha clos st. destruct (Ha clos st) as (a' & p & Eq & _ & Ti & Wa). exists (ESwizzle is a'), p. cbn [ResolveModel.gl]. rewrite Eq.
    split; [reflexivity|]. split; [shapes; reflexivity|]. split; [discriminate|intros outer outer_r cs csr [H H'] S1 S2 O; split; [exact (Wa _ _ _ _ H S1 S2 O)|intros _; exact H']].
  - intros c Hc clos st. destruct (Hc clos st) as (c' & p & Eq & W). exists (EClosure c'), p. rewrite gl_EClosure, Eq.
    split; [reflexivity|]. split; [shapes; reflexivity|]. split; [discriminate|intros outer outer_r cs csr H S1 S2 O; exact (W _ _ _ _ H S1 S2 O)].
  - (* closure call *) intros it l Hi F clos st. destruct (Hi clos st) as (it' & Eq & _ & Wi).
    destruct (walk_trunc_ok arg_slots temps l (fun _ _ => eq_refl) (fun e e' H => f_equal (repeat None) (proj1 (proj2 (proj2 (proj2 H))))) F clos (Some "return" :: st)) as (l' & p & Eq2 & Sh & W).
    exists (ECallClosure it' l'), []. rewrite gl_ECallClosure, Eq, Eq2. change (p ++ Some "return" :: st) with (p ++ [Some "return"] ++ st). rewrite app_assoc, trunc_app.
    split; [reflexivity|]. split; [shapes; reflexivity|]. split; [reflexivity|]. intros outer outer_r cs csr (H1 & H2 & H3) S1 S2 O.
    split; [eapply Wi; eauto|]. split; [|intros _; eapply shape_args; eauto].
    eapply W; [exact H2|apply sub_cons; eapply sub_trans; [apply sub_hide|exact S1]|apply sub_return; exact S2|apply (outs_app [Some "return"]); exact O].
  - (* grab *) intros lv a Ha clos st. cbn [ResolveModel.gl]. destruct (grab_base clos lv) as [base|] eqn:G.
    + destruct (Ha clos (trunc base st)) as (a' & p & Eq & _ & Ti & Wa). rewrite Eq. exists (EGrab lv a'), [].
      split; [reflexivity|]. split; [shapes; reflexivity|]. split; [reflexivity|]. intros outer outer_r cs csr H S1 S2 O.
      destruct lv as [|k]; [exact I|]. change (match nth_error outer k with Some cs' => scoped [] cs' a | None => False end) in H.
      destruct (nth_error outer k) as [c|] eqn:N; [|destruct H]. destruct (O k c N) as [(cr & N2 & S3) (b & N3 & L & S4)].
      change (match nth_error outer_r k with Some cs' => wf (skipn (S k) outer_r) cs' a' | None => True end). rewrite N2.
      assert (base = b) as ->.
      { unfold grab_base in G. assert (k < length clos) by (apply nth_error_Some; congruence).
        destruct (Nat.ltb_spec (length clos) (S k)); [lia|]. congruence. }
      eapply Wa; [exact H|exact S3|exact S4|apply outs_nil].
    + exists (EGrab lv a), []. split; [reflexivity|]. split; [|split; [reflexivity|]].
      { shapes. reflexivity. }
      intros outer outer_r cs csr H S1 S2 O. destruct lv as [|k]; [exact I|].
      change (match nth_error outer k with Some cs' => scoped [] cs' a | None => False end) in H.
      destruct (nth_error outer k) as [c|] eqn:N; [|destruct H]. destruct (O k c N) as [_ (b & N3 & L & S4)].
      exfalso. unfold grab_base in G. assert (k < length clos) by (apply nth_error_Some; congruence).
      destruct (Nat.ltb_spec (length clos) (S k)); [lia|]. congruence.
  - intros a Ha clos st. destruct (Ha clos st) as (a' & p & Eq & _ & Ti & Wa). exists (ETryExpr a'), p. cbn [ResolveModel.gl]. rewrite Eq.
    split; [reflexivity|]. split; [shapes; reflexivity|]. split; [|intros outer outer_r cs csr H S1 S2 O; exact (Wa _ _ _ _ H S1 S2 O)].
    cbn [tidy]. intros T. apply andb_prop in T. destruct T as [T1 T2]. rewrite (Ti T1). destruct (adds a); [reflexivity|discriminate].
  - intros f clos st. exists (EIn f), []. split; [reflexivity|]. split; [shapes; reflexivity|]. split; [reflexivity|].
    intros outer outer_r cs csr H S1 S2 O. change (true = true -> known E' md fi f). intros _. change (known E md fi f) in H.
    destruct f; try exact I. cbn [known] in *. rewrite target_gl. destruct (target E md fi rel); [discriminate|contradiction].
  - (* item *) intros name sid c t ids ti F clos st.
    set (go := gl_ids clos).
    assert (forall st, exists ids' p, go st ids = (ids', p ++ st) /\ (ids = [] <-> ids' = []) /\
      forall outer outer_r cs csr, ids_ok (scoped_idx E arity md fi outer) cs ids -> sub cs csr -> sub cs st -> outs outer outer_r clos st ->
        ids_ok (wf_idx true E' arity md fi outer_r) csr ids') as G.
    { clear sid c t ti. induction F as [|i ids Hi F IH]; intros st0; [exists [], []; split; [reflexivity|]; split; [tauto|]; intros; exact I|].
      destruct (Hi clos st0) as (i' & Eq & K & W).
      destruct (IH (match i with IdExpr _ => None :: st0 | _ => st0 end)) as (ids' & p & Eq2 & _ & W2).
      exists (i' :: ids'), (p ++ match i with IdExpr _ => [None] | _ => [] end). unfold go in *. cbn [gl_ids]. rewrite Eq. fold (gl_ids clos). rewrite Eq2.
      split; [destruct i; rewrite <- app_assoc; reflexivity|]. split; [split; discriminate|].
      intros outer outer_r cs csr [H1 H2] S1 S2 O. split; [exact (W _ _ _ _ H1 S1 S2 O)|].
      destruct i; destruct i'; try contradiction; try exact (W2 _ _ _ _ H2 S1 S2 O).
      eapply W2; [exact H2|apply sub_cons; auto|apply sub_cons; auto|apply (outs_app [None]); exact O]. }
    destruct (G st) as (ids' & p & Eq & K & W).
    exists (Item name (match position 0 name st with Some k => Some k | None => sid end) c t ids' ti).
    rewrite gl_Item; fold go; rewrite Eq, trunc_app. split; [reflexivity|]. split; [auto|].
    intros outer outer_r cs csr [(k & H1) H2] S1 S2 O. split; [|exact (W _ _ _ _ H2 S1 S2 O)].
    intros _. exists k. split; [apply S1, H1|]. rewrite position_find, (S2 _ _ H1). reflexivity.
  - intros s clos st. exists (IdStr s). split; [reflexivity|]. split; [exact I|]. intros; exact I.
  - intros s clos st. exists (IdF64 s). split; [reflexivity|]. split; [exact I|]. intros; exact I.
  - intros e He clos st. destruct (He clos st) as (e' & p & Eq & _ & _ & W). exists (IdExpr e'). rewrite gl_IdExpr, Eq, trunc_app.
    split; [reflexivity|]. split; [exact I|]. intros outer outer_r cs csr H S1 S2 O. exact (W _ _ _ _ H S1 S2 O).
  - intros args cur b Hb clos st. destruct (Hb (length st :: clos) (rev (map Some ("return" :: args ++ cur)) ++ st)) as (b' & p & Eq & _ & _ & W).
    exists (Closure args cur b'), (p ++ rev (map Some ("return" :: args ++ cur))). rewrite gl_Closure, Eq, app_assoc. split; [reflexivity|].
    intros outer outer_r cs csr [H1 H2] S1 S2 O. split; [|intros _; exact H2].
    eapply W; [exact H1|apply sub_refl|apply sub_under|apply outs_cons; auto].
Qed.
End Res.

Theorem scoped_wf : forall E arity, scoped_mods E arity -> wf_mods true (gl_env E) arity.
Proof.
  intros E arity H md m' fi f' Hm Hf. cbn [gl_env e_mods] in Hm. rewrite nth_error_map in Hm.
  destruct (nth_error (e_mods E) md) as [m|] eqn:Em; [|discriminate]. injection Hm as <-. cbn [gl_modl m_funs] in Hf.
  rewrite (gl_funs_nth m (m_funs m) 0 fi) in Hf. destruct (nth_error (m_funs m) fi) as [f|] eqn:Ef; [|discriminate]. injection Hf as <-.
  destruct (H md m fi f Em Ef) as (H1 & H2 & H3). cbn [Nat.add]. split; [exact H1|]. split; [|intros _; exact H3].
  cbn [gl_fun fn_block fn_ret fn_args fn_currents].
  destruct (walk_ok E arity md fi m (fn_block f) (forall_all (proj1 (proj2 (gl_ok E arity md fi m Em))) _) [] (entry (fn_ret f) (fn_args f) (fn_currents f))) as (l' & p & Eq & _ & W).
  change (thread_ok (wf true (gl_env E) arity md fi []) adds (entry (fn_ret f) (fn_args f) (fn_currents f)) (fst (walk (gl (m_funs m) fi []) (entry (fn_ret f) (fn_args f) (fn_currents f)) (fn_block f)))).
  rewrite Eq. apply (W [] [] _ _ H2); [apply sub_refl|apply sub_refl|apply outs_nil].
Qed.
Theorem scoped_expr_wf : forall E arity md m fi cs e, nth_error (e_mods E) md = Some m -> scoped E arity md fi [] cs e ->
  wf true (gl_env E) arity md fi [] cs (fst (gl (m_funs m) fi [] cs e)).
Proof.
  intros E arity md m fi cs e Em H. destruct (proj1 (proj2 (gl_ok E arity md fi m Em)) e [] cs) as (e' & p & Eq & _ & _ & W).
  rewrite Eq. apply (W [] [] cs cs H); [apply sub_refl|apply sub_refl|apply outs_nil].
Qed.
