(** * Lemmas for P_Import.v: conditions on a function depend on its module only through the functions it calls. *)
From Coq Require Import String List ZArith Bool Arith Lia.
From Verif Require Import Float64 Syntax SyntaxProofs InterpModel WfSpec BalanceBase BalanceGrab ResolveModel ResolveSpec ResolveProofs.
Import ListNotations.
Local Open Scope string_scope.
Local Open Scope nat_scope.
Local Open Scope list_scope.

(** Wherever a function of the first module calls something, the second one has a function alike. *)
Definition alike (f f' : func) : Prop := fn_ret f' = fn_ret f /\ length (fn_args f') = length (fn_args f).
Section Kept.
Context (E E' : env) (arity : string -> nat) (md fi md' fi' : nat).
Context (K : forall i f, target E md fi i = Some f -> exists f', target E' md' fi' i = Some f' /\ alike f f').
Notation sc := (scoped E arity md fi).
Notation sc' := (scoped E' arity md' fi').

Definition any (e : expr) : Prop := exists outer cs, sc outer cs e.
Definition any_item (it : item) : Prop := exists outer cs, scoped_item E arity md fi outer cs it.
Definition any_idx (i : idx) : Prop := exists outer cs, scoped_idx E arity md fi outer cs i.
Definition any_clo (c : closure) : Prop := exists outer, scoped_clo E arity md fi outer c.

Lemma seq_any : forall outer l cs, seq_ok (sc outer) cs l -> Forall any l.
Proof. induction l as [|e l IH]; intros cs H; [constructor|]. destruct H as (H1 & _ & H2). constructor; [exists outer, cs; exact H1|eapply IH; exact H2]. Qed.
Lemma all_any : forall outer cs l, all_ok (sc outer cs) l -> Forall any l.
Proof. induction l as [|e l IH]; intros H; [constructor|]. destruct H as (H1 & H2). constructor; [exists outer, cs; exact H1|auto]. Qed.
Lemma thread_any : forall outer add l cs, thread_ok (sc outer) add cs l -> Forall any l.
Proof. induction l as [|e l IH]; intros cs H; [constructor|]. destruct H as (H1 & H2). constructor; [exists outer, cs; exact H1|eapply IH; exact H2]. Qed.
Lemma blocks_any : forall outer cs l, all_ok (seq_ok (sc outer) cs) l -> Forall (Forall any) l.
Proof. induction l as [|e l IH]; intros H; [constructor|]. destruct H as (H1 & H2). constructor; [eapply seq_any; exact H1|auto]. Qed.

(** ** Values *)
Lemma lastb_eq : forall (f g : expr -> bool) l, Forall (fun e => f e = g e) l -> lastb f l = lastb g l.
Proof. intros f g l H. induction H as [|e l He H IH]; [reflexivity|]. destruct l as [|e2 l]; [exact He|exact IH]. Qed.
Lemma valued_kept : forall e, any e -> valued E' md' fi' e = valued E md fi e.
Proof.
  assert (Fo : forall (P : expr -> Prop) l, Forall (fun e => any e -> P e) l -> Forall any l -> Forall P l).
  { intros P l H A. induction A; inversion H; subst; constructor; auto. }
  refine (proj1 (proj2 (syntax_ind (fun _ => True) (fun e => any e -> valued E' md' fi' e = valued E md fi e) (fun _ => True) (fun _ => True) (fun _ => True)
    _ _ _ _ _ _ _ _ _ _ _ _ _ _ _ _ _ _ _ _ _ _ _ _ _ _ _ _ _ _ _ _ _ _ _ _ _ _ _ _ _ _ _ _ _ _ _ _ _ _ _))); try (intros; exact I); try (intros; reflexivity).
  - intros l F (outer & cs & H). cbn [valued]. apply lastb_eq, (Fo _ _ F). eapply seq_any; exact H.
  - intros f n l F (outer & cs & H). destruct f as [|i|g|g|g|g|g]; try reflexivity. cbn [valued]. destruct H as [H _]. destruct (target E md fi i) as [g|] eqn:T; [|contradiction].
    destruct (K _ _ T) as (g' & -> & A & _). exact A.
  - intros c tb cs0 bs eb Hc Ft Fc Fb Fe (outer & cs & (_ & H1 & _ & H2 & H3)). cbn [valued]. f_equal; [f_equal|].
    + apply lastb_eq, (Fo _ _ Ft). eapply seq_any; exact H1.
    + apply blocks_any in H2. clear - Fb H2 Fo. induction H2; [reflexivity|]. inversion Fb; subst. cbn. f_equal; [apply lastb_eq, (Fo _ _ H3 H)|auto].
    + destruct eb as [b|]; [|reflexivity]. apply lastb_eq, (Fo _ _ Fe). eapply seq_any; exact H3.
Qed.
Lemma arg_kept : forall e, any e -> arg_ok E md fi e -> arg_ok E' md' fi' e.
Proof. intros e A [H|H]; [left; exact H|right; rewrite (valued_kept e A); exact H]. Qed.
Lemma args_kept : forall l, Forall any l -> all_ok (arg_ok E md fi) l -> all_ok (arg_ok E' md' fi') l.
Proof. intros l A H. induction A; [exact I|]. destruct H. split; [now apply arg_kept|auto]. Qed.

(** ** Scopes *)
Lemma seq_ok_imp : forall (f g : scope -> expr -> Prop) l cs, Forall (fun e => forall cs, f cs e -> g cs e) l -> seq_ok f cs l -> seq_ok g cs l.
Proof. intros f g l cs F. revert cs. induction F as [|e l He F IH]; intros cs H; [exact I|]. destruct H as (H1 & H2 & H3). split; [auto|]. split; [exact H2|]. apply IH, H3. Qed.
Definition Se (e : expr) : Prop := forall outer cs, sc outer cs e -> sc' outer cs e.
Lemma seq_S : forall l, Forall Se l -> forall outer cs, seq_ok (sc outer) cs l -> seq_ok (sc' outer) cs l.
Proof. intros l F outer cs. apply seq_ok_imp. eapply Forall_impl; [|exact F]. intros e H cs'. apply H. Qed.
Lemma all_S : forall l, Forall Se l -> forall outer cs, all_ok (sc outer cs) l -> all_ok (sc' outer cs) l.
Proof. intros l F outer cs. apply all_ok_imp. eapply Forall_impl; [|exact F]. intros e H. apply H. Qed.
Lemma thread_S : forall l, Forall Se l -> forall outer add cs, thread_ok (sc outer) add cs l -> thread_ok (sc' outer) add cs l.
Proof. intros l F outer add cs. apply thread_ok_imp. eapply Forall_impl; [|exact F]. intros e H cs'. apply H. Qed.
Lemma scoped_kept_all : (forall v : value, True) /\ (forall e, Se e) /\
  (forall it outer cs, scoped_item E arity md fi outer cs it -> scoped_item E' arity md' fi' outer cs it) /\
  (forall i outer cs, scoped_idx E arity md fi outer cs i -> scoped_idx E' arity md' fi' outer cs i) /\
  (forall c outer, scoped_clo E arity md fi outer c -> scoped_clo E' arity md' fi' outer c).
Proof.
  apply syntax_ind; try (intros; exact I); try (unfold Se; intros; exact I).
  - intros l F outer cs [H1 H2]. split; [exact (seq_S l F outer cs H1)|exact H2].
  - intros l F outer cs H. change (all_ok (fun kv => match kv with (_, x) => sc' outer cs x end) l). change (all_ok (fun kv => match kv with (_, x) => sc outer cs x end) l) in H.
    eapply all_ok_imp; [|exact H]. eapply Forall_impl; [|exact F]. intros [k x] Hx. cbn in *. apply Hx.
  - intros l F outer cs H. exact (all_S l F outer cs H).
  - intros a b Ha Hb outer cs [H1 H2]. split; [exact (Ha _ _ H1)|exact (Hb _ _ H2)].
  - intros e He outer cs H. exact (He _ _ H).
  - intros l F outer cs H. exact (seq_S l F outer cs H).
  - intros n l F outer cs H. exact (all_S l F outer cs H).
  - intros f n l F outer cs H. destruct f as [|i|g|g|g|g|g].
    + exact H.
    + destruct H as [H1 H2]. destruct (target E md fi i) as [g|] eqn:T; [|contradiction]. destruct H1 as [H1 H3].
      destruct (K _ _ T) as (g' & T' & A1 & A2). split; [rewrite T', A1, A2; split; [exact (thread_S l F _ _ _ H1)|exact H3]|].
      apply args_kept; [eapply thread_any; exact H1|exact H2].
    + destruct H as [H1 H2]. split; [exact H1|exact (thread_S l F _ _ _ H2)].
    + destruct H as [H1 H2]. split; [exact H1|exact (thread_S l F _ _ _ H2)].
    + destruct H as [H1 H2]. split; [exact H1|exact (thread_S l F _ _ _ H2)].
    + destruct H as [H1 H2]. split; [exact (all_S l F _ _ H1)|exact H2].
    + change (match l with [x] => sc outer cs x | _ => False end) in H. change (match l with [x] => sc' outer cs x | _ => False end).
      destruct l as [|x [|y l]]; try contradiction. inversion F; subst. apply H2, H.
  - intros it Hi outer cs H. exact (Hi _ _ H).
  - intros op a b Ha Hb outer cs H.
    assert (G : sc outer cs a /\ sc outer cs b -> sc' outer cs a /\ sc' outer cs b) by (intros [G1 G2]; split; [exact (Ha _ _ G1)|exact (Hb _ _ G2)]).
    destruct op; try exact (G H). destruct a; try exact (G H). destruct it as [x sid c t [|i ids] ti]; [exact (Hb _ _ H)|exact (G H)].
  - intros l F outer cs (H1 & H2 & H3). split; [exact (thread_S l F _ _ _ H1)|]. split; [apply args_kept; [eapply thread_any; exact H1|exact H2]|exact H3].
  - intros l F outer cs (H1 & H2 & H3). split; [exact (thread_S l F _ _ _ H1)|]. split; [|exact H3]. apply thread_any in H1. clear - K H1 H2. induction H1; [exact I|].
    destruct H2. split; [rewrite valued_kept; assumption|auto].
  - intros lb a b c l Ha Hb Hc F outer cs (H1 & H2 & H3 & H4 & H5 & H6). split; [exact (Ha _ _ H1)|]. split; [exact H2|]. split; [exact (Hb _ _ H3)|].
    split; [exact (Hc _ _ H4)|]. split; [exact (seq_S l F _ _ H5)|exact H6].
  - intros k lb n a b l Ha Hb F outer cs (H1 & H2 & H3 & H4). split; [destruct a; [exact (Ha _ _ H1)|exact I]|]. split; [exact (Hb _ _ H2)|]. split; [exact (seq_S l F _ _ H3)|exact H4].
  - intros k lb n a l Ha F outer cs (H1 & H2 & H3). split; [exact (Ha _ _ H1)|]. split; [exact (seq_S l F _ _ H2)|exact H3].
  - intros c tb cs0 bs eb Hc Ft Fc Fb Fe outer cs (H1 & H2 & H3 & H4 & H5). split; [exact (Hc _ _ H1)|]. split; [exact (seq_S tb Ft _ _ H2)|]. split; [exact (all_S cs0 Fc _ _ H3)|].
    split; [|destruct eb; [exact (seq_S _ Fe _ _ H5)|exact I]]. eapply all_ok_imp; [|exact H4]. eapply Forall_impl; [|exact Fb]. intros b F. apply seq_S, F.
  - intros v _ outer cs H. exact H.
  - intros e He outer cs H. exact (He _ _ H).
  - intros i e He outer cs [H1 H2]. split; [exact (He _ _ H1)|exact H2].
  - intros c Hc outer cs H. exact (Hc _ H).
  - intros it l Hi F outer cs (H1 & H2 & H3). split; [exact (Hi _ _ H1)|]. split; [exact (thread_S l F _ _ _ H2)|]. apply args_kept; [eapply thread_any; exact H2|exact H3].
  - intros n e He outer cs H. destruct n as [|k]; [exact I|]. change (match nth_error outer k with Some cs' => sc [] cs' e | None => False end) in H.
    change (match nth_error outer k with Some cs' => sc' [] cs' e | None => False end). destruct (nth_error outer k); [exact (He _ _ H)|exact H].
  - intros e He outer cs H. exact (He _ _ H).
  - intros f outer cs H. destruct f as [|i|g|g|g|g|g]; try exact I. change (target E md fi i <> None) in H. change (target E' md' fi' i <> None). destruct (target E md fi i) as [g|] eqn:T; [|contradiction].
    destruct (K _ _ T) as (g' & -> & _). discriminate.
  - intros n s c t ids ti F outer cs [H1 H2]. split; [exact H1|]. refine (ids_ok_imp _ _ _ _ _ H2). eapply Forall_impl; [|exact F]. intros i Hi cs'. apply Hi.
  - intros e He outer cs H. exact (He _ _ H).
  - intros a c b Hb outer [H1 H2]. split; [exact (Hb _ _ H1)|exact H2].
Qed.
Lemma scoped_fun_kept : forall f, scoped_fun E arity md fi f -> scoped_fun E' arity md' fi' f.
Proof.
  intros f (H1 & H2 & H3). split; [exact H1|]. split; [|exact H3]. apply seq_S; [|exact H2]. apply Forall_forall. intros e _. apply scoped_kept_all.
Qed.

(** ** Slots *)
Lemma gl_assign_any : forall fs fi clos st op a b, declares op a = false ->
  gl fs fi clos st (EAssign op a b) = let (b', st1) := gl fs fi clos st b in let (a', st2) := gl fs fi clos (trunc (length st) st1) a in (EAssign op a' b', trunc (length st) st2).
Proof.
  intros fs fi0 clos st op a b H. cbn [gl]. destruct (gl fs fi0 clos st b) as [b' st1]. destruct op; try reflexivity. destruct a; try reflexivity.
  destruct it as [n s c t [|i ids] ti]; [discriminate|reflexivity].
Qed.
Definition gl_ids (fs : list func) (fi : nat) (clos : list nat) := fix go (st : cstack) (l : list idx) : list idx * cstack :=
  match l with
  | [] => ([], st)
  | i :: l => let (i', st1) := gl_idx fs fi clos st i in
      let (l', st2) := go (match i with IdExpr _ => None :: st1 | _ => st1 end) l in (i' :: l', st2)
  end.
Lemma gl_Item : forall fs fi clos st name sid c t ids ti, gl_item fs fi clos st (Item name sid c t ids ti) =
  let (ids', st1) := gl_ids fs fi clos st ids in
  (Item name (match position 0 name st with Some k => Some k | None => sid end) c t ids' ti, trunc (length st) st1).
Proof. reflexivity. Qed.
Lemma gl_ECallClosure : forall fs fi clos st it l, gl fs fi clos st (ECallClosure it l) =
  let (it', st1) := gl_item fs fi clos st it in let (l', st2) := walk_trunc (gl fs fi clos) arg_slots (Some "return" :: st1) l in (ECallClosure it' l', trunc (length st) st2).
Proof. reflexivity. Qed.
Section Slots.
Context (fs fs' : list func).
Context (R : forall i f, target E md fi i = Some f -> call_returns fs' fi' i = call_returns fs fi i).
Definition Ge (e : expr) : Prop := any e -> forall clos st, gl fs' fi' clos st e = gl fs fi clos st e.
Lemma walk_eq : forall {A} (f g : cstack -> A -> A * cstack) l, Forall (fun e => forall st, f st e = g st e) l -> forall st, walk f st l = walk g st l.
Proof. intros A f g l F. induction F as [|e l He F IH]; intros st; [reflexivity|]. cbn. rewrite He. destruct (g st e) as [e' st1]. rewrite IH. reflexivity. Qed.
Lemma walk_trunc_eq : forall {A} (f g : cstack -> A -> A * cstack) p l, Forall (fun e => forall st, f st e = g st e) l -> forall st, walk_trunc f p st l = walk_trunc g p st l.
Proof. intros A f g p l F. induction F as [|e l He F IH]; intros st; [reflexivity|]. cbn. rewrite He. destruct (g st e) as [e' st1]. rewrite IH. reflexivity. Qed.
Lemma both_G : forall l, Forall Ge l -> Forall any l -> forall clos, Forall (fun e => forall st, gl fs' fi' clos st e = gl fs fi clos st e) l.
Proof. intros l F A clos. induction A; inversion F; subst; constructor; auto. Qed.
Lemma gl_kept_all : (forall v : value, True) /\ (forall e, Ge e) /\
  (forall it, any_item it -> forall clos st, gl_item fs' fi' clos st it = gl_item fs fi clos st it) /\
  (forall i, any_idx i -> forall clos st, gl_idx fs' fi' clos st i = gl_idx fs fi clos st i) /\
  (forall c, any_clo c -> forall clos st, gl_clo fs' fi' clos st c = gl_clo fs fi clos st c).
Proof.
  apply syntax_ind; try (intros; exact I); try (unfold Ge; intros; reflexivity).
  - intros l F (outer & cs & H) clos st. apply proj1, seq_any in H. cbn [gl]. rewrite (walk_eq _ _ _ (both_G l F H clos)). reflexivity.
  - intros l F (outer & cs & H) clos st. change (all_ok (fun kv => match kv with (_, x) => sc outer cs x end) l) in H. cbn [gl].
    rewrite (walk_trunc_eq _ (fun st kv => match kv with (k, x) => let (x', st1) := gl fs fi clos st x in ((k, x'), st1) end)); [reflexivity|].
    clear st. induction F as [|[k x] l Hx F IH]; constructor; [|apply IH, H]. intros st. destruct H as [H _]. rewrite (Hx (ex_intro _ outer (ex_intro _ cs H))). reflexivity.
  - intros l F (outer & cs & H) clos st. apply all_any in H. cbn [gl]. rewrite (walk_trunc_eq _ _ _ _ (both_G l F H clos)). reflexivity.
  - intros a b Ha Hb (outer & cs & H1 & H2) clos st. cbn [gl]. rewrite (Ha (ex_intro _ outer (ex_intro _ cs H1))). destruct (gl fs fi clos st a) as [a' st1].
    rewrite (Hb (ex_intro _ outer (ex_intro _ cs H2))). reflexivity.
  - intros e He (outer & cs & H) clos st. cbn [gl]. rewrite (He (ex_intro _ outer (ex_intro _ cs H))). reflexivity.
  - intros l F (outer & cs & H) clos st. apply seq_any in H. cbn [gl]. rewrite (walk_eq _ _ _ (both_G l F H clos)). reflexivity.
  - intros n l F (outer & cs & H) clos st. apply all_any in H. cbn [gl]. rewrite (walk_trunc_eq _ _ _ _ (both_G l F H clos)). reflexivity.
  - intros f n l F (outer & cs & H) clos st. cbn [gl].
    assert (A : Forall any l).
    { destruct f as [|i|g|g|g|g|g].
      - destruct H.
      - destruct H as [H _]. destruct (target E md fi i); [|contradiction]. eapply thread_any, (proj1 H).
      - eapply thread_any, (proj2 H).
      - eapply thread_any, (proj2 H).
      - eapply thread_any, (proj2 H).
      - eapply all_any, (proj1 H).
      - change (match l with [x] => sc outer cs x | _ => False end) in H. destruct l as [|x [|y l]]; try contradiction. repeat constructor. exists outer, cs. exact H. }
    rewrite (walk_trunc_eq _ _ _ _ (both_G l F A clos)). destruct f as [|i|g|g|g|g|g]; try reflexivity.
    destruct H as [H _]. destruct (target E md fi i) as [g|] eqn:T; [|contradiction]. rewrite (R _ _ T). reflexivity.
  - intros it Hi (outer & cs & H) clos st. cbn [gl]. rewrite (Hi (ex_intro _ outer (ex_intro _ cs H))). reflexivity.
  - intros op a b Ha Hb (outer & cs & H) clos st.
    assert (G : sc outer cs b /\ (declares op a = false -> sc outer cs a)).
    { destruct op; try (destruct H; split; auto; fail). destruct a; try (destruct H; split; auto; fail). destruct it as [x sid c t [|i ids] ti]; [split; [exact H|discriminate]|destruct H; split; auto]. }
    destruct G as [G1 G2]. destruct (declares op a) eqn:D.
    + destruct op; try discriminate. destruct a; try discriminate. destruct it as [name sid c t [|i ids] ti]; [|discriminate]. cbn [gl]. rewrite (Hb (ex_intro _ outer (ex_intro _ cs G1))). reflexivity.
    + rewrite !(gl_assign_any _ _ _ _ _ _ _ D). rewrite (Hb (ex_intro _ outer (ex_intro _ cs G1))). destruct (gl fs fi clos st b) as [b' st1]. rewrite (Ha (ex_intro _ outer (ex_intro _ cs (G2 eq_refl)))). reflexivity.
  - intros l F (outer & cs & H) clos st. apply proj1, thread_any in H. cbn [gl]. rewrite (walk_trunc_eq _ _ _ _ (both_G l F H clos)). reflexivity.
  - intros l F (outer & cs & H) clos st. apply proj1, thread_any in H. cbn [gl]. rewrite (walk_trunc_eq _ _ _ _ (both_G l F H clos)). reflexivity.
  - intros lb a b c l Ha Hb Hc F (outer & cs & (H1 & H2 & H3 & H4 & H5 & H6)) clos st. apply seq_any in H5. cbn [gl].
    rewrite (Ha (ex_intro _ outer (ex_intro _ _ H1))). destruct (gl fs fi clos st a) as [a' st1]. rewrite (Hb (ex_intro _ outer (ex_intro _ _ H3))). destruct (gl fs fi clos st1 b) as [b' st2].
    rewrite (Hc (ex_intro _ outer (ex_intro _ _ H4))). destruct (gl fs fi clos (trunc (length st1) st2) c) as [c' st3]. rewrite (walk_eq _ _ _ (both_G l F H5 clos)). reflexivity.
  - intros k lb n a b l Ha Hb F (outer & cs & (H1 & H2 & H3 & H4)) clos st. apply seq_any in H3. cbn [gl].
    assert (Q : match a with Some x => let (x', st1) := gl fs' fi' clos st x in (Some x', trunc (length st) st1) | None => (None, st) end =
                match a with Some x => let (x', st1) := gl fs fi clos st x in (Some x', trunc (length st) st1) | None => (None, st) end).
    { destruct a as [x|]; [|reflexivity]. cbn in Ha. rewrite (Ha (ex_intro _ outer (ex_intro _ _ H1))). reflexivity. }
    rewrite Q. destruct (match a with Some x => let (x', st1) := gl fs fi clos st x in (Some x', trunc (length st) st1) | None => (None, st) end) as [a' st1].
    rewrite (Hb (ex_intro _ outer (ex_intro _ _ H2))). destruct (gl fs fi clos st1 b) as [b' st2]. rewrite (walk_eq _ _ _ (both_G l F H3 clos)). reflexivity.
  - intros k lb n a l Ha F (outer & cs & (H1 & H2 & H3)) clos st. apply seq_any in H2. cbn [gl]. rewrite (Ha (ex_intro _ outer (ex_intro _ _ H1))). destruct (gl fs fi clos st a) as [a' st1].
    rewrite (walk_eq _ _ _ (both_G l F H2 clos)). reflexivity.
  - intros c tb cs0 bs eb Hc Ft Fc Fb Fe (outer & cs & (H1 & H2 & H3 & H4 & H5)) clos st. apply seq_any in H2. apply all_any in H3. apply blocks_any in H4. cbn [gl].
    rewrite (Hc (ex_intro _ outer (ex_intro _ _ H1))). destruct (gl fs fi clos st c) as [c' st1]. rewrite (walk_eq _ _ _ (both_G tb Ft H2 clos)).
    destruct (walk (gl fs fi clos) (trunc (length st) st1) tb) as [tb' st2]. rewrite (walk_trunc_eq _ _ _ _ (both_G cs0 Fc H3 clos)).
    match goal with |- context [walk_trunc (gl fs fi clos) no_slots ?s cs0] => destruct (walk_trunc (gl fs fi clos) no_slots s cs0) as [cs1 st3] end.
    assert (Q : forall st, walk_trunc (fun st b => let (b', st1) := walk (gl fs' fi' clos) st b in (b', trunc (length st) st1)) no_slots st bs =
                walk_trunc (fun st b => let (b', st1) := walk (gl fs fi clos) st b in (b', trunc (length st) st1)) no_slots st bs).
    { apply walk_trunc_eq. clear - Fb H4. induction H4; [constructor|]. inversion Fb; subst. constructor; [|auto]. intros st. rewrite (walk_eq _ _ _ (both_G _ H2 H clos)). reflexivity. }
    rewrite Q. destruct (walk_trunc (fun st b => let (b', st1) := walk (gl fs fi clos) st b in (b', trunc (length st) st1)) no_slots st3 bs) as [bs' st4].
    destruct eb as [b|]; [|reflexivity]. apply seq_any in H5. rewrite (walk_eq _ _ _ (both_G b Fe H5 clos)). reflexivity.
  - intros e He (outer & cs & H) clos st. cbn [gl]. rewrite (He (ex_intro _ outer (ex_intro _ cs H))). reflexivity.
  - intros i e He (outer & cs & [H _]) clos st. cbn [gl]. rewrite (He (ex_intro _ outer (ex_intro _ cs H))). reflexivity.
  - intros c Hc (outer & cs & H) clos st. cbn [gl]. rewrite (Hc (ex_intro _ (cs :: outer) H)). reflexivity.
  - intros it l Hi F (outer & cs & (H1 & H2 & H3)) clos st. apply thread_any in H2. rewrite !gl_ECallClosure. rewrite (Hi (ex_intro _ outer (ex_intro _ cs H1))). destruct (gl_item fs fi clos st it) as [it' st1].
    rewrite (walk_trunc_eq _ _ _ _ (both_G l F H2 clos)). reflexivity.
  - intros n e He (outer & cs & H) clos st. cbn [gl]. destruct n as [|k]; [reflexivity|]. change (match nth_error outer k with Some cs' => sc [] cs' e | None => False end) in H.
    destruct (nth_error outer k) as [cs'|]; [|contradiction]. destruct (grab_base clos (S k)); [|reflexivity]. rewrite (He (ex_intro _ [] (ex_intro _ cs' H))). reflexivity.
  - intros e He (outer & cs & H) clos st. cbn [gl]. rewrite (He (ex_intro _ outer (ex_intro _ cs H))). reflexivity.
  - intros n s c t ids ti F (outer & cs & [_ H]) clos st. rewrite !gl_Item. enough (Q : gl_ids fs' fi' clos st ids = gl_ids fs fi clos st ids) by (rewrite Q; reflexivity).
    revert st cs H. induction F as [|i ids Hi F IH]; intros st cs H; [reflexivity|]. destruct H as [H1 H2]. cbn [gl_ids]. rewrite (Hi (ex_intro _ outer (ex_intro _ cs H1))).
    destruct (gl_idx fs fi clos st i) as [i' st1]. rewrite (IH _ _ H2). reflexivity.
  - intros e He (outer & cs & H) clos st. cbn [gl_idx]. rewrite (He (ex_intro _ outer (ex_intro _ cs H))). reflexivity.
  - intros a c b Hb (outer & [H _]) clos st. cbn [gl_clo]. rewrite (Hb (ex_intro _ _ (ex_intro _ _ H))). reflexivity.
Qed.
Lemma gl_fun_kept : forall f, scoped_fun E arity md fi f -> gl_fun fs' fi' f = gl_fun fs fi f.
Proof.
  intros f (H1 & H2 & H3). unfold gl_fun. f_equal. f_equal. apply walk_eq. apply seq_any in H2. eapply Forall_impl; [|exact H2]. intros e A st. now apply gl_kept_all.
Qed.
End Slots.
End Kept.
