(** * The grammar gives trees that are [built]. *)
From Coq Require Import String List Bool Arith ZArith Lia.
From Verif Require Import PrintModel ColorModel Float64 TypeModel LifetimeModel NodesModel FoldModel TransformModel NodesSpec Syntax InterpModel WfSpec ResolveSpec AstModel AstSpec GrammarSpec GrammarAll VisibleSpec LoadSpec.
Import ListNotations.
Local Open Scope string_scope.
Local Open Scope nat_scope.
Local Open Scope list_scope.

Section Built.
Context (in_of : option string -> string -> callee) (alloc : Z -> bool).
Notation regs := (forallb (nodes_all regular)).

Lemma regs_app : forall a b, regs (a ++ b) = true -> regs a = true /\ regs b = true.
Proof. intros a b. rewrite forallb_app. apply andb_true_iff. Qed.
Lemma regs_cons : forall t b, regs (t :: b) = true -> nodes_all regular t = true /\ regs b = true.
Proof. intros t b. cbn [forallb]. apply andb_true_iff. Qed.
Lemma reg_node : forall n b, nodes_all regular (SNode n b) = true -> regular n b = true /\ regs b = true.
Proof. intros n b. cbn [nodes_all]. apply andb_true_iff. Qed.
Lemma regs_one : forall n b, regs [SNode n b] = true -> regs b = true.
Proof. intros n b R. apply regs_cons in R. destruct R as [R _]. now apply reg_node in R. Qed.
Lemma regs_part : forall n b l, regs (SNode n b :: l) = true -> regs b = true /\ regs l = true.
Proof. intros n b l R. apply regs_cons in R. destruct R as [R L]. apply reg_node in R. tauto. Qed.

Definition opt_built (o : option expr) : Prop := match o with Some e => built e | None => True end.
Definition ends_built (p : string * option expr * option expr) : Prop :=
  match p with (_, a, b) => opt_built a /\ match b with Some e => built e | None => False end end.
Definition B_expr (b : list stx) (e : expr) : Prop := regs b = true -> built e.
Definition B_all (b : list stx) (es : list expr) : Prop := regs b = true -> all_ok built es.
Definition B_pairs (b : list stx) (kvs : list (string * expr)) : Prop := regs b = true -> all_ok (fun kv => match kv with (_, x) => built x end) kvs.
Definition B_parts (b : list stx) (es : list (option expr)) : Prop := regs b = true -> all_ok opt_built es.
Definition B_item (s : stx) (i : item) : Prop := nodes_all regular s = true -> built_item i.
Definition B_call (s : stx) (es : list expr) : Prop := nodes_all regular s = true -> all_ok built es.
Definition B_ids (b : list stx) (ids : list idx) : Prop := regs b = true -> all_ok built_idx ids.
Definition B_operand (s : stx) (e : expr) : Prop := nodes_all regular s = true -> built e.
Definition B_rest (b : list stx) (es : list (binop * expr)) : Prop := regs b = true -> all_ok (fun p => match p with (_, x) => built x end) es.
Definition B_operands (b : list stx) (e : expr) (es : list (binop * expr)) : Prop := regs b = true -> built e /\ all_ok (fun p => match p with (_, x) => built x end) es.
(** [r]: what comes after the indices *)
Definition B_indices (b : list stx) (is_ : list (string * option expr * option expr)) : Prop :=
  (b = [] \/ exists x l, b = str "name" x :: l) /\
  forall l, regs b = true -> closed (b ++ [SNode "block" l]) = true -> all_ok ends_built is_.
Definition B_elses (b : list stx) (cs : list expr) (bs : list (list expr)) : Prop := regs b = true -> all_ok built cs /\ all_ok (all_ok built) bs.
Definition B_else (b : list stx) (eb : option (list expr)) : Prop := regs b = true -> match eb with Some b => all_ok built b | None => True end.

Lemma applied_b : forall e es r, applied e es r -> built e -> all_ok (fun p => match p with (_, x) => built x end) es -> built r.
Proof. induction 1 as [|e o f e' l r _ _ IH]; intros A B; [exact A|]. destruct B as [B1 B2]. apply IH; [|exact B2]. split; [exact A|]. split; [exact B1|exact Logic.I]. Qed.
Lemma fill_b : forall ds es, all_ok opt_built es -> all_ok built ds -> all_ok built (fill_up es ds).
Proof.
  unfold fill_up. induction ds as [|d ds IH]; intros [|o es] A B; try exact Logic.I. destruct A as [A1 A2]. destruct B as [B1 B2]. cbn [combine map].
  split; [destruct o; [exact A1|exact B1]|now apply IH].
Qed.
Lemma letter_lt : forall n s i, letter n s i -> i < 4.
Proof. intros n s i [c j I]. simpl in I. repeat (destruct I as [I|I]; [injection I as <- <-; lia|]). destruct I. Qed.
Lemma swizzled_lt : forall l inds, swizzled l inds -> Forall (fun i => i < 4) inds.
Proof. intros l inds []; repeat (apply Forall_cons; [eapply letter_lt; eauto|]); apply Forall_nil. Qed.
Lemma all_ok_app : forall {A} (Q : A -> Prop) a b, all_ok Q (a ++ b) <-> all_ok Q a /\ all_ok Q b.
Proof. intros A Q a b. induction a as [|x a IH]; [cbn; tauto|]. cbn [app all_ok]. change (Q x /\ all_ok Q (a ++ b) <-> (Q x /\ all_ok Q a) /\ all_ok Q b). tauto. Qed.
Lemma words_b : forall ws i, built_item i -> built_item (words_item ws i).
Proof.
  intros ws [x sid c t ids ti] H. unfold words_item. destruct (rev ids) as [|[y|y|e] r] eqn:R; try exact H. change (all_ok built_idx ids) in H. rewrite <- (rev_involutive ids), R in H. cbn [rev] in H.
  apply all_ok_app in H. destruct H as [H _]. change (all_ok built_idx (rev r ++ [IdStr (y ++ "__" ++ String.concat "_" ws)%string])). apply all_ok_app. split; [exact H|]. split; exact Logic.I.
Qed.
Lemma one_link_b : forall b es, one_link b -> all_mean in_of alloc "expr" b es -> exists l, es = [ELink l].
Proof.
  intros b es [l ->] M. inversion_clear M as [|n b' e l' es' B A]. inversion A. subst. clear A. inversion B; subst; try (exfalso; match goal with H : _ ++ [flag "try"] = [_] |- _ => destruct b; [discriminate H|destruct b; discriminate H] end).
  all: try (match goal with H : In _ _ |- _ => simpl in H; exfalso; intuition discriminate end).
  - eauto.
  - match goal with H : item_means _ _ _ _ |- _ => inversion H end.
  - match goal with H : call_means _ _ _ _ _ |- _ => inversion H end.
Qed.
Lemma ends_b : forall k body x a b e, ends_at body x b e -> ends_built (x, a, b) -> all_ok built body -> (k = KLink -> link_body body) -> built (EForN k None x a e body).
Proof. intros k body x a b e [e'|e' _] [A B] C L; [|destruct B]. split; [exact A|]. split; [exact B|]. split; [exact C|exact L]. Qed.
Lemma loops_b : forall k label is_ body e, loops k label is_ body e -> all_ok ends_built is_ -> all_ok built body -> (k = KLink -> link_body body) -> built e.
Proof.
  induction 1 as [label x a b e body N|label x a b e i l body inner H IH N]; intros [A1 A2] B L.
  - exact (ends_b k body x a b e N A1 B L).
  - specialize (IH A2 B L). apply (ends_b k [inner] x a b e N A1); [split; [exact IH|exact Logic.I]|].
    intros ->. inversion H; exact Logic.I.
Qed.
Lemma closed_tail : forall o l, closed (strs "label" o ++ l) = closed l.
Proof. now intros [] l. Qed.
Lemma labelled : forall o l, regs (strs "label" o ++ l) = true -> regs l = true.
Proof. intros o l R. now apply regs_app in R. Qed.
Lemma flagged : forall n q l, regs (flags n q ++ l) = true -> regs l = true.
Proof. intros n q l R. now apply regs_app in R. Qed.
Ltac parts R := repeat (let R1 := fresh "R" in apply regs_part in R; destruct R as [R1 R]).

Theorem grammar_built :
  (forall b e, expr_body in_of alloc b e -> B_expr b e) /\
  (forall (n : string) b es, all_mean in_of alloc n b es -> B_all b es) /\
  (forall b kvs, pairs_mean in_of alloc b kvs -> B_pairs b kvs) /\
  (forall b (m : bool) e, arg_body in_of alloc b m e -> B_expr b e) /\
  (forall b (ms : list bool) es, arguments_mean in_of alloc b ms es -> B_all b es) /\
  (forall b (ws : list string) (ms : list bool) es, named_mean in_of alloc b ws ms es -> B_all b es) /\
  (forall (ns : list string) b es, parts_mean in_of alloc ns b es -> B_parts b es) /\
  (forall c (f : string) es, call_means in_of alloc c f es -> B_call c es) /\
  (forall it i, item_means in_of alloc it i -> B_item it i) /\
  (forall (k : nat) l ids (tries : list nat), ids_mean in_of alloc k l ids tries -> B_ids l ids) /\
  (forall t e, operand_means in_of alloc t e -> B_operand t e) /\
  (forall l e es, operands_mean in_of alloc l e es -> B_operands l e es) /\
  (forall l es, rest_mean in_of alloc l es -> B_rest l es) /\
  (forall l is_, indices_mean in_of alloc l is_ -> B_indices l is_) /\
  (forall l cs bs, elses_mean in_of alloc l cs bs -> B_elses l cs bs) /\
  (forall l eb, else_mean in_of alloc l eb -> B_else l eb) /\
  (forall (l : list stx) (xs : list arg) (lz : list (list lazy)), args_mean in_of alloc l xs lz -> True) /\
  (forall (l : list stx) (zs : list lazy), lazy_mean in_of alloc l zs -> True).
Proof.
  apply grammar_ind.
  - intros b e _ H R. apply regs_app in R. apply H, R.
  - intros a x R. exact Logic.I.
  - intros args currents b xs lz cs e _ _ C M B R. apply regs_one in R. apply regs_app in R. destruct R as [_ R]. apply regs_app in R. destruct R as [_ R]. apply regs_one in R. exact (B R).
  - intros l kvs _ H R. apply regs_one in R. exact (H R).
  - intros l es _ H R. apply regs_one in R. exact (H R).
  - intros b c e n _ B _ C R. apply regs_one in R. parts R. split; [apply B, R0|apply C, R1].
  - intros l es _ H R. apply regs_one in R. exact (H R).
  - intros l es _ H R. apply regs_one in R. exact (H R).
  - intros label b c d l i t s es _ B _ C _ D _ H R. apply regs_one in R. apply labelled in R. parts R. split; [apply B, R0|]. split; [apply C, R1|]. split; [apply D, R2|apply H, R3].
  - intros label l es _ H R. apply regs_one in R. apply labelled in R. parts R. split; [exact Logic.I|]. split; [exact Logic.I|]. split; [exact Logic.I|apply H, R0].
  - intros name k label l is_ b es e I _ [_ H] M B LO OL R. apply regs_cons in R. destruct R as [R _]. apply reg_node in R. destruct R as [R0 R]. apply labelled in R. apply regs_app in R. destruct R as [R1 R2]. apply regs_one in R2.
    assert (CL : closed (l ++ [SNode "block" b]) = true).
    { unfold regular in R0. rewrite !andb_true_iff in R0. destruct R0 as ((_ & CL) & _). rewrite closed_tail in CL.
      simpl in I. repeat (destruct I as [I|I]; [injection I as <- <-; exact CL|]). destruct I. }
    apply (loops_b _ _ _ _ _ LO); [exact (H b R1 CL)|exact (B R2)|]. intros K. destruct (one_link_b _ _ (OL K) M) as [l' ->]. exact Logic.I.
  - intros name k label x b l it es I _ B M H OL R. apply regs_one in R. apply labelled in R. apply regs_cons in R. destruct R as [_ R]. parts R. split; [apply B, R0|]. split; [apply H, R1|].
    split; [intros ->; simpl in I; intuition discriminate|]. split; [intros ->; simpl in I; intuition discriminate|]. intros K. destruct (one_link_b _ _ (OL K) M) as [l' ->]. exact Logic.I.
  - intros b l r r' c t cs bs eb _ B _ H _ HR _ HE R. apply regs_one in R. apply regs_part in R. destruct R as [R1 R]. apply regs_part in R. destruct R as [R2 R]. apply regs_app in R. destruct R as [R3 R4].
    destruct (HR R3) as [C1 C2]. split; [apply B, R1|]. split; [apply H, R2|]. split; [exact C1|]. split; [exact C2|apply HE, R4].
  - intros label R. exact Logic.I.
  - intros label R. exact Logic.I.
  - intros b o op c l r _ _ B _ C R. apply regs_one in R. apply regs_part in R. destruct R as [R1 R]. apply regs_cons in R. destruct R as [_ R]. apply regs_part in R. destruct R as [R2 _].
    split; [apply B, R1|apply C, R2].
  - intros b e _ B R. apply regs_one in R. exact (B R).
  - intros R. exact Logic.I.
  - intros name l e es r _ _ H A R. apply regs_one in R. destruct (H R). eapply applied_b; eauto.
  - intros b e _ B R. apply regs_one, regs_one in R. split; [exact (B R)|exact Logic.I].
  - intros b e _ B R. apply regs_one, regs_one in R. split; [exact (B R)|exact Logic.I].
  - intros l x es _ H R. apply regs_one in R. apply fill_b; [exact (H R)|]. split; [exact Logic.I|]. split; [exact Logic.I|]. split; [exact Logic.I|]. split; exact Logic.I.
  - intros l x es _ H R. apply regs_one in R. apply fill_b; [exact (H R)|]. split; [exact Logic.I|]. split; [exact Logic.I|]. split; [exact Logic.I|]. split; exact Logic.I.
  - intros len n x b e I _ B R. exfalso. apply regs_cons in R. destruct R as [R _]. apply reg_node in R. destruct R as [R _]. unfold regular in R. rewrite !andb_true_iff in R. destruct R as [_ R]. discriminate R.
  - intros level b e v _ B _ R. exact Logic.I.
  - intros level b e _ B _ R. exact Logic.I.
  - intros b e _ B R. apply regs_one, regs_one in R. exact (B R).
  - intros x R. exact Logic.I.
  - intros x R. exact Logic.I.
  - intros v R. exact Logic.I.
  - intros x c _ R. exact Logic.I.
  - intros it i _ H R. apply regs_cons in R. destruct R as [R _]. exact (H R).
  - intros c f args _ H R. apply regs_cons in R. destruct R as [R _]. exact (H R).
  - intros c f args _ H R. apply regs_one in R. apply regs_cons in R. destruct R as [R _]. exact (H R).
  - intros it i l ms es _ H _ A R. apply regs_one in R. apply regs_cons in R. destruct R as [R1 R2]. split; [exact (H R1)|exact (A R2)].
  - intros it i l ws ms es _ H _ A _ _ R. apply regs_one in R. apply regs_cons in R. destruct R as [R1 R2]. split; [apply words_b; exact (H R1)|exact (A R2)].
  - intros n R. exact Logic.I.
  - intros n b e l es _ B _ H R. apply regs_part in R. destruct R as [R1 R2]. split; [exact (B R1)|exact (H R2)].
  - intros R. exact Logic.I.
  - intros k b e l kvs _ B _ H R. apply regs_part in R. destruct R as [R1 R2]. apply regs_cons in R1. destruct R1 as [_ R1]. apply regs_one in R1. split; [exact (B R1)|exact (H R2)].
  - intros it i _ H R. apply regs_cons in R. destruct R as [_ R]. apply regs_cons in R. destruct R as [R _]. exact (H R).
  - intros l inds b e S_ _ B R. apply regs_one in R. apply regs_app in R. destruct R as [_ R]. apply regs_one in R. split; [exact (B R)|eapply swizzled_lt; eauto].
  - intros b e _ B. exact B.
  - intros R. exact Logic.I.
  - intros b m e l ms es _ A _ H R. apply regs_part in R. destruct R as [R1 R2]. split; [exact (A R1)|exact (H R2)].
  - intros R. exact Logic.I.
  - intros w b m e l ws ms es _ A _ H R. apply regs_cons in R. destruct R as [_ R]. apply regs_part in R. destruct R as [R1 R2]. split; [exact (A R1)|exact (H R2)].
  - intros R. exact Logic.I.
  - intros n b m e ns l es _ A _ H R. apply regs_part in R. destruct R as [R1 R2]. split; [exact (A R1)|exact (H R2)].
  - intros n ns l es _ H R. split; [exact Logic.I|exact (H R)].
  - intros a x l ms es _ H R. apply reg_node in R. destruct R as [_ R]. apply regs_app in R. destruct R as [_ R]. apply regs_cons in R. exact (H (proj2 R)).
  - intros a x l ws ms es _ _ H R. apply reg_node in R. destruct R as [_ R]. apply regs_app in R. destruct R as [_ R]. apply regs_cons in R. exact (H (proj2 R)).
  - intros c x q R. exact Logic.I.
  - intros c x q l ids tries _ _ H R. apply reg_node in R. destruct R as [_ R]. apply flagged in R. apply regs_cons in R. destruct R as [_ R]. apply flagged in R. apply regs_one in R. exact (H R).
  - intros k R. exact Logic.I.
  - intros k x q l ids tries _ H R. apply regs_cons in R. destruct R as [_ R]. apply flagged in R. split; [exact Logic.I|exact (H R)].
  - intros k x q l ids tries _ H R. apply regs_cons in R. destruct R as [_ R]. apply flagged in R. split; [exact Logic.I|exact (H R)].
  - intros k b e q l ids tries _ B _ H R. apply regs_part in R. destruct R as [R1 R]. apply flagged in R. split; [exact (B R1)|exact (H R)].
  - intros b e _ B R. apply reg_node in R. destruct R as [_ R]. apply regs_one in R. split; [exact (B R)|exact Logic.I].
  - intros l e es r _ H A R. apply reg_node in R. destruct R as [_ R]. destruct (H R). eapply applied_b; eauto.
  - intros b e _ B R. apply reg_node in R. exact (B (proj2 R)).
  - intros t e l es _ H _ H' R. apply regs_cons in R. destruct R as [R1 R2]. split; [exact (H R1)|exact (H' R2)].
  - intros R. exact Logic.I.
  - intros s o t e l es _ _ H _ H' R. apply regs_cons in R. destruct R as [_ R]. apply regs_cons in R. destruct R as [R1 R2]. split; [exact (H R1)|exact (H' R2)].
  - split; [now left|]. intros l R C. exact Logic.I.
  - intros x b c s e l is_ _ B _ C _ [_ H]. split; [right; eauto|]. intros l' R CL. apply regs_cons in R. destruct R as [_ R]. apply regs_part in R. destruct R as [R1 R]. apply regs_part in R. destruct R as [R2 R].
    split; [split; [exact (B R1)|exact (C R2)]|exact (H l' R CL)].
  - intros x c e l is_ _ C _ [_ H]. split; [right; eauto|]. intros l' R CL. apply regs_cons in R. destruct R as [_ R]. apply regs_part in R. destruct R as [R2 R].
    split; [split; [exact Logic.I|exact (C R2)]|exact (H l' R CL)].
  - intros x l is_ _ [N H]. split; [right; eauto|]. intros l' R CL. exfalso. destruct N as [->|(y & l2 & ->)]; discriminate CL.
  - intros R. split; exact Logic.I.
  - intros b c l es r cs bs _ B _ H _ H' R. apply regs_part in R. destruct R as [R1 R]. apply regs_part in R. destruct R as [R2 R]. destruct (H' R) as [X Y].
    split; [split; [exact (B R1)|exact X]|split; [exact (H R2)|exact Y]].
  - intros R. exact Logic.I.
  - intros l es _ H R. apply regs_one in R. exact (H R).
  - exact Logic.I.
  - intros. exact Logic.I.
  - exact Logic.I.
  - intros. exact Logic.I.
  - intros. exact Logic.I.
  - intros. exact Logic.I.
  - intros. exact Logic.I.
Qed.

Lemma function_built : forall s fn, function_means in_of alloc s fn -> nodes_all regular s = true -> all_ok built (h_block fn).
Proof.
  destruct grammar_built as (GE & GA & _).
  intros s fn H R. destruct H as [x args currents T t l tys xs lz lz' cs es HA HC TP HL SG _|x args currents l tys xs lz lz' cs es HA HC HL SG _|x args currents b xs lz lz' cs e HA HC HB _];
    apply reg_node in R; destruct R as [_ R]; apply regs_cons in R; destruct R as [_ R]; apply regs_app in R; destruct R as [_ R]; apply regs_app in R; destruct R as [_ R].
  - apply regs_cons in R. destruct R as [_ R]. apply regs_app in R. destruct R as [_ R]. apply regs_part in R. exact (GA _ _ _ HL (proj1 R)).
  - apply regs_cons in R. destruct R as [_ R]. apply regs_part in R. exact (GA _ _ _ HL (proj1 R)).
  - apply regs_one in R. split; [exact (GE _ _ HB R)|exact Logic.I].
Qed.
Theorem file_built : forall F f, file_means in_of alloc F f -> regs F = true -> forall fn, In fn (d_fns f) -> all_ok built (h_block fn).
Proof.
  intros F f [N U ns us l us' fs _ _ _ M] R fn I. apply regs_app in R. destruct R as [_ R]. apply regs_app in R. destruct R as [_ R]. cbn [d_fns] in I.
  induction M as [|s fn' l fs H _ IH]; [destruct I|]. apply regs_cons in R. destruct R as [R1 R2]. destruct I as [<-|I]; [eapply function_built; eauto|auto].
Qed.
End Built.
