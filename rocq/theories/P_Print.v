(** * C39 and C40: operators are grouped by precedence and to the left, and printing keeps this. *)
From Coq Require Import List Arith Bool Lia.
From Verif Require Import PrintModel PrintSpec PrintProofs PrintExactProofs.
Import ListNotations.
Local Open Scope list_scope.

(** ** C39 *)
(** Partial: trees that are not [readable] are left out. These are printed as text that is no
    expression, or is another one: see the refutations, one for each case of [readable]. *)
Theorem C39_print_partial : forall e, readable e = true -> parse (print e) = Some e.
Proof. exact parse_print. Qed.
Print Assumptions C39_print_partial.
(** Exactly these: any other tree is printed as text that is no expression, or is another one. *)
Theorem C39_exact : forall e, parse (print e) = Some e <-> readable e = true.
Proof. intros e. split; [apply print_readable|apply parse_print]. Qed.
Print Assumptions C39_exact.
(** a * (b - c) * -d * e: the negation takes in the last factor. *)
Example C39_exact_example :
  let e := Bin Mul (Bin Mul (Bin Mul (Leaf 0) (Bin Sub (Leaf 1) (Leaf 2))) (Neg (Leaf 3))) (Leaf 4) in
  readable e = false /\ exists e', parse (print e) = Some e' /\ e' <> e.
Proof. split; [reflexivity|]. eexists. split; [vm_compute; reflexivity|]. discriminate. Qed.
(** Different trees are never printed the same. *)
Theorem C39_distinct : forall e e', readable e = true -> readable e' = true -> print e = print e' -> e = e'.
Proof. intros e e' R R' H. apply parse_print in R. apply parse_print in R'. congruence. Qed.
Print Assumptions C39_distinct.
(** In particular everything made of `+ - * / % && || .` and the like, and of `!` before an operand, is kept. *)
Fixpoint arithmetic (e : tree) : Prop :=
  match e with
  | Leaf _ => True
  | Bin o l r => 1 <= precedence o /\ arithmetic l /\ arithmetic r
  | Neg _ => False
  | Not e => is_atom e = true /\ arithmetic e
  end.
Theorem C39_arithmetic : forall e, arithmetic e -> parse (print e) = Some e.
Proof.
  assert (O : forall e, arithmetic e -> open e = false).
  { induction e as [x|o l IHl r IHr|e IH|e IH]; cbn [arithmetic open]; intros H; auto; [|destruct H].
    destruct H as (_ & _ & H). rewrite (IHr H). apply andb_false_r. }
  intros e H. apply parse_print. induction e as [x|o l IHl r IHr|e IH|e IH]; cbn [arithmetic readable] in *; auto.
  - destruct H as (P & L & R). rewrite IHl, IHr by auto. cbn [andb]. destruct (precedence o) as [|[|[|]]]; try lia; auto.
    + rewrite (O l L). apply orb_true_r.
    + assert (forall x, arithmetic x -> is_bin x || is_atom x = true) as A by (intros [] Hx; auto; destruct Hx). rewrite !A by auto. reflexivity.
  - destruct H as [A B]. rewrite A, (IH B). reflexivity.
Qed.
Print Assumptions C39_arithmetic.

(** (a - (b - c)) * !d ^ (e / f) < -g * h *)
Definition big : tree :=
  Bin Less (Leaf 0) (Bin Equal (Not (Leaf 9)) (Bin Sub (Bin Mul (Bin Sub (Leaf 1) (Bin Sub (Leaf 2) (Leaf 3))) (Bin Pow (Not (Leaf 4)) (Bin Div (Leaf 5) (Leaf 6))))
    (Neg (Bin Mul (Leaf 7) (Neg (Leaf 8)))))).
Example C39_example : readable big = true /\ parse (print big) = Some big /\ In TOpen (print big).
Proof. split; [reflexivity|]. split; [vm_compute; reflexivity|]. vm_compute. intuition. Qed.
Example C39_arithmetic_example :
  arithmetic (Bin AndAlso (Bin OrElse (Leaf 0) (Not (Leaf 1))) (Bin Pow (Leaf 2) (Bin Pow (Leaf 3) (Leaf 4)))).
Proof. simpl. repeat split; lia. Qed.

(** `(a + b) == c` is printed as `a + b == c`, which is no expression. *)
Theorem C39_compare_refuted : parse (print (Bin Equal (Bin Add (Leaf 0) (Leaf 1)) (Leaf 2))) = None.
Proof. reflexivity. Qed.
(** `(a < b) < c` is printed as `a < b < c`, which is `a < (b < c)`. *)
Theorem C39_compare_left_refuted : parse (print (Bin Less (Bin Less (Leaf 0) (Leaf 1)) (Leaf 2))) =
  Some (Bin Less (Leaf 0) (Bin Less (Leaf 1) (Leaf 2))).
Proof. reflexivity. Qed.
(** `-(a + b)` is printed as `-a + b`, and `(-a) * b` as `-a * b`, which is `-(a * b)`. *)
Theorem C39_neg_refuted :
  parse (print (Neg (Bin Add (Leaf 0) (Leaf 1)))) = Some (Bin Add (Neg (Leaf 0)) (Leaf 1)) /\
  parse (print (Bin Mul (Neg (Leaf 0)) (Leaf 1))) = Some (Neg (Bin Mul (Leaf 0) (Leaf 1))) /\
  parse (print (Bin Mul (Bin Mul (Leaf 0) (Neg (Leaf 1))) (Leaf 2))) = Some (Bin Mul (Leaf 0) (Neg (Bin Mul (Leaf 1) (Leaf 2)))) /\
  parse (print (Neg (Bin Less (Leaf 0) (Leaf 1)))) = None /\
  parse (print (Bin Less (Neg (Leaf 0)) (Leaf 1))) = None.
Proof. repeat split. Qed.
(** `(-a) ^ b` is printed as `-a ^ b`, which is `-(a ^ b)`; `a ^ (-b)` is printed without parentheses too. *)
Theorem C39_pow_refuted :
  parse (print (Bin Pow (Neg (Leaf 0)) (Leaf 1))) = Some (Neg (Bin Pow (Leaf 0) (Leaf 1))) /\
  parse (print (Bin Pow (Leaf 0) (Neg (Leaf 1)))) = None.
Proof. repeat split. Qed.
(** `!(a == b)` is printed as `!a == b`; `!(-a)` as `!-a`. *)
Theorem C39_not_refuted :
  parse (print (Not (Bin Equal (Leaf 0) (Leaf 1)))) = Some (Bin Equal (Not (Leaf 0)) (Leaf 1)) /\
  parse (print (Not (Neg (Leaf 0)))) = None.
Proof. repeat split. Qed.

(** ** C40 *)
(** The operators of one sequence, as collected by the parser, are grouped to the left. *)
Theorem C40_left : forall x rest,
  into_expression (rev (x :: map snd rest)) (rev (map fst rest)) =
  Some (fold_left (fun acc ox => Bin (fst ox) acc (snd ox)) rest x).
Proof.
  intros x rest. induction rest as [|[o y] rest IH] using rev_ind; [reflexivity|].
  rewrite fold_left_app, !map_app, app_comm_cons, !rev_app_distr. cbn [map rev app fold_left fst snd]. apply into_more. exact IH.
Qed.
Print Assumptions C40_left.

Lemma grouped_readable : forall e, grouped e -> readable e = true /\ open e = false /\ print e = flat e.
Proof.
  induction e as [x|o l IHl r IHr|e IH|e IH]; cbn [grouped]; try (intros []; fail); [repeat split|].
  intros (Gl & Gr & P & Tl & Tr & Pw). destruct (IHl Gl) as (Rl & Ol & Fl). destruct (IHr Gr) as (Rr & Or & Fr).
  assert (NPl : needs_parens o l false = false).
  { destruct l as [|q l1 l2| |]; auto. unfold needs_parens. cbn [tightness] in *. pose proof (prec_le q).
    destruct (Nat.eq_dec (precedence o) 3) as [E|E]; [pose proof (pow_prec _ E) as ->; specialize (Pw eq_refl); lia|].
    pose proof (prec_le o). destruct (precedence o) as [|[|[|[|]]]], (precedence q) as [|[|[|]]]; auto; lia. }
  assert (NPr : needs_parens o r true = false).
  { destruct r as [|q r1 r2| |]; auto. unfold needs_parens. cbn [tightness] in *. pose proof (prec_le q).
    destruct (precedence o) as [|[|[|[|]]]] eqn:E, (precedence q) as [|[|[|]]] eqn:F; auto; lia. }
  repeat split.
  - cbn [readable]. rewrite Rl, Rr. cbn [andb]. destruct (precedence o) as [|[|[|]]] eqn:E; try lia; auto.
    + rewrite Ol. apply orb_true_r.
    + assert (forall e, grouped e -> is_bin e || is_atom e = true) as A by (intros [] Hx; auto; destruct Hx). rewrite !A by auto. reflexivity.
  - cbn [open]. rewrite Or. apply andb_false_r.
  - cbn [print flat]. rewrite NPl, NPr, Fl, Fr. reflexivity.
Qed.
(** A tree that is grouped is what its text means. *)
Theorem C40_flat : forall e, grouped e -> parse (flat e) = Some e.
Proof. intros e G. destruct (grouped_readable e G) as (R & _ & F). rewrite <- F. apply parse_print. exact R. Qed.
Print Assumptions C40_flat.

(** One more operator at the end *)
Fixpoint snoc (e : tree) (o : binop) (y : nat) : tree :=
  match e with
  | Bin p l r => if Nat.leb (precedence o) (precedence p) then Bin o e (Leaf y) else Bin p l (snoc r o y)
  | _ => Bin o e (Leaf y)
  end.
Fixpoint last_op (e : tree) : option binop :=
  match e with Bin p _ r => match last_op r with Some q => Some q | None => Some p end | _ => None end.
Lemma snoc_flat : forall e o y, grouped e -> flat (snoc e o y) = flat e ++ [TOp o; TLeaf y].
Proof.
  induction e as [x|p l IHl r IHr|e IH|e IH]; intros o y G; try destruct G; [reflexivity|]. cbn [snoc].
  destruct (Nat.leb _ _); [reflexivity|]. cbn [flat]. rewrite IHr by tauto. rewrite <- app_assoc. reflexivity.
Qed.
Lemma snoc_last : forall e o y, grouped e -> last_op (snoc e o y) = Some o.
Proof.
  induction e as [x|p l IHl r IHr|e IH|e IH]; intros o y G; try destruct G; [reflexivity|]. cbn [snoc].
  destruct (Nat.leb _ _); [reflexivity|]. cbn [last_op]. rewrite IHr by tauto. reflexivity.
Qed.
Lemma snoc_grouped : forall e o y, grouped e -> 1 <= precedence o -> ~ (o = Pow /\ last_op e = Some Pow) ->
  grouped (snoc e o y) /\ (forall p, p < precedence o -> p < tightness e -> p < tightness (snoc e o y)).
Proof.
  induction e as [x|p l IHl r IHr|e IH|e IH]; intros o y G P N; try (destruct G; fail).
  - split; [|cbn [snoc tightness]; intros; lia]. cbn [snoc grouped tightness]. pose proof (prec_le o). repeat split; lia.
  - destruct G as (Gl & Gr & Pp & Tl & Tr & Pw). cbn [snoc]. destruct (Nat.leb_spec (precedence o) (precedence p)) as [L|L].
    + split; [|cbn [tightness]; intros; lia]. pose proof (prec_le p). cbn [grouped]. repeat split; auto; try (cbn [tightness]; lia).
      intros ->. exfalso. cbn [precedence] in L. assert (p = Pow) as -> by (apply pow_prec; lia). apply N. split; [reflexivity|].
      cbn [last_op]. destruct r as [|q r1 r2| |]; try reflexivity. cbn [tightness] in Tr. pose proof (prec_le q). cbn [precedence] in Tr. lia.
    + destruct (IHr o y Gr P) as [G' T'].
      { intros [-> H]. apply N. split; auto. cbn [last_op]. rewrite H. reflexivity. }
      split; [|cbn [tightness]; intros; lia]. cbn [grouped]. repeat split; auto.
Qed.
Lemma sequence_snoc : forall l x o y, sequence x (l ++ [(o, y)]) = sequence x l ++ [TOp o; TLeaf y].
Proof. induction l as [|[p z] l IH]; intros x o y; [reflexivity|]. cbn [app sequence]. rewrite IH. reflexivity. Qed.
Lemma proper_snoc : forall l o y, proper (l ++ [(o, y)]) -> proper l /\ 1 <= precedence o /\
  (forall p, option_map fst (last (map Some l) None) = Some p -> ~ (p = Pow /\ o = Pow)).
Proof.
  induction l as [|[p z] l IH]; intros o y H.
  - cbn in H. repeat split; try tauto. intros p Hp. discriminate.
  - cbn [app proper] in H. destruct H as (A & B & C). destruct (IH o y C) as (D & E & F). split; [|split; auto].
    + cbn [proper]. repeat split; auto. destruct l as [|[q w] l]; auto.
    + intros q Hq. destruct l as [|[q' w] l].
      * cbn in Hq. injection Hq as <-. exact B.
      * apply F. exact Hq.
Qed.
Lemma tree_of : forall l x, proper l -> exists e, grouped e /\ flat e = sequence x l /\ last_op e = option_map fst (last (map Some l) None).
Proof.
  induction l as [|[o y] l IH] using rev_ind; intros x H.
  - exists (Leaf x). repeat split.
  - apply proper_snoc in H. destruct H as (A & B & C). destruct (IH x A) as (e & G & F & L). exists (snoc e o y). split; [|split].
    + apply snoc_grouped; auto. intros [-> Q]. apply (C Pow); auto. rewrite <- L. exact Q.
    + rewrite snoc_flat, sequence_snoc, F by auto. reflexivity.
    + rewrite snoc_last by auto. rewrite map_app. cbn [map]. rewrite last_last. reflexivity.
Qed.
(** A sequence of operands and operators is read as the one tree of that sequence that has tighter
    operators further in, and the same level to the left. Partial: comparisons and powers, which cannot
    be chained, are left out (see the refutation). *)
Theorem C40_group_partial : forall x l, proper l -> exists e,
  parse (sequence x l) = Some e /\ grouped e /\ flat e = sequence x l /\
  forall e', grouped e' -> flat e' = sequence x l -> e' = e.
Proof.
  intros x l H. destruct (tree_of l x H) as (e & G & F & _). exists e. rewrite <- F. pose proof (C40_flat e G) as P. repeat split; auto.
  intros e' G' F'. pose proof (C40_flat e' G') as P'. rewrite F' in P'. congruence.
Qed.
Print Assumptions C40_group_partial.
(** Operators of one level: from left to right. *)
Theorem C40_level : forall k x l, k = 1 \/ k = 2 -> (forall o y, In (o, y) l -> precedence o = k) ->
  parse (sequence x l) = Some (fold_left (fun acc oy => Bin (fst oy) acc (Leaf (snd oy))) l (Leaf x)).
Proof.
  intros k x l Hk H.
  assert (grouped (fold_left (fun acc oy => Bin (fst oy) acc (Leaf (snd oy))) l (Leaf x)) /\
          flat (fold_left (fun acc oy => Bin (fst oy) acc (Leaf (snd oy))) l (Leaf x)) = sequence x l /\
          k <= tightness (fold_left (fun acc oy => Bin (fst oy) acc (Leaf (snd oy))) l (Leaf x))) as (G & F & _).
  { induction l as [|[o y] l IH] using rev_ind; [cbn; repeat split; lia|].
    destruct IH as (G & F & T); [intros; apply (H o0 y0), in_or_app; auto|].
    assert (precedence o = k) as P by (apply (H o y), in_or_app; right; left; reflexivity).
    rewrite fold_left_app. cbn [fold_left fst snd]. split; [|split].
    - cbn [grouped]. repeat split; auto; try (cbn [tightness]; lia). intros ->. cbn in P. lia.
    - cbn [flat]. rewrite F, sequence_snoc. reflexivity.
    - cbn [tightness]. lia. }
  rewrite <- F. apply C40_flat. exact G.
Qed.
Print Assumptions C40_level.

(** a - b * c ^ d / e - f *)
Example C40_example : proper [(Sub, 1); (Mul, 2); (Pow, 3); (Div, 4); (Sub, 5)] /\
  parse (sequence 0 [(Sub, 1); (Mul, 2); (Pow, 3); (Div, 4); (Sub, 5)]) =
  Some (Bin Sub (Bin Sub (Leaf 0) (Bin Div (Bin Mul (Leaf 1) (Bin Pow (Leaf 2) (Leaf 3))) (Leaf 4))) (Leaf 5)).
Proof. split; [|reflexivity]. simpl. repeat split; try lia; intros []; discriminate. Qed.
Example C40_level_example : forall o y, In (o, y) [(Add, 1); (Sub, 2); (OrElse, 3)] -> precedence o = 1.
Proof. intros o y [H|[H|[H|[]]]]; injection H as <- _; reflexivity. Qed.
(** Comparisons are grouped to the right, and bind tighter than what is left of them; powers are not
    read in a row. *)
Theorem C40_compare_refuted :
  parse (sequence 0 [(Less, 1); (Less, 2)]) = Some (Bin Less (Leaf 0) (Bin Less (Leaf 1) (Leaf 2))) /\
  parse (sequence 0 [(Less, 1); (Add, 2)]) = Some (Bin Less (Leaf 0) (Bin Add (Leaf 1) (Leaf 2))) /\
  parse (sequence 0 [(Add, 1); (Less, 2)]) = None /\
  parse (sequence 0 [(Pow, 1); (Pow, 2)]) = None.
Proof. repeat split. Qed.
