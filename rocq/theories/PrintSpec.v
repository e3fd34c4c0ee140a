(** * Grouping of operators, and which trees can be printed. *)
From Coq Require Import List Arith Bool.
From Verif Require Import PrintModel.
Import ListNotations.
Local Open Scope list_scope.

(** How tight the outermost construct binds. *)
Definition tightness (e : tree) : nat :=
  match e with Leaf _ => 4 | Bin o _ _ => precedence o | Neg _ => 4 | Not _ => 4 end.
(** Operators above comparison, tighter ones further in, and the same level grouped to the left.
    Powers are not chained. *)
Fixpoint grouped (e : tree) : Prop :=
  match e with
  | Leaf _ => True
  | Bin o l r => grouped l /\ grouped r /\ 1 <= precedence o /\ precedence o <= tightness l /\ precedence o < tightness r /\
                 (o = Pow -> tightness l = 4)
  | _ => False
  end.
(** The text of the tree without parentheses. *)
Fixpoint flat (e : tree) : list token :=
  match e with
  | Leaf x => [TLeaf x]
  | Bin o l r => flat l ++ TOp o :: flat r
  | Neg e => TOp Sub :: flat e
  | Not e => TNot :: flat e
  end.
(** Operands with operators between them. *)
Fixpoint sequence (x : nat) (l : list (binop * nat)) : list token :=
  match l with
  | [] => [TLeaf x]
  | (o, y) :: l => TLeaf x :: TOp o :: sequence y l
  end.
(** No comparison and no two powers in a row. *)
Fixpoint proper (l : list (binop * nat)) : Prop :=
  match l with
  | [] => True
  | (o, _) :: r => 1 <= precedence o /\ (match r with (p, _) :: _ => ~ (o = Pow /\ p = Pow) | [] => True end) /\ proper r
  end.

(** ** Trees whose print is read back

    An operand that is not printed in parentheses and is no operator. *)
Definition is_bin (e : tree) : bool := match e with Bin _ _ _ => true | _ => false end.
Definition is_atom (e : tree) : bool := match e with Leaf _ | Not _ => true | _ => false end.
(** The print ends with a negation, which would take in a following factor. *)
Fixpoint open (e : tree) : bool :=
  match e with Neg _ => true | Bin o _ r => Nat.eqb (precedence o) 2 && negb (needs_parens o r true) && open r | _ => false end.
Fixpoint readable (e : tree) : bool :=
  match e with
  | Leaf _ => true
  | Not e => is_atom e && readable e
  | Neg e => readable e && (is_atom e || match e with Neg _ => true | _ => false end || Nat.leb 2 (tightness e))
  | Bin o l r =>
      readable l && readable r &&
      match precedence o with
      | 0 => is_atom l
      | 1 => true
      | 2 => needs_parens o l false || negb (open l)
      | _ => (is_bin l || is_atom l) && (is_bin r || is_atom r)
      end
  end.
