(** * Operators: grammar, construction of the tree, and printing.

    Model of the rules for operators in assets/syntax.txt, of [BinOpSeq::into_expression]
    (src/ast/mod.rs 2157-2175) with [BinOp] (2178-2269), and of the printing of operators in
    src/write.rs 419-500, 569-595, 773-800.

    Texts are lists of tokens, without white space. Everything else that can be an operand, like
    variables, numbers and calls, is a [Leaf]: one token. Left out: vector norms, whose bars are
    not told apart from `||` by tokens alone, the `?` operator, and assignment. The other spellings
    (`and`, `or`, `xor`) are the same token. *)
From Coq Require Import List Arith Bool.
Import ListNotations.
Local Open Scope list_scope.

(** ast/mod.rs 2178-2213 *)
Inductive binop := Add | Sub | Mul | Dot | Cross | Div | Rem | Pow | OrElse | AndAlso
  | Less | LessOrEqual | Greater | GreaterOrEqual | Equal | NotEqual.
(** ast/mod.rs 2215-2218, 2253-2268 *)
Definition precedence (o : binop) : nat :=
  match o with
  | Less | LessOrEqual | Greater | GreaterOrEqual | Equal | NotEqual => 0
  | OrElse | Add | Sub => 1
  | AndAlso | Mul | Dot | Cross | Div | Rem => 2
  | Pow => 3
  end.
Definition level (k : nat) (o : binop) : bool := Nat.eqb (precedence o) k.

(** Calls of `add`, `neg`, `not` and so on (ast/mod.rs 3193-3285), and all else. *)
Inductive tree := Leaf (x : nat) | Bin (o : binop) (l r : tree) | Neg (e : tree) | Not (e : tree).

(** The minus sign is [TOp Sub] in both its uses. *)
Inductive token := TLeaf (x : nat) | TOp (o : binop) | TNot | TOpen | TClose.

(** ** Printing *)
(** write.rs 419-451 *)
Definition needs_parens (o : binop) (e : tree) (right : bool) : bool :=
  match e with
  | Bin b _ _ =>
      match precedence o, precedence b with
      | 3, _ => true
      | 2, 1 | 2, 0 => true
      | 2, 2 => right
      | 1, 1 => right
      | 1, 0 => true
      | _, _ => false
      end
  | _ => false
  end.
Definition paren (b : bool) (ts : list token) : list token := if b then TOpen :: ts ++ [TClose] else ts.
(** write.rs 453-500, 569-585 *)
Fixpoint print (e : tree) : list token :=
  match e with
  | Leaf x => [TLeaf x]
  | Bin o l r => paren (needs_parens o l false) (print l) ++ TOp o :: paren (needs_parens o r true) (print r)
  | Neg e => TOp Sub :: print e
  | Not e => TNot :: print e
  end.

(** ** Parsing *)
Definition result := option (tree * list token).
(** ast/mod.rs 2157-2175, with the items and operators in reverse order; [None] is the panic of
    `expect`. *)
Fixpoint into_expression (items : list tree) (ops : list binop) : option tree :=
  match items with
  | [] => None
  | [x] => Some x
  | last :: items =>
      match ops with
      | [] => None
      | o :: ops => match into_expression items ops with Some l => Some (Bin o l last) | None => None end
      end
  end.
(** `.s!(sep item)` of piston_meta: at least one item, and one after each separator; the items and
    separators so far are in reverse order. *)
Fixpoint separated (item : list token -> result) (k n : nat) (items : list tree) (ops : list binop) (ts : list token) : result :=
  match n with
  | O => None
  | S n =>
      match item ts with
      | None => None
      | Some (e, r) =>
          match r with
          | TOp o :: r' =>
              if level k o then separated item k n (e :: items) (o :: ops) r'
              else match into_expression (e :: items) ops with Some e => Some (e, r) | None => None end
          | _ => match into_expression (e :: items) ops with Some e => Some (e, r) | None => None end
          end
      end
  end.
(** syntax.txt 15 `lexpr`, 66 `items`, 28 `unop_not`; [ex] is `expr` *)
Fixpoint lexpr (ex : list token -> result) (ts : list token) : result :=
  match ts with
  | TLeaf x :: r => Some (Leaf x, r)
  | TOpen :: r => match ex r with Some (e, TClose :: r) => Some (e, r) | _ => None end
  | TNot :: r => match lexpr ex r with Some (e, r) => Some (Not e, r) | None => None end
  | _ => None
  end.
(** syntax.txt 29 `unop_neg`, 205 `pow`, and the alternatives of 206; [m] is `mul_expr` *)
Definition factor (ex m : list token -> result) (ts : list token) : result :=
  match ts with
  | TOp Sub :: r => match m r with Some (e, r) => Some (Neg e, r) | None => None end
  | _ =>
      match lexpr ex ts with
      | Some (a, TOp Pow :: r) =>
          match lexpr ex r with Some (b, r) => Some (Bin Pow a b, r) | None => Some (a, TOp Pow :: r) end
      | o => o
      end
  end.
(** syntax.txt 206 `mul`, 207 `mul_expr` *)
Fixpoint mul (ex : list token -> result) (n : nat) (ts : list token) : result :=
  match n with
  | O => None
  | S n => separated (factor ex (mul ex n)) 2 (S (length ts)) [] [] ts
  end.
(** syntax.txt 208 `add` *)
Definition add (ex : list token -> result) (n : nat) (ts : list token) : result :=
  separated (mul ex n) 1 (S (length ts)) [] [] ts.
(** syntax.txt 13 `expr` and 50 `compare` *)
Fixpoint expr (n : nat) (ts : list token) : result :=
  match n with
  | O => None
  | S n =>
      match lexpr (expr n) ts with
      | Some (a, TOp o :: r) =>
          if level 0 o then
            match expr n r with
            | Some (b, r) => match into_expression [b; a] [o] with Some e => Some (e, r) | None => None end
            | None => add (expr n) (S n) ts
            end
          else add (expr n) (S n) ts
      | _ => add (expr n) (S n) ts
      end
  end.
(** The whole text must be one expression. *)
Definition parse (ts : list token) : option tree :=
  match expr (S (length ts)) ts with Some (e, []) => Some e | _ => None end.
