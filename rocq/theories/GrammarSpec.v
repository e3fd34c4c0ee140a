(** * What the checkers ask of a text beyond the grammar.

    The passes before the type checker need something of a file that the grammar (AstSpec.v) does not promise. These are
    conditions on the text; the conditions on graphs and trees that NodesSpec.v and LivesSpec.v have follow from them. *)
From Coq Require Import String List Bool Arith ZArith.
From Verif Require Import PrintModel Float64 TypeModel LifetimeModel NodesModel NodesSpec.
Import ListNotations.
Local Open Scope string_scope.
Local Open Scope nat_scope.
Local Open Scope list_scope.

(** every node satisfies [Q] *)
Fixpoint nodes_all (Q : string -> list stx -> bool) (t : stx) : bool :=
  match t with SNode n b => Q n b && forallb (nodes_all Q) b | _ => true end.
Definition is_node (t : stx) : bool := match t with SNode _ _ => true | _ => false end.
Definition is_flag (n : string) (t : stx) : bool := match t with SValue (MBool m _) => (m =? n)%string | _ => false end.
Definition is_string (n : string) (t : stx) : bool := match t with SValue (MString m _) => (m =? n)%string | _ => false end.
Definition named (n : string) (t : stx) : bool := match t with SNode m _ => (m =? n)%string | _ => false end.
Definition body_of (t : stx) : list stx := match t with SNode _ b => b | _ => [] end.
Definition has_mut (t : stx) : bool := existsb (is_flag "mut") (body_of t).
(** the body is [return] without a value *)
Definition is_void (t : stx) : bool := existsb (is_flag "return_void") (body_of t).

(** For the linking passes: there is more than a constant on the left of an assignment, no [mut] in the call of a closure without
    words, no [return] without a value as an operand of [!], [-] or a norm, and the level of a grab is not below 1. *)
Definition linkable (n : string) (b : list stx) : bool :=
  if (n =? "assign")%string then match b with t :: _ => existsb is_node (body_of t) | [] => false end
  else if (n =? "call_closure")%string then forallb (fun t => negb (has_mut t)) b
  else if existsb (String.eqb n) ["not"; "neg"; "norm"] then forallb (fun t => negb (is_void t)) b
  else if (n =? "grab")%string then forallb (fun t => match t with SValue (MF64 _ v) => negb (flt v f1) | _ => true end) b
  else true.
(** For the lifetime checks also: something that can be traced after [return], calls without an alias, a swizzle or [return] as an
    argument, and no lifetimes in closures. *)
Definition traceable (n : string) (b : list stx) : bool :=
  if (n =? "return")%string then existsb is_node b || existsb (is_flag "return_void") b
  else if existsb (String.eqb n) ["call"; "named_call"] then
    forallb (fun t => negb (is_string "alias" t) && negb (is_void t) && negb (existsb (named "swizzle") (body_of t))) b
  else if (n =? "closure")%string then forallb (fun t => negb (named "arg" t) || forallb (fun s => negb (is_string "lifetime" s)) (body_of t)) b
  else true.
