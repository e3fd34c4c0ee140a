(** * What can be used where, in the syntax tree that is run.

    The names that are known at each place of an expression, and the functions that can be called; independent of the
    checkers and of the evaluator. Also the texts for which this agrees with what the checkers let pass. *)
From Coq Require Import String List Bool Arith ZArith.
From Verif Require Import PrintModel Float64 TypeModel LifetimeModel NodesModel NodesSpec Syntax GrammarSpec.
Import ListNotations.
Local Open Scope string_scope.
Local Open Scope nat_scope.
Local Open Scope list_scope.

(** ** Expressions *)

(** [x := ...] makes [x] known to what comes after it *)
Definition declared_by (e : expr) : list string :=
  match e with EAssign OpAssign (EItem (Item x _ _ _ [] _)) _ => [x] | _ => [] end.
(** a swizzle gives one value for each letter *)
Definition values_of (es : list expr) : nat := fold_right (fun e n => match e with ESwizzle l _ => length l | _ => 1 end + n) 0 es.

Section Visible.
(** the name of a function and the number of values for its arguments *)
Context (callable : string -> nat -> Prop).
Definition all_in (f : list string -> expr -> Prop) (V : list string) : list expr -> Prop :=
  fix go l := match l with [] => True | e :: l => f V e /\ go l end.
Definition in_turn (f : list string -> expr -> Prop) : list string -> list expr -> Prop :=
  fix go V l := match l with [] => True | e :: l => f V e /\ go (declared_by e ++ V) l end.
(** [visible V e]: with the variables [V] around it, every variable that [e] uses is known where it is used ([return] is always), and every
    function that it calls can be called. The body of a closure knows the parameters of the closure only. Nothing is said about what is
    grabbed from outside of closures. *)
Fixpoint visible (V : list string) (e : expr) : Prop :=
  match e with
  | ELink l | EBlock l => in_turn visible V l
  | EObject kvs => (fix go (l : list (string * expr)) : Prop := match l with [] => True | (_, e) :: l => visible V e /\ go l end) kvs
  | EArray l | EVec4 l | EMat4 l => all_in visible V l
  | EArrayFill a b => visible V a /\ visible V b
  | EReturn a | ETry a | ETryExpr a | ESwizzle _ a => visible V a
  | EReturnVoid | EBreak _ | EContinue _ | EVar _ | EIn _ | EGrab _ _ => True
  | EGo f l | ECall _ f l => callable f (values_of l) /\ all_in visible V l
  | EItem it => visible_item V it
  | EAssign OpAssign (EItem (Item _ _ _ _ [] _)) r => visible V r
  | EAssign _ l r => visible V l /\ visible V r
  | EFor _ init cond st b =>
      visible V init /\ visible (declared_by init ++ V) cond /\ visible (declared_by init ++ V) st /\ in_turn visible (declared_by init ++ V) b
  | EForN _ _ x start stop b => match start with Some a => visible V a | None => True end /\ visible V stop /\ in_turn visible (x :: V) b
  | EForIn _ _ x it b => visible V it /\ in_turn visible (x :: V) b
  | EIf c t cs bs eb =>
      visible V c /\ in_turn visible V t /\ all_in visible V cs /\
      (fix go (l : list (list expr)) : Prop := match l with [] => True | b :: l => in_turn visible V b /\ go l end) bs /\
      match eb with Some b => in_turn visible V b | None => True end
  | EClosure (Closure args currents b) => visible (args ++ currents) b
  | ECallClosure it l => visible_item V it /\ all_in visible V l
  end
with visible_item (V : list string) (it : item) : Prop :=
  match it with
  | Item x _ _ _ ids _ =>
      (x = "return" \/ In x V) /\ (fix go (l : list idx) : Prop := match l with [] => True | i :: l => visible_idx V i /\ go l end) ids
  end
with visible_idx (V : list string) (i : idx) : Prop :=
  match i with IdExpr e => visible V e | _ => True end.
End Visible.

(** ** Texts

    The checkers know a variable in more places than it is known in at run time (see the refutations in P_Visible.v). *)

(** the node is [... := ...] *)
Definition is_intro (t : stx) : bool :=
  match t with SNode n [_; SValue (MBool o _); _] => (n =? "assign")%string && (o =? ":=")%string | _ => false end.
Definition introduces_ (t : stx) : bool := existsb is_intro (body_of t).
Definition tried (t : stx) : bool := existsb (is_flag "try") (body_of t).
(** a statement: [x := ...] without [?] after it *)
Definition statement (t : stx) : bool := negb (introduces_ t) || negb (tried t).
Definition statements : list string := ["block"; "true_block"; "else_if_block"; "else_block"; "link"].
(** no variable called one of [xs] *)
Definition avoids (xs : list string) (n : string) (b : list stx) : bool :=
  if (n =? "item")%string then
    forallb (fun t => match t with SValue (MString m x) => (m =? "name")%string && negb (existsb (String.eqb x) xs) | _ => true end) b
  else if (n =? "call_closure")%string then forallb (fun t => match t with SValue (MString _ _) => false | _ => true end) b
  else negb (n =? "named_call_closure")%string.
Definition later_names (l : list stx) : list string := flat_map (fun t => match t with SValue (MString n x) => if (n =? "name")%string then [x] else [] | _ => [] end) l.
(** the ends of a loop do not use its own variables from [x] on *)
Fixpoint ends_apart (x : list string) (l : list stx) : bool :=
  match l with
  | [] => true
  | SValue (MString n y) :: l => if (n =? "name")%string then ends_apart [y] l else ends_apart x l
  | t :: l => (negb (existsb (fun n => named n t) ["start"; "end"; "iter"]) || nodes_all (avoids (x ++ later_names l)) t) && ends_apart x l
  end.
(** every variable of the loop has an end *)
Fixpoint closed (l : list stx) : bool :=
  match l with
  | [] => true
  | SValue (MString n _) :: r => (negb (n =? "name")%string || match r with t :: _ => named "start" t || named "end" t | [] => false end) && closed r
  | _ :: r => closed r
  end.
Definition loop_names : list string := ["for_n"; "sum"; "prod"; "sum_vec4"; "prod_vec4"; "min"; "max"; "sift"; "any"; "all"; "link_for"].
(** Variables are introduced by statements and at the start of a [for] loop, what is on the left of [:=] is a variable, every end of a loop is
    there and does not use the variable of the loop, and there are no unrolled loops. *)
Definition regular (n : string) (b : list stx) : bool :=
  (if existsb (String.eqb n) statements then forallb statement b
   else forallb (fun t => if (n =? "for")%string && named "init" t then statement t else negb (introduces_ t)) b) &&
  (negb (is_intro (SNode n b)) || match b with SNode _ [SNode m _] :: _ => (m =? "item")%string | _ => false end) &&
  ends_apart [] b && (negb (existsb (String.eqb n) loop_names) || closed b) && negb (n =? "vec4_un_loop")%string.
