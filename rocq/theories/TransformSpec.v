(** * Scoping rules, for the replacement of a loop variable and the inference of a range. *)
From Coq Require Import String List ZArith Bool.
From Verif Require Import Float64 Syntax.
Import ListNotations.
Local Open Scope string_scope.
Local Open Scope list_scope.

(** ** Replacing a variable by a number

    [sub name val d h e] replaces the occurrences in [e] that refer to a variable [name] declared just
    outside. [h]: the variable is hidden by a later declaration of the same name. [d]: number of
    closures around [e], inside the scope of the variable: inside a closure it is visible with `grab`
    only. The second result is [h] for what follows [e] in the same scope.
    Declarations (`x := ...`) reach to the end of the block or link they are in, or of the loop if in
    the head of one; loop variables are declared in the loop body only. *)
Definition seq {A B} (f : bool -> A -> B * bool) : bool -> list A -> list B * bool :=
  fix seq h l :=
    match l with
    | [] => ([], h)
    | x :: l => let (y, h1) := f h x in let (ys, h2) := seq h1 l in (y :: ys, h2)
    end.
Definition is_name (name : string) (it : item) : bool := match it with Item n _ _ _ _ _ => String.eqb n name end.
Definition bare (it : item) : bool := match it with Item _ _ _ tryf ids _ => negb tryf && match ids with [] => true | _ => false end end.
(** `x := ...` *)
Definition declares (name : string) (op : assign_op) (left : expr) : bool :=
  match op, left with OpAssign, EItem (Item n _ _ _ [] _) => String.eqb n name | _, _ => false end.
Definition is_decl (op : assign_op) (left : expr) : bool :=
  match op, left with OpAssign, EItem (Item _ _ _ _ [] _) => true | _, _ => false end.

Fixpoint sub (name : string) (val : f64) (d : nat) (h : bool) (e : expr) : expr * bool :=
  let s e := fst (sub name val d h e) in
  let block h b := fst (seq (sub name val d) h b) in
  match e with
  | EItem (Item n sid cur tryf ids ti) =>
      if Nat.eqb d 0 && negb h && is_name name (Item n sid cur tryf ids ti) && bare (Item n sid cur tryf ids ti) then (EVar (vf64 val), h)
      else (EItem (Item n sid cur tryf (map (fun i => match i with IdExpr e => IdExpr (s e) | i => i end) ids) ti), h)
  | ELink l => (ELink (block h l), h)
  | EBlock l => (EBlock (block h l), h)
  | EObject kvs => (EObject (map (fun kv => (fst kv, s (snd kv))) kvs), h)
  | EArray l => (EArray (map s l), h)
  | EArrayFill a b => (EArrayFill (s a) (s b), h)
  | EReturn e => (EReturn (s e), h)
  | EReturnVoid | EBreak _ | EContinue _ | EVar _ | EIn _ => (e, h)
  | EGo n l => (EGo n (map s l), h)
  | ECall f n l => (ECall f n (map s l), h)
  | EAssign op l r =>
      if is_decl op l then (EAssign op l (s r), h || Nat.eqb d 0 && declares name op l)
      else (EAssign op (s l) (s r), h)
  | EVec4 l => (EVec4 (map s l), h)
  | EMat4 l => (EMat4 (map s l), h)
  | EFor lb a b c l =>
      let (a', h1) := sub name val d h a in
      (EFor lb a' (fst (sub name val d h1 b)) (fst (sub name val d h1 c)) (block h1 l), h)
  | EForN k lb n a b l =>
      (EForN k lb n (option_map s a) (s b) (block (h || Nat.eqb d 0 && String.eqb n name) l), h)
  | EForIn k lb n a l => (EForIn k lb n (s a) (block (h || Nat.eqb d 0 && String.eqb n name) l), h)
  | EIf c tb cs bs eb => (EIf (s c) (block h tb) (map s cs) (map (block h) bs) (option_map (block h) eb), h)
  | ETry e => let (e', h') := sub name val d h e in (ETry e', h')
  | ESwizzle i e => let (e', h') := sub name val d h e in (ESwizzle i e', h')
  | ETryExpr e => let (e', h') := sub name val d h e in (ETryExpr e', h')
  | EClosure (Closure a c b) => (EClosure (Closure a c (fst (sub name val (S d) h b))), h)
  | ECallClosure (Item n sid cur tryf ids ti) l =>
      (ECallClosure (Item n sid cur tryf (map (fun i => match i with IdExpr e => IdExpr (s e) | i => i end) ids) ti) (map s l), h)
  (* outside of [level] closures; with none left, outside of the loop *)
  | EGrab lv e => (EGrab lv (if Nat.leb lv d then fst (sub name val (d - lv) h e) else e), h)
  end.

(** The name does not occur. *)
Fixpoint absent (name : string) (e : expr) : bool :=
  let ids_ok := forallb (fun i => match i with IdExpr e => absent name e | _ => true end) in
  match e with
  | EItem (Item n _ _ _ ids _) => negb (String.eqb n name) && ids_ok ids
  | ELink l | EBlock l | EArray l | EVec4 l | EMat4 l | EGo _ l | ECall _ _ l => forallb (absent name) l
  | EObject kvs => forallb (fun kv => absent name (snd kv)) kvs
  | EArrayFill a b | EAssign _ a b => absent name a && absent name b
  | EReturn e | ETry e | ESwizzle _ e | ETryExpr e | EGrab _ e | EClosure (Closure _ _ e) => absent name e
  | EReturnVoid | EBreak _ | EContinue _ | EVar _ | EIn _ => true
  | EFor _ a b c l => absent name a && absent name b && absent name c && forallb (absent name) l
  | EForN _ _ n a b l => match a with Some a => absent name a | None => true end && absent name b && forallb (absent name) l
  | EForIn _ _ n a l => absent name a && forallb (absent name) l
  | EIf c tb cs bs eb =>
      absent name c && forallb (absent name) tb && forallb (absent name) cs && forallb (forallb (absent name)) bs &&
      match eb with Some b => forallb (absent name) b | None => true end
  | ECallClosure (Item n _ _ _ ids _) l => negb (String.eqb n name) && ids_ok ids && forallb (absent name) l
  end.

(** Conditions of the theorem: the variable is not indexed, not assigned, and only declared again by a
    statement of a block or as the first part of a loop head; a loop over the same name does not
    use the variable in its range; a loop over a channel of the same name, a closure, a grab, and a path to a
    closure do not use the name. *)
Definition assigns (name : string) (left : expr) : bool := match left with EItem it => is_name name it | _ => false end.
Fixpoint plain (name : string) (e : expr) : bool :=
  let block := fix block (b : list expr) : bool :=
    match b with
    | [] => true
    | EAssign op l r :: b => if assigns name l then is_decl op l && plain name r else plain name l && plain name r && block b
    | e :: b => plain name e && block b
    end in
  match e with
  | EItem (Item n sid cur tryf ids ti) =>
      if String.eqb n name then bare (Item n sid cur tryf ids ti)
      else forallb (fun i => match i with IdExpr e => plain name e | _ => true end) ids
  | EBlock l => block l
  | ELink l | EArray l | EVec4 l | EMat4 l | EGo _ l | ECall _ _ l => forallb (plain name) l
  | EObject kvs => forallb (fun kv => plain name (snd kv)) kvs
  | EArrayFill a b => plain name a && plain name b
  | EAssign _ a b => negb (assigns name a) && plain name a && plain name b
  | EReturn e | ETry e | ESwizzle _ e | ETryExpr e => plain name e
  | EGrab _ _ | EClosure _ => absent name e
  | EReturnVoid | EBreak _ | EContinue _ | EVar _ | EIn _ => true
  | EFor _ a b c l =>
      match a with
      | EAssign op lf r =>
          if assigns name lf then is_decl op lf && plain name r
          else plain name lf && plain name r && plain name b && plain name c && block l
      | _ => plain name a && plain name b && plain name c && block l
      end
  | EForN _ _ n a b l =>
      if String.eqb n name then match a with Some a => absent name a | None => true end && absent name b
      else match a with Some a => plain name a | None => true end && plain name b && block l
  | EForIn _ _ n a l => plain name a && (if String.eqb n name then forallb (absent name) l else block l)
  | EIf c tb cs bs eb =>
      plain name c && block tb && forallb (plain name) cs && forallb block bs && match eb with Some b => block b | None => true end
  | ECallClosure it l => absent name (EItem it) && forallb (plain name) l
  end.

(** ** Where an item occurs in a loop body

    [occurs name D e it D']: the item [it] occurs in [e], where the names [D] have been declared in the
    loop body before [e], and [D'] before the item, innermost first; the loop variable [name] is
    visible there. *)
Definition decl_name (e : expr) : list string :=
  match e with EAssign OpAssign (EItem (Item n _ _ _ [] _)) _ => [n] | _ => [] end.
(** The expressions directly inside, with the same names in scope. *)
Definition opt_list {A} (o : option A) : list A := match o with Some x => [x] | None => [] end.
Definition id_exprs (ids : list idx) : list expr := flat_map (fun i => match i with IdExpr e => [e] | _ => [] end) ids.
Definition item_ids (it : item) : list idx := match it with Item _ _ _ _ ids _ => ids end.
Definition children (e : expr) : list expr :=
  match e with
  | EItem it => id_exprs (item_ids it)
  | EArray l | EVec4 l | EMat4 l | EGo _ l | ECall _ _ l => l
  | EObject kvs => map snd kvs
  | EArrayFill a b | EAssign _ a b => [a; b]
  | EReturn e | ETry e | ESwizzle _ e | ETryExpr e => [e]
  | EFor _ a _ _ _ => [a]
  | EForN _ _ _ a b _ => opt_list a ++ [b]
  | EForIn _ _ _ a _ => [a]
  | EIf c _ cs _ _ => c :: cs
  | ECallClosure it l => id_exprs (item_ids it) ++ l
  | _ => []
  end.
(** The blocks directly inside, with the names they declare: a link is a block too. *)
Definition blocks (e : expr) : list (list string * list expr) :=
  match e with
  | EBlock b | ELink b => [([], b)]
  | EFor _ a b c l => [(decl_name a, b :: c :: l)]
  | EForN _ _ n _ _ l | EForIn _ _ n _ l => [([n], l)]
  | EIf _ tb _ bs eb => map (pair []) (tb :: bs ++ opt_list eb)
  | _ => []
  end.
Inductive occurs (name : string) : list string -> expr -> item -> list string -> Prop :=
| o_here : forall D it, occurs name D (EItem it) it D
| o_called : forall D it l, occurs name D (ECallClosure it l) it D
| o_child : forall D e c it D', In c (children e) -> occurs name D c it D' -> occurs name D e it D'
| o_block : forall D e ns b it D', In (ns, b) (blocks e) -> ~ In name ns -> occurs_block name (ns ++ D) b it D' ->
    occurs name D e it D'
with occurs_block (name : string) : list string -> list expr -> item -> list string -> Prop :=
| o_first : forall D e b it D', occurs name D e it D' -> occurs_block name D (e :: b) it D'
| o_later : forall D e b it D', ~ In name (decl_name e) -> occurs_block name (decl_name e ++ D) b it D' ->
    occurs_block name D (e :: b) it D'.

(** [ls] is the part of the path [it] before an index that is the variable [name]; indices in it are
    constants or paths that start with other names than [name] and [D]. *)
Definition indexed (name : string) (it ls : item) (D : list string) : Prop :=
  exists n s c t ids1 j ids2 ti ti',
    it = Item n s c t (ids1 ++ IdExpr (EItem j) :: ids2) ti /\ is_name name j = true /\
    ls = Item n None c t ids1 ti' /\
    forall e, In (IdExpr e) ids1 -> exists k, e = EItem k /\ is_name name k = false /\ forall m, In m D -> is_name m k = false.

(** Declarations are statements of blocks only, not of links or loop heads. *)
Fixpoint tracked (e : expr) : bool :=
  let ids_ok := forallb (fun i => match i with IdExpr e => tracked e | _ => true end) in
  let block := forallb (fun e => match e with EAssign _ l r => tracked l && tracked r | _ => tracked e end) in
  match e with
  | EItem (Item n _ _ _ ids _) => ids_ok ids
  | EBlock l => block l
  | ELink l | EArray l | EVec4 l | EMat4 l | EGo _ l | ECall _ _ l => forallb tracked l
  | EObject kvs => forallb (fun kv => tracked (snd kv)) kvs
  | EArrayFill a b => tracked a && tracked b
  | EAssign op a b => negb (is_decl op a) && tracked a && tracked b
  | EReturn e | ETry e | ESwizzle _ e | ETryExpr e => tracked e
  | EReturnVoid | EBreak _ | EContinue _ | EVar _ | EIn _ | EGrab _ _ | EClosure _ => true
  | EFor _ a b c l => tracked a && tracked b && tracked c && block l
  | EForN _ _ n a b l => match a with Some a => tracked a | None => true end && tracked b && block l
  | EForIn _ _ n a l => tracked a
  | EIf c tb cs bs eb =>
      tracked c && block tb && forallb tracked cs && forallb block bs && match eb with Some b => block b | None => true end
  | ECallClosure (Item n _ _ _ ids _) l => ids_ok ids && forallb tracked l
  end.
