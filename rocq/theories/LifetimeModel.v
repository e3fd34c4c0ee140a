(** * The lifetime checker.

    Model of /repo/src/lifetime/lt.rs, of [has_lifetime] and [lifetime] in lifetime/node.rs, of the
    argument checks and the assignment checks in lifetime/mod.rs, and of the run-time check
    /repo/src/dyon_std/lifetimechk.rs. Definitions only.

    Simplifications:
    - a node keeps the fields these functions read: kind, names, lifetime, parent, children,
      declaration, constraints of an intrinsic, assignment operator;
    - error messages are reduced to labels with the node they name; a name that the message needs
      and that is missing is a panic, as in the code;
    - [ArgNames] (a HashMap) is an association list, newest first;
    - the threading feature is on. *)
From Coq Require Import String List Bool Arith.
From Verif Require Import Syntax.
Import ListNotations.
Local Open Scope string_scope.
Local Open Scope nat_scope.
Local Open Scope list_scope.

(** ** lifetime/kind.rs 1-105 *)
Inductive kind :=
| K_Ns | K_Uses | K_Use | K_Fn | K_Arg | K_Current | K_Block | K_Expr | K_Add | K_Mul | K_Pow | K_Val | K_Call
| K_CallArg | K_Assign | K_Left | K_Right | K_Item | K_ItemExtra | K_Return | K_Object | K_Array
| K_ArrayItem | K_ArrayFill | K_Fill | K_N | K_KeyValue | K_For | K_ForN | K_ForIn | K_Sum | K_SumIn
| K_SumVec4 | K_Prod | K_ProdIn | K_ProdVec4 | K_Min | K_MinIn | K_Max | K_MaxIn | K_Sift | K_SiftIn | K_Any
| K_AnyIn | K_All | K_AllIn | K_Vec4UnLoop | K_Start | K_End | K_Init | K_Cond | K_Iter | K_ElseIfCond
| K_ElseIfBlock | K_Step | K_Compare | K_If | K_TrueBlock | K_ElseBlock | K_Loop | K_Id | K_Break
| K_Continue | K_Norm | K_Not | K_Neg | K_Vec4 | K_X | K_Y | K_Z | K_W | K_Mat4 | K_EX | K_EY | K_EZ | K_EW
| K_Type | K_Arr | K_Opt | K_Res | K_RetType | K_ReturnVoid | K_Go | K_Swizzle | K_Sw0 | K_Sw1 | K_Sw2 | K_Sw3
| K_Link | K_LinkFor | K_LinkIn | K_LinkItem | K_Closure | K_CallClosure | K_ClosureType | K_ClArg | K_ClRet
| K_Grab | K_TryExpr | K_In | K_Ty | K_TyArg | K_TyRet.

Definition kind_eq_dec (a b : kind) : {a = b} + {a <> b}.
Proof. decide equality. Defined.
Definition is_kind (a b : kind) : bool := if kind_eq_dec a b then true else false.

(** prelude.rs 13-26 *)
Inductive lt := LtArg (i : nat) | LtReturn | LtDefault.

(** lifetime/node.rs 11-48 *)
Record node := Node {
  n_kind : kind;
  n_names : list string;
  n_lifetime : option string;
  n_parent : option nat;
  n_children : list nat;
  n_decl : option nat;
  n_lts : list lt;
  n_op : option assign_op }.

Definition n_name (n : node) : option string := hd_error (n_names n).

(** lt.rs 8-24 *)
Inductive lifetime :=
| Return (l : list nat)
| Argument (l : list nat)
| Local (i : nat)
| Current (i : nat).

(** lt.rs 63-72 [compare_argument_outlives] *)
Definition compare_argument_outlives (a b : list nat) : option comparison :=
  if existsb (fun i => existsb (Nat.eqb i) b) a then Some (length a ?= length b) else None.

(** lt.rs 26-56 [partial_cmp] *)
Definition partial_cmp (a b : lifetime) : option comparison :=
  match a, b with
  | Current _, Local _ => Some Gt
  | Local _, Current _ => Some Lt
  | Current x, Current y => if x =? y then Some Eq else None
  | Current _, _ => None
  | _, Current _ => None
  | Local x, Local y => Some (y ?= x)
  | Return _, Local _ => Some Gt
  | Local _, Return _ => Some Lt
  | Return x, Return y =>
    match x, y with
    | [], [] => Some Eq
    | [], _ => Some Lt
    | _, [] => Some Gt
    | _, _ => compare_argument_outlives x y
    end
  | Argument _, Local _ => Some Gt
  | Local _, Argument _ => Some Lt
  | Return _, Argument _ => None
  | Argument _, Return _ => None
  | Argument x, Argument y => compare_argument_outlives x y
  end.

(** Results of checker functions: a value, no lifetime, lifetimes that can not be unified, another
    reported error, a panic, out of fuel. *)
Inductive lres :=
| LOk (l : lifetime) | LNone | LUnify | LPanic | LOof.

(** mod.rs 1194 [ArgNames]: (function, argument name) to (argument, index). *)
Definition arg_names := list ((nat * string) * (nat * nat)).

Fixpoint arg_get (m : arg_names) (f : nat) (x : string) : option (nat * nat) :=
  match m with
  | [] => None
  | ((g, y), r) :: m => if (g =? f) && (y =? x)%string then Some r else arg_get m f x
  end.

(** The loop of lt.rs 88-101. [acc] is [args] reversed. *)
Fixpoint arg_loop (fuel : nat) (nodes : list node) (m : arg_names) (parent : nat) (name : string)
  (acc : list nat) : lres :=
  match fuel with
  | 0 => LOof
  | S fuel =>
    match arg_get m parent name with
    | None => LPanic
    | Some (arg, _) =>
      match nth_error nodes arg with
      | None => LPanic
      | Some n =>
        match n_lifetime n with
        | Some l => if (l =? "return")%string then LOk (Return (rev (arg :: acc)))
                    else arg_loop fuel nodes m parent l (arg :: acc)
        | None => LOk (Argument (rev (arg :: acc)))
        end
      end
    end
  end.

(** lt.rs 75-108 [arg_lifetime] *)
Definition arg_lifetime (fuel declaration : nat) (arg : node) (nodes : list node) (m : arg_names)
  : lres :=
  match n_lifetime arg with
  | Some l =>
    if (l =? "return")%string then LOk (Return [declaration])
    else match n_parent arg with
         | None => LPanic
         | Some parent => arg_loop fuel nodes m parent l [declaration]
         end
  | None => LOk (Argument [declaration])
  end.

(** ** lifetime/node.rs *)

(** node.rs 187-199 [has_lifetime] *)
Definition has_lifetime (n : node) : bool :=
  match n_kind n with
  | K_Pow | K_Sum | K_SumIn | K_Prod | K_ProdIn | K_SumVec4 | K_Min | K_MinIn | K_Max | K_MaxIn | K_Any
  | K_AnyIn | K_All | K_AllIn | K_LinkIn | K_Vec4 | K_Mat4 | K_Vec4UnLoop | K_Swizzle | K_Assign | K_For
  | K_ForN | K_ForIn | K_Link | K_LinkFor | K_Closure | K_CallClosure | K_Grab | K_TryExpr | K_Norm
  | K_In => false
  | K_Add | K_Mul | K_Compare => length (n_children n) =? 1
  | _ => true
  end.

(** The inner loop of node.rs 227-240: does the constraint lead to the return value? *)
Fixpoint lt_returns (fuel : nat) (lts : list lt) (l : lt) : option (option bool) :=
  match fuel with
  | 0 => None
  | S fuel =>
    match l with
    | LtDefault => Some (Some false)
    | LtReturn => Some (Some true)
    | LtArg x => match nth_error lts x with None => Some None | Some l => lt_returns fuel lts l end
    end
  end.

(** The loop of node.rs 224-242: [Some (Some b)], [b] = "returns static"; [Some None] is a panic. *)
Fixpoint returns_static (fuel : nat) (lts rest : list lt) : option (option bool) :=
  match rest with
  | [] => Some (Some true)
  | l :: rest =>
    match lt_returns fuel lts l with
    | Some (Some false) => returns_static fuel lts rest
    | Some (Some true) => Some (Some false)
    | r => r
    end
  end.

(** How a child counts (node.rs 258-361): it is looked at, it is left out, or the pair of kinds is
    not foreseen. A call argument is looked at depending on the declaration. *)
Inductive counts := CTake | CSkip | CCallArg | CPanic.
Definition child_counts (k c : kind) : counts :=
  match c with
  | K_Iter | K_Start | K_End | K_Arg | K_Current | K_Compare | K_Cond | K_ElseIfCond | K_N => CSkip
  | K_Item => match k with K_CallClosure => CSkip | _ => CTake end
  | K_Link | K_LinkFor | K_LinkIn | K_LinkItem | K_ReturnVoid | K_Swizzle | K_Loop | K_Go | K_For | K_ForN
  | K_ForIn | K_Break | K_Continue | K_Sift | K_SiftIn | K_SumVec4 | K_Sum | K_SumIn | K_Prod | K_ProdIn
  | K_ProdVec4 | K_Min | K_MinIn | K_Max | K_MaxIn | K_Any | K_AnyIn | K_All | K_AllIn | K_Vec4UnLoop | K_Vec4
  | K_Mat4 | K_Assign | K_Object | K_KeyValue | K_Val | K_Add | K_Mul | K_Call | K_In | K_Closure
  | K_CallClosure | K_Grab | K_TryExpr | K_Norm | K_Left | K_Right | K_Expr | K_Return | K_Array | K_ArrayItem
  | K_ArrayFill | K_Pow | K_Block | K_If | K_TrueBlock | K_ElseIfBlock | K_ElseBlock | K_Fill => CTake
  | K_CallArg => match k with K_Call | K_CallClosure | K_CallArg => CCallArg | _ => CPanic end
  | _ => CPanic
  end.

(** The [Arg] children of a node (node.rs 343-347, mod.rs 742-746). *)
Definition arg_children (nodes : list node) (f : node) : list nat :=
  filter (fun i => match nth_error nodes i with Some n => is_kind (n_kind n) K_Arg | None => false end)
    (n_children f).

(** node.rs 337-360: is call argument number [k] looked at? [None] is a panic or no fuel. *)
Definition call_arg_counts (fuel : nat) (nodes : list node) (m : arg_names) (self : node) (k : nat)
  : lres + bool :=
  match n_decl self with
  | None => inr true
  | Some d =>
    match nth_error nodes d with
    | None => inl LPanic
    | Some f =>
      match nth_error (arg_children nodes f) k with
      | None => inr true
      | Some a =>
        match nth_error nodes a with
        | None => inl LPanic
        | Some n => match arg_lifetime fuel a n nodes m with
                    | LOk (Return _) => inr true
                    | LPanic => inl LPanic
                    | LOof => inl LOof
                    | _ => inr false
                    end
        end
      end
    end
  end.

(** node.rs 362-373: one more lifetime joins the one chosen so far. *)
Definition join (min : option lifetime) (l : lifetime) : option (option lifetime) :=
  match min with
  | None => Some (Some l)
  | Some m => match partial_cmp m l with
              | Some Lt => Some (Some l)
              | None => None
              | _ => Some (Some m)
              end
  end.

(** The loop of node.rs 256-374 over the children. [k] is [call_arg_ind]. *)
Fixpoint children_lifetime (fuel : nat) (rec : node -> lres) (nodes : list node) (m : arg_names)
  (self : node) (cs : list nat) (k : nat) (min : option lifetime) : lres :=
  match cs with
  | [] => match min with Some l => LOk l | None => LNone end
  | c :: cs =>
    match nth_error nodes c with
    | None => LPanic
    | Some cn =>
      let look k :=
        match rec cn with
        | LOk l => match join min l with
                   | None => LUnify
                   | Some min => children_lifetime fuel rec nodes m self cs k min
                   end
        | LNone => children_lifetime fuel rec nodes m self cs k min
        | r => r
        end in
      match child_counts (n_kind self) (n_kind cn) with
      | CPanic => LPanic
      | CSkip => children_lifetime fuel rec nodes m self cs k min
      | CTake => look k
      | CCallArg => match call_arg_counts fuel nodes m self k with
                    | inl r => r
                    | inr true => look (S k)
                    | inr false => children_lifetime fuel rec nodes m self cs (S k) min
                    end
      end
    end
  end.

(** node.rs 201-376 [lifetime] *)
Fixpoint node_lifetime (fuel : nat) (nodes : list node) (m : arg_names) (self : node) : lres :=
  match fuel with
  | 0 => LOof
  | S fuel =>
    let rest := children_lifetime fuel (node_lifetime fuel nodes m) nodes m self (n_children self) 0 None in
    if negb (has_lifetime self) then LNone
    else match n_decl self with
    | Some d =>
      if is_kind (n_kind self) K_Item then
        match nth_error nodes d with
        | None => LPanic
        | Some arg => if is_kind (n_kind arg) K_Arg then arg_lifetime fuel d arg nodes m
                      else if is_kind (n_kind arg) K_Current then LOk (Current d)
                      else LOk (Local d)
        end
      else rest
    | None =>
      if is_kind (n_kind self) K_Call && negb (length (n_lts self) =? 0) then
        match returns_static fuel (n_lts self) (n_lts self) with
        | None => LOof
        | Some None => LPanic
        | Some (Some true) => LNone
        | Some (Some false) => rest
        end
      else if is_kind (n_kind self) K_Item &&
              match n_name self with Some x => (x =? "return")%string | None => false end
      then LOk (Return [])
      else rest
    end
  end.

(** ** Comparison *)

(** The errors of lt.rs 115-276 with the nodes they name. *)
Inductive cerr :=
| CUnify | CShort (n : nat) | CFnRequires (r l : nat) | CRequires (r l : nat) | CNeedsReturn (r : nat)
| CIsCurrent (n : nat).
Inductive cres := COk | CErr (e : cerr) | CPanicked.

(** [nodes[i].name().expect("Expected name")], then the error. *)
Definition named (nodes : list node) (i : nat) (r : cres) : cres :=
  match nth_error nodes i with
  | None => CPanicked
  | Some n => match n_name n with None => CPanicked | Some _ => r end
  end.

(** lt.rs 117-277 [compare_lifetimes]. Out of fuel and panics of the arguments are the caller's. *)
Definition compare_lifetimes (l r : lres) (nodes : list node) : cres :=
  match l, r with
  | LOk (Local _), LUnify => COk
  | LUnify, _ | _, LUnify => CErr CUnify
  | LOk l, LOk r =>
    match partial_cmp l r with
    | Some Gt | Some Eq =>
      match r with
      | Local r => named nodes r (CErr (CShort r))
      | Argument (r :: _) => named nodes r (CErr (CShort r))
      | Argument [] => CPanicked
      | Current r => named nodes r (CErr (CShort r))
      | Return (r :: _) => named nodes r (CErr (CShort r))
      | Return [] => CPanicked
      end
    | None =>
      match l, r with
      | Argument (l :: _), Argument (r :: _) =>
        match nth_error nodes r with
        | None => CPanicked
        | Some rn => match n_parent rn with
                     | None => CPanicked
                     | Some p => named nodes p (named nodes r (named nodes l (CErr (CFnRequires r l))))
                     end
        end
      | Argument (l :: _), Return (r :: _) => named nodes r (named nodes l (CErr (CRequires r l)))
      | Return (l :: _), Return (r :: _) => named nodes r (named nodes l (CErr (CRequires r l)))
      | Return [], Argument (x :: r) => let y := last r x in named nodes y (CErr (CNeedsReturn y))
      | Return (_ :: _), Argument (r :: _) => named nodes r (CErr (CShort r))
      | Argument [], Return _ | Argument _, Argument _ | Argument _, Return []
      | Return _, Return _ | Return _, Argument [] => CPanicked
      | Current n, _ => named nodes n (CErr (CIsCurrent n))
      | _, Current n => named nodes n (CErr (CIsCurrent n))
      | _, _ => CPanicked
      end
    | Some Lt => COk
    end
  | _, _ => COk
  end.

(** ** Checks of signatures, lifetime/mod.rs *)

(** Outcome of a check of a signature. *)
Inductive aerr := ADuplicate (n : nat) | AMissing (n : nat) | ACyclic (n : nat).
Inductive ares (A : Type) := AOk (a : A) | AErr (e : aerr) | APanic | AOof.
Arguments AOk {A}. Arguments AErr {A}. Arguments APanic {A}. Arguments AOof {A}.

(** mod.rs 519-541, for one function: duplicate argument names. *)
Fixpoint dup_args (nodes : list node) (seen : list string) (args : list nat) : ares unit :=
  match args with
  | [] => AOk tt
  | i :: args =>
    match nth_error nodes i with
    | None => APanic
    | Some n => match n_name n with
                | None => APanic
                | Some x => if existsb (String.eqb x) seen then AErr (ADuplicate i)
                            else dup_args nodes (x :: seen) args
                end
    end
  end.

(** mod.rs 739-757, for one function: the names with argument and index. *)
Fixpoint add_args (nodes : list node) (f : nat) (args : list nat) (j : nat) (m : arg_names)
  : ares arg_names :=
  match args with
  | [] => AOk m
  | c :: args =>
    match nth_error nodes c with
    | None => APanic
    | Some n => match n_name n with
                | None => APanic
                | Some x => add_args nodes f args (S j) (((f, x), (c, j)) :: m)
                end
    end
  end.

(** mod.rs 758-773: each lifetime other than ['return] names an argument. *)
Fixpoint known_args (nodes : list node) (f : nat) (args : list nat) (m : arg_names) : ares unit :=
  match args with
  | [] => AOk tt
  | c :: args =>
    match nth_error nodes c with
    | None => APanic
    | Some n =>
      match n_lifetime n with
      | None => known_args nodes f args m
      | Some l => if (l =? "return")%string then known_args nodes f args m
                  else match arg_get m f l with
                       | None => AErr (AMissing c)
                       | Some _ => known_args nodes f args m
                       end
      end
    end
  end.

Fixpoint set_nth {A} (l : list A) (i : nat) (x : A) : list A :=
  match l, i with
  | [], _ => []
  | _ :: l, 0 => x :: l
  | a :: l, S i => a :: set_nth l i x
  end.

(** mod.rs 793-812: the loop that follows lifetimes from one argument. *)
Fixpoint cyclic_loop (fuel : nat) (nodes : list node) (f : nat) (m : arg_names) (visited : list bool)
  (arg ind : nat) : ares unit :=
  match fuel with
  | 0 => AOof
  | S fuel =>
    match nth_error visited ind with
    | None => APanic
    | Some true => AErr (ACyclic arg)
    | Some false =>
      match nth_error nodes arg with
      | None => APanic
      | Some n =>
        match n_lifetime n with
        | None => AOk tt
        | Some l =>
          if (l =? "return")%string then AOk tt
          else match arg_get m f l with
               | None => APanic
               | Some (a, i) => cyclic_loop fuel nodes f m (set_nth visited ind true) a i
               end
        end
      end
    end
  end.

(** mod.rs 775-815: cyclic references among lifetimes. An argument with lifetime ['return] ends the
    loop over the arguments. *)
Fixpoint cyclic_args (fuel : nat) (nodes : list node) (f : nat) (m : arg_names) (n : nat)
  (args : list nat) : ares unit :=
  match args with
  | [] => AOk tt
  | c :: args =>
    match nth_error nodes c with
    | None => APanic
    | Some nd =>
      match n_lifetime nd with
      | None => cyclic_args fuel nodes f m n args
      | Some l =>
        if (l =? "return")%string then AOk tt
        else match arg_get m f l with
             | None => APanic
             | Some (a, i) =>
               match cyclic_loop fuel nodes f m (repeat false n) a i with
               | AOk _ => cyclic_args fuel nodes f m n args
               | r => r
               end
             end
      end
    end
  end.

Definition then_ {A B} (r : ares A) (k : A -> ares B) : ares B :=
  match r with AOk a => k a | AErr e => AErr e | APanic => APanic | AOof => AOof end.

(** mod.rs 520-541: all functions. *)
Fixpoint dup_fns (nodes : list node) (fs : list nat) : ares unit :=
  match fs with
  | [] => AOk tt
  | f :: fs => match nth_error nodes f with
               | None => APanic
               | Some fn => then_ (dup_args nodes [] (arg_children nodes fn)) (fun _ => dup_fns nodes fs)
               end
  end.

(** mod.rs 738-816 *)
Fixpoint arg_fns (fuel : nat) (nodes : list node) (fs : list nat) (m : arg_names) : ares arg_names :=
  match fs with
  | [] => AOk m
  | f :: fs =>
    match nth_error nodes f with
    | None => APanic
    | Some fn =>
      let args := arg_children nodes fn in
      then_ (add_args nodes f args 0 m) (fun m =>
      then_ (known_args nodes f args m) (fun _ =>
      then_ (cyclic_args fuel nodes f m (length args) args) (fun _ =>
      arg_fns fuel nodes fs m)))
    end
  end.

(** The checks of the signatures of the functions [fs] in order. *)
Definition check_args (fuel : nat) (nodes : list node) (fs : list nat) : ares arg_names :=
  then_ (dup_fns nodes fs) (fun _ => arg_fns fuel nodes fs []).

(** ** Checks of assignments *)

(** mod.rs 819-830 for one mutated local (a, i): only [=] is checked. *)
Definition check_mutated (fuel : nat) (nodes : list node) (m : arg_names) (a i : nat) : option cres :=
  match nth_error nodes a, nth_error nodes i with
  | Some an, Some it =>
    match n_op an with
    | Some OpSet =>
      match nth_error (n_children an) 1 with
      | None => Some CPanicked
      | Some rgt =>
        match nth_error nodes rgt with
        | None => Some CPanicked
        | Some rn =>
          match node_lifetime fuel nodes m it, node_lifetime fuel nodes m rn with
          | LOof, _ | _, LOof => None
          | LPanic, _ | _, LPanic => Some CPanicked
          | l, r => Some (compare_lifetimes l r nodes)
          end
        end
      end
    | _ => Some COk
    end
  | _, _ => Some CPanicked
  end.

(** mod.rs 833-839 for one declared local (a, i). *)
Definition check_local (fuel : nat) (nodes : list node) (m : arg_names) (a i : nat) : option cres :=
  match nth_error nodes a with
  | Some an =>
    match nth_error (n_children an) 1 with
    | None => Some CPanicked
    | Some rgt =>
      match nth_error nodes rgt with
      | None => Some CPanicked
      | Some rn =>
        match node_lifetime fuel nodes m rn with
        | LOof => None
        | LPanic => Some CPanicked
        | r => Some (compare_lifetimes (LOk (Local i)) r nodes)
        end
      end
    end
  | None => Some CPanicked
  end.

(** ** dyon_std/lifetimechk.rs *)

(** lifetimechk.rs 55-91 [min_ref] *)
Fixpoint min_ref (v : value) (min : option nat) : option nat :=
  match v with
  | VRef i => match min with
              | None => Some i
              | Some m => if i <? m then Some i else Some m
              end
  | VArray l =>
    (fix go (l : list value) (min : option nat) :=
       match l with [] => min | v :: l => go l (min_ref v min) end) l min
  | VObject l =>
    (fix go (l : list (string * value)) (min : option nat) :=
       match l with [] => min | (_, v) :: l => go l (min_ref v min) end) l min
  | _ => min
  end.

(** An argument of a function: name and lifetime (ast/mod.rs 661-674). *)
Definition sig_arg := (string * option string)%type.

(** lifetimechk.rs 8-11: name to index; the last one of the same name wins. *)
Fixpoint sig_index (args : list sig_arg) (j : nat) (x : string) : option nat :=
  match args with
  | [] => None
  | (y, _) :: args =>
    match sig_index args (S j) x with
    | Some k => Some k
    | None => if (y =? x)%string then Some j else None
    end
  end.

Inductive kerr := KNoRef (i : nat) | KWrong (x : string) | KOutlive (i ind : nat).
Inductive kres := KOk | KErr (e : kerr) | KPanic.

(** The loop of lifetimechk.rs 12-49. *)
Fixpoint check_from (sig rest : list sig_arg) (i : nat) (args : list value) : kres :=
  match rest with
  | [] => KOk
  | (_, None) :: rest => check_from sig rest (S i) args
  | (_, Some l) :: rest =>
    match nth_error args i with
    | None => KPanic
    | Some (VRef r) =>
      if (l =? "return")%string then check_from sig rest (S i) args
      else match sig_index sig 0 l with
           | None => KErr (KWrong l)
           | Some ind =>
             match nth_error args ind with
             | None => KPanic
             | Some v =>
               match min_ref v None, min_ref (VRef r) None with
               | None, _ => check_from sig rest (S i) args
               | Some _, None => KErr (KOutlive i ind)
               | Some a, Some b => if a <=? b then KErr (KOutlive i ind)
                                   else check_from sig rest (S i) args
               end
             end
           end
    | Some _ => KErr (KNoRef i)
    end
  end.

(** lifetimechk.rs 6-53 [check] *)
Definition check (sig : list sig_arg) (args : list value) : kres :=
  if existsb (fun a => match snd a with Some _ => true | None => false end) sig
  then check_from sig sig 0 args else KOk.
