(** * Model of [src/ty.rs] and of the refinement loops of
      [src/lifetime/typecheck/refine.rs]. Definitions only. *)
From Coq Require Import String List Arith Bool.
Import ListNotations.
Local Open Scope list_scope.

(** src/ty.rs:8-48 [enum Type] (the build with threading). Simplification: of the [Dfn] inside a
    closure type only the argument types and the return type are kept; [lts], [ext] and [lazy]
    of closure types are always default (src/ty.rs:539-557) and no function below reads them. *)
Inductive ty :=
| TUnreachable | TVoid | TAny | TBool | TF64 | TVec4 | TMat4 | TStr | TLink | TObject
| TArray (t : ty) | TOption (t : ty) | TResult (t : ty) | TSecret (t : ty)
| TThread (t : ty) | TIn (t : ty)
| TAdHoc (name : string) (t : ty)
| TClosure (args : list ty) (ret : ty).

(** size, used only as a bound for the recursion of [goes_with] *)
Fixpoint size (t : ty) : nat :=
  match t with
  | TArray t | TOption t | TResult t | TSecret t | TThread t | TIn t | TAdHoc _ t => S (size t)
  | TClosure args r => S (fold_right (fun a n => size a + n) 0 args + size r)
  | _ => 1
  end.

Definition is_adhoc (t : ty) : bool := match t with TAdHoc _ _ => true | _ => false end.
Definition is_any (t : ty) : bool := match t with TAny => true | _ => false end.
Definition is_void (t : ty) : bool := match t with TVoid => true | _ => false end.
Definition is_unreachable (t : ty) : bool := match t with TUnreachable => true | _ => false end.

(** [x == other] of src/ty.rs:441 for the types that reach it: bool, f64, str, vec4, mat4, link,
    and secrets (never equal there, because a secret [other] was handled before). *)
Definition atom_eq (a b : ty) : bool :=
  match a, b with
  | TBool, TBool | TF64, TF64 | TStr, TStr | TVec4, TVec4 | TMat4, TMat4 | TLink, TLink => true
  | _, _ => false
  end.

Definition oand (a b : option bool) : option bool :=
  match a with Some true => b | _ => a end.
Fixpoint oall2 (f : ty -> ty -> option bool) (l l' : list ty) : option bool :=
  match l, l' with
  | a :: l, b :: l' => oand (f a b) (oall2 f l l')
  | _, _ => Some true
  end.

(** src/ty.rs:351-443: the [match self] of [Type::goes_with], [f] being the recursive call. The
    test order is the one of the code; reached only when [other] is not a secret and is ad-hoc
    only if [self] is. *)
Definition gw_match (f : ty -> ty -> option bool) (self other : ty) : option bool :=
  if is_unreachable self || is_unreachable other then Some true            (* 353-354 *)
  else match self with
  | TAny => Some (negb (is_void other))                                     (* 355 *)
  | TVoid => Some (is_void other)                                           (* 357 *)
  | TArray a => match other with TArray b => f a b | _ => Some (is_any other) end
  | TObject => match other with TObject => Some true | _ => Some (is_any other) end
  | TOption a => match other with TOption b => f a b | _ => Some (is_any other) end
  | TResult a => match other with TResult b => f a b | _ => Some (is_any other) end
  | TThread a => match other with TThread b => f a b | _ => Some (is_any other) end
  | TIn a => match other with TIn b => f a b | _ => Some (is_any other) end
  | TClosure args ret =>                                                    (* 406-429 *)
      match other with
      | TClosure args' ret' =>
          if negb (Nat.eqb (length args) (length args')) then Some false
          else oand (oall2 f args args') (f ret ret')
      | _ => Some (is_any other)
      end
  | TAdHoc name t =>                                                        (* 430-438 *)
      match other with
      | TAdHoc name' t' => if String.eqb name name' then f t t' else Some false
      | TVoid => Some false
      | _ => f t other
      end
  | _ => if atom_eq self other then Some true else Some (is_any other)      (* 440-443 *)
  end.

(** src/ty.rs:334-445 [Type::goes_with]; [None] = fuel exhausted (excluded by
    [TypeProofs.goes_with_fuel]). *)
Fixpoint gw (n : nat) (self other : ty) : option bool :=
  match n with
  | O => None
  | S n =>
      if is_adhoc other && negb (is_adhoc self) then gw n other self       (* 338-343 *)
      else match other with
      | TSecret o =>                                                        (* 344-350 *)
          match self with TSecret s => gw n s o | _ => gw n self o end
      | _ => gw_match (gw n) self other
      end
  end.

Definition gw_fuel (a b : ty) : nat := 2 * (size a + size b) + 2.
Definition goes_with (a b : ty) : bool :=
  match gw (gw_fuel a b) a b with Some r => r | None => false end.

(** src/ty.rs:448-465 [Type::add_assign] *)
Fixpoint add_assign (a b : ty) : bool :=
  match a, b with
  | TAdHoc n t, TAdHoc n' t' =>
      if negb (String.eqb n n') then false
      else if negb (goes_with t t') then false
      else add_assign t t'
  | TAdHoc _ _, _ | _, TAdHoc _ _ => false
  | TVoid, _ | _, TVoid => false
  | _, _ => true
  end.

(** src/ty.rs:285-317 [Type::ambiguous] *)
Fixpoint ambiguous (self refine : ty) {struct self} : bool :=
  match self with
  | TAdHoc xa xb =>
      match refine with
      | TAdHoc ya yb => if String.eqb xa ya then ambiguous xb yb else goes_with xb refine
      | _ => goes_with xb refine
      end
  | TArray x => match refine with TArray y => ambiguous x y | TAny => true | _ => false end
  | TOption x => match refine with TOption y => ambiguous x y | TAny => true | _ => false end
  | TResult x => match refine with TResult y => ambiguous x y | TAny => true | _ => false end
  | TThread x => match refine with TThread y => ambiguous x y | TAny => true | _ => false end
  | TIn x => match refine with TIn y => ambiguous x y | TAny => true | _ => false end
  | TBool | TF64 | TStr | TVec4 | TMat4 | TLink | TSecret _ =>
      match refine with TAny => true | _ => false end
  | _ => false
  end.

(** src/ty.rs:319-329 [Type::closure_ret_ty] *)
Fixpoint closure_ret_ty (t : ty) : option ty :=
  match t with
  | TClosure _ r => Some r
  | TAdHoc _ t => closure_ret_ty t
  | TAny => Some TAny
  | _ => None
  end.

(** position of a name in the list of type variables: the loops [for i in 0..names.len()] *)
Fixpoint var_ix (names : list string) (x : string) : option nat :=
  match names with
  | [] => None
  | y :: t => if String.eqb x y then Some 0 else
              match var_ix t x with Some i => Some (S i) | None => None end
  end.

Fixpoint set_nth {A} (i : nat) (x : A) (l : list A) : list A :=
  match l, i with
  | [], _ => []
  | _ :: t, O => x :: t
  | a :: t, S i => a :: set_nth i x t
  end.

(** bindings of the type variables, [Vec<Option<Arc<String>>>] *)
Definition tyvars := list (option string).

(** src/ty.rs:191-252 [Type::bind_ty_vars]. [None] = the error (#1500 or #1600). The bindings
    are threaded as the code mutates them. In the second case (200-247: an ad-hoc signature type
    against a non ad-hoc type) the loop goes on after a bound variable that does not clash, so
    with repeated names later entries are also looked at; names of one signature are distinct
    (parsed from one list), so only the first position is modelled. *)
Fixpoint bind_ty_vars (self refine : ty) (names : list string) (tv : tyvars) {struct self}
  : option (ty * tyvars) :=
  match names with
  | [] => Some (self, tv)
  | _ =>
    match self with
    | TAdHoc a ai =>
        match refine with
        | TAdHoc b bi =>
            match var_ix names a with
            | Some i =>
                match bind_ty_vars ai bi names tv with
                | None => None
                | Some (new_inner, tv1) =>
                    match nth i tv1 None with
                    | Some ex =>
                        if negb (String.eqb ex b) && goes_with new_inner bi && negb (ambiguous new_inner bi)
                        then None
                        else Some (TAdHoc ex new_inner, tv1)
                    | None =>
                        match bind_ty_vars ai bi names (set_nth i (Some b) tv1) with
                        | None => None
                        | Some (t, tv2) => Some (TAdHoc b t, tv2)
                        end
                    end
                end
            | None =>
                match bind_ty_vars ai bi names tv with
                | None => None
                | Some (t, tv1) => Some (TAdHoc a t, tv1)
                end
            end
        | _ =>
            match var_ix names a with
            | Some i =>
                match bind_ty_vars ai refine names tv with
                | None => None
                | Some (new_inner, tv1) =>
                    match nth i tv1 None with
                    | Some _ =>
                        if goes_with new_inner refine && negb (ambiguous new_inner refine) then None
                        else bind_ty_vars ai refine names tv1
                    | None => bind_ty_vars ai refine names tv1
                    end
                end
            | None => bind_ty_vars ai refine names tv
            end
        end
    | _ => Some (self, tv)
    end
  end.

(** src/ty.rs:254-265 [Type::insert_var] *)
Fixpoint insert_var (t : ty) (name val : string) : ty :=
  match t with
  | TAdHoc n t => TAdHoc (if String.eqb n name then val else n) (insert_var t name val)
  | _ => t
  end.

(** src/ty.rs:267-276 [Type::insert_none_var] (the name is only passed on, never compared) *)
Fixpoint insert_none_var (t : ty) (name : string) : ty :=
  match t with TAdHoc _ t => insert_none_var t name | _ => t end.

(** one extra signature: type variables, argument types, return type
    (src/prelude.rs:41 [Dfn::ext]; [Kind::Ty] nodes for loaded functions) *)
Record sig := mkSig { svars : list string; sargs : list ty; sret : ty }.

Inductive arg_res := AOk (tv : tyvars) | ANo | AAmb | AErr.

(** the inner loop of src/lifetime/typecheck/refine.rs:70-105 and 147-177 over the zipped
    call arguments and signature arguments *)
Fixpoint match_args (names : list string) (args : list (option ty)) (ps : list ty) (tv : tyvars)
  : arg_res :=
  match args, ps with
  | a :: args, p :: ps =>
      match a with
      | None => AAmb
      | Some a =>
          match bind_ty_vars p a names tv with
          | None => AErr
          | Some (p', tv') =>
              if goes_with p' a then
                if ambiguous p' a then AAmb else match_args names args ps tv'
              else ANo
          end
      end
  | _, _ => AOk tv
  end.

(** refine.rs:115-121 and 180-186: instantiate the return type *)
Fixpoint inst_ret (names : list string) (tv : tyvars) (t : ty) : ty :=
  match names, tv with
  | n :: names, v :: tv =>
      inst_ret names tv (match v with Some val => insert_var t n val | None => insert_none_var t n end)
  | _, _ => t
  end.

(** outcome of the refinement of one call *)
Inductive refined := RFound (t : ty) | RDelay | RMismatch | RVarError | RNothing.

(** refine.rs:48-130 [declaration] and 132-192 [prelude] with [report] (7-46): both loops try the
    signatures in order. [first] tells whether there is no signature at all (count = 0).
    Simplification: a loaded signature always has a return type node. *)
Fixpoint refine_loop (sigs : list sig) (args : list (option ty)) : refined :=
  match sigs with
  | [] => RMismatch
  | s :: rest =>
      match match_args (svars s) args (sargs s) (repeat None (length (svars s))) with
      | AOk tv => RFound (inst_ret (svars s) tv (sret s))
      | ANo => refine_loop rest args
      | AAmb => RDelay
      | AErr => RVarError
      end
  end.
Definition refine (sigs : list sig) (args : list (option ty)) : refined :=
  match sigs with [] => RNothing | _ => refine_loop sigs args end.
