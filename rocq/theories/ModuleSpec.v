(** * Specification for function lookup. *)
From Coq Require Import String List Bool Arith ZArith.
From Verif Require Import TypeModel ModuleModel.
Import ListNotations.
Local Open Scope string_scope.
Local Open Scope nat_scope.
Local Open Scope list_scope.

(** [i] is the position of the last element with that name. *)
Definition last_named {A} (nm : A -> string) (name : string) (l : list A) (i : nat) : Prop :=
  (exists x, nth_error l i = Some x /\ nm x = name) /\
  forall j y, i < j -> nth_error l j = Some y -> nm y <> name.
Definition none_named {A} (nm : A -> string) (name : string) (l : list A) : Prop :=
  forall j y, nth_error l j = Some y -> nm y <> name.

(** What a plain name means. *)
Definition plain_means (m : module) (name : string) (r : option meaning) : Prop :=
  match r with
  | Some (MLoaded z) => exists i, z = Z.of_nat i /\ last_named f_name name (m_funs m) i
  | Some (MExternal j) => none_named f_name name (m_funs m) /\ last_named x_name name (m_ext m) j
  | None => none_named f_name name (m_funs m) /\ none_named x_name name (m_ext m)
  end.

(** How an external function is called. *)
Inductive way := ByVoid | ByReturn | ByLazy | ByBinOp | ByUnOp.
Definition way_of (f : external) : way :=
  match x_fn f with
  | XVoid => ByVoid | XReturn => if x_lazy f then ByLazy else ByReturn | XBinOp => ByBinOp | XUnOp => ByUnOp
  end.
Definition way_used (ix : fn_index) : option way :=
  match ix with
  | IVoid _ => Some ByVoid | IReturn _ => Some ByReturn | ILazy _ => Some ByLazy
  | IBinOp _ => Some ByBinOp | IUnOp _ => Some ByUnOp | _ => None
  end.

(** What the checkers mean, when a file is loaded into module [m]. *)
Definition checked_as (m : module) (l : linked) : option meaning :=
  match l with
  | LOwn i => Some (MLoaded (Z.of_nat (length (m_funs m) + i)))
  | LPrelude i =>
      if i <? length (m_ext m) then Some (MExternal i)
      else Some (MLoaded (Z.of_nat (i - length (m_ext m))))
  | LMissing => None
  end.

(** An import that gives a new name to an external function with mutable arguments. *)
Definition renames_mut_external (m : module) (uses : list use_import) : Prop :=
  exists u n new f, In u uses /\ In (n, Some new) (u_fns u) /\ new <> n /\
    In f (m_ext m) /\ x_ns f = u_names u /\ mut_name_of (x_name f) n = true.

(** The functions that an import makes known as [alias::key]. *)
Definition imports (u : use_import) (ns : list string) (name alias key : string) : Prop :=
  u_alias u = alias /\ u_names u = ns /\
  match u_fns u with
  | [] => key = name
  | _ => exists n new, In (n, new) (u_fns u) /\
           let n' := match new with Some n' => n' | None => n end in
           (name = n /\ key = n') \/ (exists args, name = (n ++ "(" ++ args)%string /\ key = (n' ++ "(" ++ args)%string)
  end.
Definition place (m : module) (v : fn_alias) : option (list string * string) :=
  match v with
  | ALoaded i => option_map (fun f => (f_ns f, f_name f)) (nth_error (m_funs m) i)
  | AExternal j => option_map (fun f => (x_ns f, x_name f)) (nth_error (m_ext m) j)
  end.

(** All functions have been looked up; calls lead to functions of the module; the transitive part
    does not call the rest. *)
Definition linked_module (m : module) : Prop :=
  m_tr m <= length (m_funs m) /\
  forall i f, nth_error (m_funs m) i = Some f ->
    f_looked f = true /\
    forall s z, In s (f_sites f) -> st_index s = ILoaded z ->
      (0 <= z + Z.of_nat i < Z.of_nat (length (m_funs m)))%Z /\
      (i < m_tr m -> (z + Z.of_nat i < Z.of_nat (m_tr m))%Z).

(** Refined return types come from the functions of the file (lifetime/mod.rs 1147-1152). *)
Definition own_rets (src : source) (rest : option (list (string * ty))) : Prop :=
  forall rets, rest = Some rets -> forall n t, In (n, t) rets -> In n (map sf_name (s_fns src)).

(** What can be done to a module. *)
Inductive grows : module -> module -> Prop :=
| G_same m : grows m m
| G_load src rest m m' : own_rets src rest -> grows m m' -> grows m (snd (load_str src rest m'))
| G_import other m m' : linked_module other -> grows m m' -> grows m (import m' other)
| G_import_tr other m m' : linked_module other -> grows m m' -> grows m (import_tr_prelude m' other)
| G_import_ext other m m' : grows m m' -> grows m (import_ext_prelude m' other)
| G_transitive m m' : grows m m' -> grows m (make_transitive m').
