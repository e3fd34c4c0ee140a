(** * Function lookup and loading.

    Model of /repo/src/module.rs (registration, lookup, imports), of the lookups in
    /repo/src/ast/mod.rs ([convert], [UseLookup], the call part of [get_locals]), of
    /repo/src/prelude.rs and of the linking of calls in /repo/src/lifetime/mod.rs. Definitions only.

    Simplifications:
    - the body of a function is reduced to its call sites; a site is a call or an [in] expression,
      which are looked up in the same way (ast/mod.rs 2849-2877, 4647-4671);
    - an external function is named by its position in the list of external functions, where the
      code copies a function pointer;
    - a map from names is an association list, newest insertion first, and the map of maps
      [UseLookup::aliases] is one list whose key is the pair of names;
    - [looked_up] belongs to one function; in the code clones of a function share it;
    - the verdict of the checks after linking is a parameter of [load_str]. *)
From Coq Require Import String Ascii List Bool Arith ZArith.
From Verif Require Import TypeModel.
Import ListNotations.
Local Open Scope string_scope.
Local Open Scope nat_scope.
Local Open Scope list_scope.

(** lib.rs 341-370 [FnIndex] *)
Inductive fn_index :=
| ILoaded (z : Z) | IVoid (j : nat) | IReturn (j : nat) | ILazy (j : nat) | IBinOp (j : nat) | IUnOp (j : nat)
| INone.

(** lib.rs [FnExt], with the flag [lazy != LAZY_NO] of the signature *)
Inductive fn_ext := XVoid | XReturn | XBinOp | XUnOp.
Record external := External { x_ns : list string; x_name : string; x_fn : fn_ext; x_lazy : bool }.

Record site := Site { st_alias : option string; st_name : string; st_index : fn_index }.

(** ast/mod.rs 365-400 [Function]: the fields used here *)
Record function := Function {
  f_ns : list string; f_name : string; f_looked : bool; f_ret : ty; f_sites : list site }.

(** module.rs 5-11 [struct Module] *)
Record module := Mdl { m_funs : list function; m_tr : nat; m_ext : list external }.

(** module.rs 787-789 *)
Definition register (m : module) (f : function) : module := Mdl (m_funs m ++ [f]) (m_tr m) (m_ext m).

(** [iter().enumerate().rev()] *)
Fixpoint enum {A} (i : nat) (l : list A) : list (nat * A) :=
  match l with [] => [] | x :: l => (i, x) :: enum (S i) l end.
Definition back {A} (l : list A) : list (nat * A) := rev (enum 0 l).

(** module.rs 800-812; ast/mod.rs 2859-2866 is the same without the lazy case *)
Definition ext_index (j : nat) (f : external) : fn_index :=
  match x_fn f with
  | XReturn => if x_lazy f then ILazy j else IReturn j
  | XBinOp => IBinOp j
  | XUnOp => IUnOp j
  | XVoid => IVoid j
  end.
Definition ext_index_eager (j : nat) (f : external) : fn_index :=
  match x_fn f with XReturn => IReturn j | XBinOp => IBinOp j | XUnOp => IUnOp j | XVoid => IVoid j end.

(** module.rs 792-815 [find_function] *)
Definition find_function (m : module) (name : string) (relative : nat) : fn_index :=
  match find (fun p => String.eqb (f_name (snd p)) name) (back (m_funs m)) with
  | Some (i, _) => ILoaded (Z.of_nat i - Z.of_nat relative)
  | None =>
      match find (fun p => String.eqb (x_name (snd p)) name) (back (m_ext m)) with
      | Some (j, f) => ext_index j f
      | None => INone
      end
  end.

(** ** Imports by [use] *)

(** ast/mod.rs 66-72 *)
Inductive fn_alias := ALoaded (i : nat) | AExternal (j : nat).

(** ast/mod.rs 310-320: namespace, functions with their new names, alias *)
Record use_import := UseImport { u_names : list string; u_fns : list (string * option string); u_alias : string }.

Definition lookup_map := list ((string * string) * fn_alias).
Definition insert (a k : string) (v : fn_alias) (l : lookup_map) : lookup_map := ((a, k), v) :: l.
Definition lookup (l : lookup_map) (a k : string) : option fn_alias :=
  option_map snd (find (fun p => String.eqb (fst (fst p)) a && String.eqb (snd (fst p)) k) l).

Definition names_eqb (a b : list string) : bool := if list_eq_dec string_dec a b then true else false.

(** ast/mod.rs 143-146, 159-162, 212-215: a name with the mutability of its arguments *)
Definition drop (n : nat) (s : string) : string := substring n (String.length s - n) s.
Definition mut_name_of (f name : string) : bool :=
  (String.length name <? String.length f) && String.prefix name f
    && match String.get (String.length name) f with Some c => Ascii.eqb c "("%char | None => false end.
Definition new_name (u : string * option string) : string :=
  match snd u with Some n => n | None => fst u end.

(** ast/mod.rs 100-117 *)
Definition glob_module (m : module) (u : use_import) (l : lookup_map) : lookup_map :=
  match u_fns u with
  | _ :: _ => l
  | [] =>
      let l := fold_left (fun l p =>
        if names_eqb (f_ns (snd p)) (u_names u)
        then insert (u_alias u) (f_name (snd p)) (ALoaded (fst p)) l else l) (back (m_funs m)) l in
      fold_left (fun l p =>
        if names_eqb (x_ns (snd p)) (u_names u)
        then insert (u_alias u) (x_name (snd p)) (AExternal (fst p)) l else l) (back (m_ext m)) l
  end.

(** ast/mod.rs 128-165; line 163 inserts an external function with mutable arguments under its
    old name, although the new one was computed. *)
Definition specific_fn_module (m : module) (u : use_import) (uf : string * option string) (l : lookup_map) : lookup_map :=
  let l := fold_left (fun l p =>
    if names_eqb (f_ns (snd p)) (u_names u) then
      if String.eqb (f_name (snd p)) (fst uf) then insert (u_alias u) (new_name uf) (ALoaded (fst p)) l
      else if mut_name_of (f_name (snd p)) (fst uf)
      then insert (u_alias u) (new_name uf ++ drop (String.length (fst uf)) (f_name (snd p))) (ALoaded (fst p)) l
      else l
    else l) (back (m_funs m)) l in
  fold_left (fun l p =>
    if names_eqb (x_ns (snd p)) (u_names u) then
      if String.eqb (x_name (snd p)) (fst uf) then insert (u_alias u) (new_name uf) (AExternal (fst p)) l
      else if mut_name_of (x_name (snd p)) (fst uf)
      then insert (u_alias u) (x_name (snd p)) (AExternal (fst p)) l
      else l
    else l) (back (m_ext m)) l.
(** ast/mod.rs 119-127 *)
Definition specific_module (m : module) (u : use_import) (l : lookup_map) : lookup_map :=
  fold_left (fun l uf => specific_fn_module m u uf l) (u_fns u) l.

(** ast/mod.rs 96-169 [from_uses_module] *)
Definition from_uses_module (uses : list use_import) (m : module) : lookup_map :=
  fold_left (fun l u => specific_module m u l) uses (fold_left (fun l u => glob_module m u l) uses []).

(** ** The prelude, used by the checkers *)

(** prelude.rs 94-136: [functions] is a map, where the last insertion of a name wins. *)
Record prelude := Prelude { p_funs : list (string * nat); p_spaces : list (list string * string) }.
Definition prelude_insert (p : prelude) (ns : list string) (name : string) : prelude :=
  Prelude ((name, length (p_spaces p)) :: p_funs p) (p_spaces p ++ [(ns, name)]).
Definition from_module (m : module) : prelude :=
  fold_left (fun p f => prelude_insert p (f_ns f) (f_name f)) (m_funs m)
    (fold_left (fun p f => prelude_insert p (x_ns f) (x_name f)) (m_ext m) (Prelude [] [])).

(** ast/mod.rs 173-222 [from_uses_prelude] *)
Definition glob_prelude (p : prelude) (u : use_import) (l : lookup_map) : lookup_map :=
  match u_fns u with
  | _ :: _ => l
  | [] =>
      fold_left (fun l q =>
        if names_eqb (fst (snd q)) (u_names u)
        then insert (u_alias u) (snd (snd q)) (ALoaded (fst q)) l else l) (back (p_spaces p)) l
  end.
Definition specific_fn_prelude (p : prelude) (u : use_import) (uf : string * option string) (l : lookup_map) : lookup_map :=
  fold_left (fun l q =>
    if names_eqb (fst (snd q)) (u_names u) then
      if String.eqb (snd (snd q)) (fst uf) then insert (u_alias u) (new_name uf) (ALoaded (fst q)) l
      else if mut_name_of (snd (snd q)) (fst uf)
      then insert (u_alias u) (new_name uf ++ drop (String.length (fst uf)) (snd (snd q))) (ALoaded (fst q)) l
      else l
    else l) (back (p_spaces p)) l.
Definition specific_prelude (p : prelude) (u : use_import) (l : lookup_map) : lookup_map :=
  fold_left (fun l uf => specific_fn_prelude p u uf l) (u_fns u) l.
Definition from_uses_prelude (uses : list use_import) (p : prelude) : lookup_map :=
  fold_left (fun l u => specific_prelude p u l) uses (fold_left (fun l u => glob_prelude p u l) uses []).

(** lifetime/mod.rs 652-710: a call is linked to a function of the same file, by position, or to a
    function of the prelude. [names] are the functions of the file (602-612: no duplicates). *)
Inductive linked := LOwn (i : nat) | LPrelude (i : nat) | LMissing.
Definition index_of (name : string) (names : list string) : option nat :=
  option_map fst (find (fun p => String.eqb (snd p) name) (enum 0 names)).
Definition link_call (names : list string) (p : prelude) (uses : list use_import)
    (alias : option string) (name : string) : linked :=
  match alias with
  | Some a =>
      match lookup (from_uses_prelude uses p) a name with
      | Some (ALoaded i) => LPrelude i
      | _ => LMissing
      end
  | None =>
      match index_of name names with
      | Some i => LOwn i
      | None =>
          match find (fun q => String.eqb (fst q) name) (p_funs p) with
          | Some (_, i) => LPrelude i
          | None => LMissing
          end
      end
  end.
(** lifetime/mod.rs 602-612 *)
Fixpoint distinct (names : list string) : bool :=
  match names with
  | [] => true
  | n :: names => negb (existsb (String.eqb n) names) && distinct names
  end.

(** ** Loading *)

(** ast/mod.rs 2849-2877 (calls), 4647-4671 ([in]) *)
Definition resolve (m : module) (l : lookup_map) (relative : nat) (alias : option string) (name : string) : fn_index :=
  match alias with
  | Some a =>
      match lookup l a name with
      | Some (ALoaded i) => ILoaded (Z.of_nat i - Z.of_nat relative)
      | Some (AExternal j) =>
          match nth_error (m_ext m) j with
          | Some f => ext_index_eager j f
          | None => INone
          end
      | None => INone
      end
  | None => find_function m name relative
  end.
(** ast/mod.rs 519-540 [Function::get_locals] *)
Definition get_locals (m : module) (l : lookup_map) (relative : nat) (f : function) : function :=
  if f_looked f then f else
  Function (f_ns f) (f_name f) true (f_ret f)
    (map (fun s => Site (st_alias s) (st_name s) (resolve m l relative (st_alias s) (st_name s))) (f_sites f)).

(** A source file: namespace, imports, functions with the names used at their call sites. *)
Record source_fn := SourceFn { sf_name : string; sf_ret : ty; sf_sites : list (option string * string) }.
Record source := Source { s_ns : list string; s_uses : list use_import; s_fns : list source_fn }.

Definition parsed (ns : list string) (f : source_fn) : function :=
  Function ns (sf_name f) false (sf_ret f) (map (fun c => Site (fst c) (snd c) INone) (sf_sites f)).
(** ast/mod.rs 21-62 [convert] *)
Definition convert (src : source) (m : module) : module :=
  let l := from_uses_module (s_uses src) m in
  let m := fold_left register (map (parsed (s_ns src)) (s_fns src)) m in
  Mdl (map (fun p => get_locals m l (fst p) (snd p)) (enum 0 (m_funs m))) (m_tr m) (m_ext m).

(** lib.rs 673-682: refined return types *)
Fixpoint set_ret (i : nat) (t : ty) (l : list function) : list function :=
  match l, i with
  | [], _ => []
  | f :: l, O => Function (f_ns f) (f_name f) (f_looked f) t (f_sites f) :: l
  | f :: l, S i => f :: set_ret i t l
  end.
Definition refine_ret (m : module) (r : string * ty) : module :=
  match find_function m (fst r) 0 with
  | ILoaded z => Mdl (set_ret (Z.to_nat z) (snd r) (m_funs m)) (m_tr m) (m_ext m)
  | _ => m
  end.

(** lib.rs 613-700 [load_str]: the result of the checkers is [None] or the refined return types;
    the functions stay registered when the checkers reject the file. *)
Definition links (src : source) (p : prelude) : bool :=
  distinct (map sf_name (s_fns src)) &&
  forallb (fun f => forallb (fun c =>
    match link_call (map sf_name (s_fns src)) p (s_uses src) (fst c) (snd c) with LMissing => false | _ => true end)
    (sf_sites f)) (s_fns src).
Definition load_str (src : source) (rest : option (list (string * ty))) (m : module) : bool * module :=
  let m' := convert src m in
  if links src (from_module m) then
    match rest with
    | Some rets => (true, fold_left refine_ret rets m')
    | None => (false, m')
    end
  else (false, m').

(** ** Imports of modules *)

(** module.rs 31-35 *)
Definition import_ext_prelude (m other : module) : module := Mdl (m_funs m) (m_tr m) (m_ext m ++ m_ext other).
(** module.rs 38-44 *)
Definition import_tr_prelude (m other : module) : module :=
  let fs := m_funs m ++ firstn (m_tr other) (m_funs other) in Mdl fs (length fs) (m_ext m).
(** module.rs 47-49 *)
Definition make_transitive (m : module) : module := Mdl (m_funs m) (length (m_funs m)) (m_ext m).
(** module.rs 52-67 *)
Definition import (m other : module) : module :=
  let ext := fold_left (fun l f =>
    if existsb (fun a => String.eqb (x_name a) (x_name f) && names_eqb (x_ns a) (x_ns f)) l
    then l else l ++ [f]) (m_ext other) (m_ext m) in
  Mdl (m_funs m ++ m_funs other) (m_tr m) ext.

(** ** Run time *)

(** The function that the index of a site means for a caller at position [relative]
    (runtime/mod.rs 1468-1473, 689-690); [None]: "unknown function". *)
Inductive meaning := MLoaded (i : Z) | MExternal (j : nat).
Definition meant (relative : nat) (ix : fn_index) : option meaning :=
  match ix with
  | ILoaded z => Some (MLoaded (z + Z.of_nat relative))
  | IVoid j | IReturn j | ILazy j | IBinOp j | IUnOp j => Some (MExternal j)
  | INone => None
  end.
(** runtime/mod.rs 963-966 [go]: looked up by plain name at run time *)
Definition go_index (m : module) (relative : nat) (s : site) : fn_index := find_function m (st_name s) relative.
