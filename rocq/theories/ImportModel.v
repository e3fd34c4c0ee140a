(** * Modules that import others.

    Model of /repo/src/module.rs 19-67 ([empty], [import_ext_prelude], [import_tr_prelude], [make_transitive], [import]) and of
    ast/mod.rs 21-62 [convert] for a module that already has functions, and of prelude.rs 118-141 [from_module] for what the
    checkers are told. Definitions only.

    Simplifications:
    - namespaces are left out: external functions with the same name are the same ([import] compares name and namespace);
    - the declared lifetimes of a loaded function ([Dfn::new], prelude.rs) and of external functions are parameters;
    - functions whose calls were looked up before ([looked_up]) are left as they are. *)
From Coq Require Import String List ZArith Bool Arith.
From Verif Require Import Float64 TypeModel LifetimeModel NodesModel Syntax AstModel LoadModel InterpModel.
Import ListNotations.
Local Open Scope string_scope.
Local Open Scope nat_scope.
Local Open Scope list_scope.

(** module.rs 4-11; [dm_tr]: [transitive_functions_len] *)
Record dmod := DMod { dm_modl : modl; dm_tr : nat }.
Definition dm_funs (m : dmod) : list func := m_funs (dm_modl m).
Definition dm_ext (m : dmod) : list (string * callee) := m_ext (dm_modl m).
(** 21-28 *)
Definition empty_module : dmod := DMod (Modl [] []) 0.
(** 31-35 *)
Definition import_ext_prelude (m other : dmod) : dmod := DMod (Modl (dm_funs m) (dm_ext m ++ dm_ext other)) (dm_tr m).
(** 38-44 *)
Definition import_tr_prelude (m other : dmod) : dmod :=
  let fs := dm_funs m ++ firstn (dm_tr other) (dm_funs other) in DMod (Modl fs (dm_ext m)) (length fs).
(** 47-49 *)
Definition make_transitive (m : dmod) : dmod := DMod (dm_modl m) (length (dm_funs m)).
(** 54-62 *)
Fixpoint add_external (l : list (string * callee)) (new : list (string * callee)) : list (string * callee) :=
  match new with
  | [] => l
  | f :: new => add_external (if existsb (fun a => String.eqb (fst a) (fst f)) l then l else l ++ [f]) new
  end.
(** 52-67 *)
Definition import (m other : dmod) : dmod :=
  DMod (Modl (dm_funs m ++ dm_funs other) (add_external (dm_ext m) (dm_ext other))) (dm_tr m).
(** ast/mod.rs 39-62: the new functions are registered, then their calls are looked up *)
Definition load_into (m : dmod) (f : file) : dmod :=
  let new := map registered (d_fns f) in
  DMod (Modl (dm_funs m ++ with_calls_from (Modl (dm_funs m ++ new) (dm_ext m)) (length (dm_funs m)) new) (dm_ext m)) (dm_tr m).
(** prelude.rs 118-141: later functions of a name replace earlier ones, loaded ones replace external ones *)
Definition from_module (ext_lts : string -> option (list lt)) (lts : func -> list lt) (m : dmod) : outside :=
  Outside (fun x => match find_last x 0 (dm_funs m) None with
                    | Some k => option_map lts (nth_error (dm_funs m) k)
                    | None => if existsb (fun a => String.eqb (fst a) x) (dm_ext m) then ext_lts x else None
                    end) (fun _ _ => None).
(** a program of such modules *)
Definition with_modules (E : env) (ms : list dmod) : env :=
  Env (e_look E) (map dm_modl ms) (e_void E) (e_ret E) (e_bin E) (e_un E) (e_lazy E) (e_alloc E) (e_frem E) (e_fpow E) (e_grem E) (e_gpow E) (e_matmul E).
