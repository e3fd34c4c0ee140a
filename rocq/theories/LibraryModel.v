(** * The standard library as the interpreter sees it.

    Model of /repo/src/module.rs 792-815 [find_function] for the functions of module.rs 70-772 [Module::new], and of what the
    checkers read of them (prelude.rs 93-146, lifetime/mod.rs). Definitions only. *)
From Coq Require Import String List ZArith Bool Arith.
From Verif Require Import PrintModel Float64 TypeModel LifetimeModel NodesModel Syntax InterpModel StdModel PreludeModel.
Import ListNotations.
Local Open Scope string_scope.
Local Open Scope nat_scope.
Local Open Scope list_scope.

(** module.rs 800-811; a function that is not modelled is void if it has no result *)
Definition callee_of (e : entry) : callee :=
  match e_impl e with
  | IRet _ => match p_lazy (e_decl e) with [] => FRet (e_name e) | _ => FLazy (e_name e) end
  | IBin _ => FBin (e_name e)
  | IUn _ => FUn (e_name e)
  | IVoid _ => FVoid (e_name e)
  | IOther => match p_ret (e_decl e) with TVoid => FVoid (e_name e) | _ => FRet (e_name e) end
  end.
(** 798-799: the last one of a name counts *)
Definition find_entry (l : list entry) (name : string) : option entry :=
  fold_left (fun r e => if (e_name e =? name)%string then Some e else r) l None.

Section Library.
Variables (O : math) (L : libm) (n : nat).
Let lib := std O L n.
(** [ext_prelude] of a new module *)
Definition std_ext : list (string * callee) := map (fun e => (e_name e, callee_of e)) lib.
(** what the lifetime checker is told (lifetime/mod.rs 660-690: the declared lifetimes) *)
Definition std_outside : outside := Outside (fun name => option_map p_lts (find_decl lib name)) (fun _ _ => None).
(** how many arguments a function takes; [other]: of those that are none of the library *)
Definition std_arity (other : string -> nat) (name : string) : nat :=
  match find_decl lib name with Some d => length (p_tys d) | None => other name end.
(** The functions of the library, with those of [E] for the rest and for what is not modelled. *)
Definition library (E : env) : env :=
  Env (e_look E) (e_mods E)
    (fun f s => match find_entry lib f with Some (Entry _ (IVoid g) _) => g s | _ => e_void E f s end)
    (fun f s => match find_entry lib f with Some (Entry _ (IRet g) _) => g s | _ => e_ret E f s end)
    (fun f a b => match find_entry lib f with Some (Entry _ (IBin g) _) => g a b | _ => e_bin E f a b end)
    (fun f a => match find_entry lib f with Some (Entry _ (IUn g) _) => g a | _ => e_un E f a end)
    (fun f => match find_decl lib f with Some d => p_lazy d | None => e_lazy E f end)
    (e_alloc E) (e_frem E) (e_fpow E) (e_grem E) (e_gpow E) (e_matmul E).
End Library.
