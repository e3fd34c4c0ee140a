(** * Small programs used in examples and counterexamples. *)
From Coq Require Import String List ZArith Bool Arith.
From Verif Require Import Float64 Syntax InterpModel.
Import ListNotations.
Local Open Scope string_scope.
Local Open Scope nat_scope.
Local Open Scope list_scope.

Definition bin_ (f : string) (a b : value) : pres :=
  match a, b with
  | VF64 x _, VF64 y _ =>
      if String.eqb f "add" then POk (vf64 (fadd x y))
      else if String.eqb f "less" then POk (vbool (flt x y)) else PErr "type"
  | _, _ => PErr "type"
  end.
Definition num (z : Z) : expr := EVar (vf64 (f_of_Z z)).
Definition loc (x : string) (sid : nat) : expr := EItem (Item x (Some sid) false false [] []).
Definition decl (x : string) (current : bool) (e : expr) : expr :=
  EAssign OpAssign (EItem (Item x None current false [] [])) e.
Definition add_ (a b : expr) : expr := ECall (FBin "add") "add" [a; b].
Definition less_ (a b : expr) : expr := ECall (FBin "less") "less" [a; b].

(** The invariants of the standard library (lib.rs 82-88). *)
Definition lazy_ (f : string) : list (list lazy) :=
  if String.eqb f "and_also" then [[LzVar (vbool false)]]
  else if String.eqb f "or_else" then [[LzVar (vbool true)]]
  else if String.eqb f "unwrap_or" then [[LzOk; LzSome]] else [].
Definition env_ (fs : list func) : env :=
  Env BySlot [Modl fs []] (fun _ _ => Panic "no externals") (fun _ => pop) bin_ (fun _ _ => PErr "none")
    lazy_ (fun _ => true) (fun a _ => a) (fun a _ => a) (fun a _ => a) (fun a _ => a) (fun a _ => a).
Definition arity_ (f : string) : nat := 1.
Definition s0 : rt := RT 0 [] [] [] [] (World [] [] []).
Definition out_val (o : outcome value) : option value := match o with Ok v _ => Some v | _ => None end.
