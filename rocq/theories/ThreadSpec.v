(** * What holding a thread's handle means. *)
From Coq Require Import String List ZArith Bool Arith.
From Verif Require Import Float64 Syntax ThreadModel.
Import ListNotations.
Local Open Scope nat_scope.
Local Open Scope list_scope.

(** A handle of thread [t] is in the value, at any depth. For the program text of a closure, where
    only grabbing can put one, [count_c] says how many there are. *)
Inductive has (t : nat) : value -> Prop :=
  | has_here : has t (VThread (Some t))
  | has_array l v : In v l -> has t v -> has t (VArray l)
  | has_object l k v : In (k, v) l -> has t v -> has t (VObject l)
  | has_some v : has t v -> has t (VSome v)
  | has_ok v : has t v -> has t (VOk v)
  | has_err v tr : has t v -> has t (VErr v tr)
  | has_bool b l v : In v l -> has t v -> has t (VBool b (Some l))
  | has_f64 x l v : In v l -> has t v -> has t (VF64 x (Some l))
  | has_closure c md rel : count_c t c <> 0 -> has t (VClosure c md rel).
