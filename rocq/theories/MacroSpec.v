(** * C71: what it means that a Rust function gets its arguments. *)
From Coq Require Import String List Bool Arith.
From Verif Require Import Syntax InterpModel EmbedModel MacroModel.
Import ListNotations.
Local Open Scope list_scope.

(** The parameters as they are written. *)
Definition parameters (f : arm) : list (string * kind) :=
  match f with
  | AllOf l => l
  | OneAnd a l => a :: map (fun p => (fst p, KPlain (snd p))) l
  | TwoAnd a b l => a :: b :: map (fun p => (fst p, KPlain (snd p))) l
  end.
Definition object_type (k : kind) : option (bool * string) :=
  match k with KPlain _ => None | KRef ty => Some (false, ty) | KMut ty => Some (true, ty) | KCopy ty => Some (false, ty) end.
(** The argument itself, or the variable below the arguments that it refers to *)
Definition stands_for (stk : list value) (v w : value) : Prop :=
  (forall i, v <> VRef i) /\ w = v \/ exists i, v = VRef i /\ nth_error stk i = Some w.
(** An argument gives a parameter what it holds. *)
Inductive gets (stk : list value) (objs : list object) : kind -> value -> bound -> Prop :=
| Gets_value t v w r : stands_for stk v w -> pop_var stk t w = Got r -> gets stk objs (KPlain t) v (BVal r)
| Gets_object k mutable ty v id o : object_type k = Some (mutable, ty) -> stands_for stk v (VRust id) ->
    nth_error objs id = Some o -> tag o = ty -> poisoned o = false -> gets stk objs k v (BObj mutable id (content o)).
(** One after the other: an argument may refer to what lies below it. *)
Inductive gets_all (stk : list value) (objs : list object) : list kind -> list value -> list bound -> Prop :=
| All_none : gets_all stk objs [] [] []
| All_more ks vs bs k v b : gets_all stk objs ks vs bs -> gets (stk ++ vs) objs k v b -> gets_all stk objs (ks ++ [k]) (vs ++ [v]) (bs ++ [b]).
(** The objects among the parameters *)
Fixpoint ids (bs : list bound) : list nat :=
  match bs with [] => [] | BVal _ :: bs => ids bs | BObj _ id _ :: bs => id :: ids bs end.
(** The objects after the call: only the one that was given with `&mut` may have another content. *)
Definition kept (bs : list bound) (before after : list object) : Prop :=
  length before = length after /\
  forall i o o', nth_error before i = Some o -> nth_error after i = Some o' ->
    tag o' = tag o /\ poisoned o' = poisoned o /\ ((forall c, ~ In (BObj true i c) bs) -> o' = o).
