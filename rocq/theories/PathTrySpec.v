(** * Paths with [?]: what looking up should do.

    [a.b?.c[i]?]: a mark says that [?] follows the step. [?] goes on with the payload, which replaces
    the wrapped value where it is stored (C18_in_place_refuted says so, and so does this). *)
From Coq Require Import String List ZArith Bool Arith.
From Verif Require Import Float64 Syntax PathSpec ControlSpec.
Import ListNotations.
Local Open Scope nat_scope.
Local Open Scope list_scope.

(** The steps with their marks; the list of marked positions is ascending. *)
Inductive marked : nat -> list step -> list nat -> list (step * bool) -> Prop :=
| Mk_nil : forall n, marked n [] [] []
| Mk_try : forall n k ks ts m, marked (S n) ks ts m -> marked n (k :: ks) (n :: ts) ((k, true) :: m)
| Mk_plain : forall n k ks ts m, (forall t, In t ts -> n < t) -> marked (S n) ks ts m ->
    marked n (k :: ks) ts ((k, false) :: m).

(** One step: a reference found on the way is followed, one at the end is not. *)
Inductive comes_to (stack : list value) : place -> step -> bool -> place -> Prop :=
| Ct_here : forall i p k last v, holds stack (i, p ++ [k]) v -> last = true \/ (forall j, v <> VRef j) ->
    comes_to stack (i, p) k last (i, p ++ [k])
| Ct_ref : forall i p k j, holds stack (i, p ++ [k]) (VRef j) -> comes_to stack (i, p) k false (j, []).
Definition ends {A} (l : list A) : bool := match l with [] => true | _ => false end.

(** The whole path, with the variables afterwards. *)
Inductive walks : list value -> place -> list (step * bool) -> place -> list value -> Prop :=
| Wk_end : forall l q, walks l q [] q l
| Wk_plain : forall l q k ks q1 q2 l', comes_to l q k (ends ks) q1 -> walks l q1 ks q2 l' ->
    walks l q ((k, false) :: ks) q2 l'
| Wk_try : forall l q k ks q1 v y l1 q2 l', comes_to l q k (ends ks) q1 -> holds l q1 v -> try_value v y ->
    stored q1 y l l1 -> walks l1 q1 ks q2 l' -> walks l q ((k, true) :: ks) q2 l'.
(** The path up to a [?] on the value [v], which has no payload. *)
Inductive stops : list value -> place -> list (step * bool) -> value -> list value -> Prop :=
| Sp_here : forall l q k ks q1 v, comes_to l q k (ends ks) q1 -> holds l q1 v -> (forall y, ~ try_value v y) ->
    stops l q ((k, true) :: ks) v l
| Sp_plain : forall l q k ks q1 w l', comes_to l q k (ends ks) q1 -> stops l q1 ks w l' ->
    stops l q ((k, false) :: ks) w l'
| Sp_try : forall l q k ks q1 v y l1 w l', comes_to l q k (ends ks) q1 -> holds l q1 v -> try_value v y ->
    stored q1 y l l1 -> stops l1 q1 ks w l' -> stops l q ((k, true) :: ks) w l'.

(** Objects have distinct keys, inside of options and results too. *)
Fixpoint keyed_in (v : value) : Prop :=
  match v with
  | VArray l => each keyed_in l
  | VObject l => NoDup (map fst l) /\ each (fun kx => match kx with (_, x) => keyed_in x end) l
  | VSome x | VOk x => keyed_in x
  | _ => True
  end.

(** ** Lists of positions: [a[[0, 1]]] is [a[0][1]] *)

(** The number of indices that are computed. *)
Fixpoint computed (ids : list idx) : nat :=
  match ids with [] => 0 | IdExpr _ :: ids => S (computed ids) | _ :: ids => computed ids end.
(** The list in slot [i], or in the slot [lim] it refers to. *)
Definition listed (stack : list value) (i lim : nat) (inds : list value) : Prop :=
  nth_error stack lim = Some (VArray inds) /\ (i = lim \/ nth_error stack i = Some (VRef lim)).
(** The position an element of the list means. *)
Inductive means (stack : list value) (lim : nat) : value -> nat -> Prop :=
| Me_num : forall x sec, means stack lim (VF64 x sec) (position x)
| Me_ref : forall r x sec, r < lim -> nth_error stack r = Some (VF64 x sec) -> means stack lim (VRef r) (position x).

(** ** Adding a key: [a.x?.k := e] *)

(** The path up to an object without the last key, which gets it with [x]; the place is that of the new key. *)
Inductive adds (x : value) : list value -> place -> list (step * bool) -> place -> list value -> Prop :=
| Ad_here : forall l i p o k l', holds l (i, p) (VObject o) -> ~ In k (map fst o) -> stored (i, p) (VObject (o ++ [(k, x)])) l l' ->
    adds x l (i, p) [(SKey k, false)] (i, p ++ [SKey k]) l'
| Ad_plain : forall l q k ks q1 q2 l', comes_to l q k false q1 -> adds x l q1 ks q2 l' -> adds x l q ((k, false) :: ks) q2 l'
| Ad_try : forall l q k ks q1 v y l1 q2 l', comes_to l q k false q1 -> holds l q1 v -> try_value v y -> stored q1 y l l1 ->
    adds x l1 q1 ks q2 l' -> adds x l q ((k, true) :: ks) q2 l'.
