(** * What copying, looking up and assigning should do. *)
From Coq Require Import String List ZArith Bool Arith.
From Verif Require Import Float64 Syntax.
Import ListNotations.
Local Open Scope nat_scope.
Local Open Scope list_scope.

Definition each {A} (f : A -> Prop) : list A -> Prop :=
  fix go l := match l with [] => True | x :: l => f x /\ go l end.

(** ** References in values

    No reference to a stack slot anywhere in the value, secrets included. A closure refers to
    variables by name only. *)
Fixpoint no_refs (v : value) : Prop :=
  match v with
  | VRef _ | VUnsafeRef _ _ => False
  | VBool _ (Some l) | VF64 _ (Some l) => each no_refs l
  | VArray l => each no_refs l
  | VObject l => each (fun kx => match kx with (_, x) => no_refs x end) l
  | VSome x | VOk x | VErr x _ => no_refs x
  | _ => True
  end.

(** References only directly inside arrays and objects: "[some(x)] always uses deep clone, so it does
    not contain references" (lib.rs 307-312). *)
Fixpoint sealed (v : value) : Prop :=
  match v with
  | VRef _ => True
  | VArray l => each sealed l
  | VObject l => each (fun kx => match kx with (_, x) => sealed x end) l
  | v => no_refs v
  end.

(** [w] is [v] with every reference replaced by what it refers to. *)
Section Resolve.
Context (stack : list value).
Definition plain_leaf (v : value) : Prop :=
  match v with
  | VRef _ | VUnsafeRef _ _ | VArray _ | VObject _ | VSome _ | VOk _ | VErr _ _ => False
  | VBool _ (Some _) | VF64 _ (Some _) => False
  | _ => True
  end.
Inductive resolves : value -> value -> Prop :=
| Rs_ref : forall i v w, nth_error stack i = Some v -> resolves v w -> resolves (VRef i) w
| Rs_array : forall l l', Forall2 resolves l l' -> resolves (VArray l) (VArray l')
| Rs_object : forall l l', Forall2 (fun a b => fst a = fst b /\ resolves (snd a) (snd b)) l l' ->
    resolves (VObject l) (VObject l')
| Rs_some : forall x y, resolves x y -> resolves (VSome x) (VSome y)
| Rs_ok : forall x y, resolves x y -> resolves (VOk x) (VOk y)
| Rs_err : forall x y t, resolves x y -> resolves (VErr x t) (VErr y t)
| Rs_bool : forall b l l', Forall2 resolves l l' -> resolves (VBool b (Some l)) (VBool b (Some l'))
| Rs_f64 : forall x l l', Forall2 resolves l l' -> resolves (VF64 x (Some l)) (VF64 x (Some l'))
| Rs_leaf : forall v, plain_leaf v -> resolves v v.
End Resolve.

(** ** Places

    A place is a variable and the steps into the value stored there. *)
Definition place := (nat * list step)%type.

(** The value at the end of a path. *)
Inductive inside : value -> list step -> value -> Prop :=
| In_here : forall v, inside v [] v
| In_key : forall l k x p y, NoDup (map fst l) -> In (k, x) l -> inside x p y -> inside (VObject l) (SKey k :: p) y
| In_idx : forall l i x p y, nth_error l i = Some x -> inside x p y -> inside (VArray l) (SIdx i :: p) y.
Definition holds (stack : list value) (q : place) (v : value) : Prop :=
  exists r, nth_error stack (fst q) = Some r /\ inside r (snd q) v.

(** Objects have distinct keys. *)
Fixpoint keyed (v : value) : Prop :=
  match v with
  | VArray l => each keyed l
  | VObject l => NoDup (map fst l) /\ each (fun kx => match kx with (_, x) => keyed x end) l
  | _ => True
  end.
(** References directly inside arrays and objects refer to existing slots. *)
Fixpoint refs_below (n : nat) (v : value) : Prop :=
  match v with
  | VRef i => i < n
  | VArray l => each (refs_below n) l
  | VObject l => each (fun kx => match kx with (_, x) => refs_below n x end) l
  | _ => True
  end.

(** The position a number means. *)
Definition position (x : f64) : nat := Z.to_nat (f64_to_usize x).
(** The steps given by constant and computed indices; the values of the computed ones are in the
    slots from [i] on, possibly as references. *)
Definition found (stack : list value) (i : nat) (v : value) : Prop :=
  (nth_error stack i = Some v /\ forall r, v <> VRef r) \/
  (exists r, nth_error stack i = Some (VRef r) /\ nth_error stack r = Some v).
Inductive names (stack : list value) : nat -> list idx -> list step -> Prop :=
| Nm_nil : forall i, names stack i [] []
| Nm_str : forall i k ids ks, names stack i ids ks -> names stack i (IdStr k :: ids) (SKey k :: ks)
| Nm_num : forall i x ids ks, names stack i ids ks -> names stack i (IdF64 x :: ids) (SIdx (position x) :: ks)
| Nm_computed_str : forall i e k ids ks, found stack i (VStr k) -> names stack (S i) ids ks ->
    names stack i (IdExpr e :: ids) (SKey k :: ks)
| Nm_computed_num : forall i e x sec ids ks, found stack i (VF64 x sec) -> names stack (S i) ids ks ->
    names stack i (IdExpr e :: ids) (SIdx (position x) :: ks).

(** Following names and positions from a place; references on the way are followed, one at the end
    is not. *)
Inductive leads (stack : list value) : place -> list step -> place -> Prop :=
| Ld_last : forall i p k v, holds stack (i, p ++ [k]) v -> leads stack (i, p) [k] (i, p ++ [k])
| Ld_on : forall i p k v ks q, ks <> [] -> holds stack (i, p ++ [k]) v -> (forall j, v <> VRef j) ->
    leads stack (i, p ++ [k]) ks q -> leads stack (i, p) (k :: ks) q
| Ld_ref : forall i p k j ks q, ks <> [] -> holds stack (i, p ++ [k]) (VRef j) ->
    leads stack (j, []) ks q -> leads stack (i, p) (k :: ks) q.

(** [v'] is [v] with [y] at [p]: everything at a place that is neither above nor below is as before. *)
Definition prefix (p q : list step) : Prop := exists r, q = p ++ r.
Definition changed (v : value) (p : list step) (y v' : value) : Prop :=
  (forall q x, ~ prefix p q -> ~ prefix q p -> (inside v' q x <-> inside v q x)) /\
  (forall q x, inside v' (p ++ q) x <-> inside y q x).
(** The variables of the program after storing [y] at [q]. *)
Definition stored (q : place) (y : value) (stack stack' : list value) : Prop :=
  length stack' = length stack /\
  (forall j, j <> fst q -> nth_error stack' j = nth_error stack j) /\
  exists v v', nth_error stack (fst q) = Some v /\ nth_error stack' (fst q) = Some v' /\ changed v (snd q) y v'.

(** Following names and positions, references followed at the end too. *)
Inductive arrives (stack : list value) : place -> list step -> place -> Prop :=
| Ar_here : forall q, arrives stack q [] q
| Ar_on : forall i p k v ks q, holds stack (i, p ++ [k]) v -> (forall j, v <> VRef j) ->
    arrives stack (i, p ++ [k]) ks q -> arrives stack (i, p) (k :: ks) q
| Ar_ref : forall i p k j ks q, holds stack (i, p ++ [k]) (VRef j) ->
    arrives stack (j, []) ks q -> arrives stack (i, p) (k :: ks) q.

(** No reference at any place of the value. *)
Definition own (v : value) : Prop := forall p j, ~ inside v p (VRef j).
(** Changes made through the variable in slot [x]. *)
Inductive writes (x : nat) : list value -> list value -> Prop :=
| Wr_none : forall l, writes x l l
| Wr_var : forall l y l1 l2, stored (x, []) y l l1 -> own y -> writes x l1 l2 -> writes x l l2
| Wr_path : forall l ks q y l1 l2, leads l (x, []) ks q -> stored q y l l1 -> own y -> writes x l1 l2 -> writes x l l2
| Wr_key : forall l ks q o k y l1 l2, arrives l (x, []) ks q -> holds l q (VObject o) -> ~ In k (map fst o) ->
    stored q (VObject (o ++ [(k, y)])) l l1 -> own y -> writes x l1 l2 -> writes x l l2.
