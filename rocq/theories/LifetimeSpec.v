(** * What lifetimes mean, independently of how the checker computes them. *)
From Coq Require Import String List Bool Arith.
From Verif Require Import Syntax LifetimeModel.
Import ListNotations.
Local Open Scope string_scope.
Local Open Scope nat_scope.
Local Open Scope list_scope.

(** The verdict of the checker that [a] outlives [b]. *)
Definition outlives (a b : lifetime) : Prop := partial_cmp a b = Some Gt.

(** The argument names belong to the function that is the parent of the argument. *)
Definition proper (nodes : list node) (m : arg_names) : Prop :=
  forall f x c j, arg_get m f x = Some (c, j) -> exists n, nth_error nodes c = Some n /\ n_parent n = Some f.

(** The lifetimes the checker gives to variables: locals, current objects, the return value, and
    arguments. *)
Inductive lifetime_of (nodes : list node) (m : arg_names) : lifetime -> Prop :=
| lo_local i : lifetime_of nodes m (Local i)
| lo_current i : lifetime_of nodes m (Current i)
| lo_return : lifetime_of nodes m (Return [])
| lo_arg fuel d n l : nth_error nodes d = Some n -> arg_lifetime fuel d n nodes m = LOk l -> lifetime_of nodes m l.

(** ** Signatures: a name and perhaps a lifetime for each argument. *)

Definition sig := list (string * option string).

(** Argument [j] is declared to outlive argument [k]. *)
Definition declared (s : sig) (j k : nat) : Prop :=
  exists x l y, nth_error s j = Some (x, Some l) /\ l <> "return" /\ nth_error s k = Some (l, y).

(** What the declarations together say. *)
Inductive declared_plus (s : sig) : nat -> nat -> Prop :=
| dp_one j k : declared s j k -> declared_plus s j k
| dp_more i j k : declared s i j -> declared_plus s j k -> declared_plus s i k.

(** The declarations lead from [j] back to [j]. *)
Definition on_cycle (s : sig) (j : nat) : Prop := declared_plus s j j.
(** ... or from [j] to such an argument. *)
Definition reaches_cycle (s : sig) (j : nat) : Prop := on_cycle s j \/ exists k, declared_plus s j k /\ on_cycle s k.

(** Names are unique and every lifetime but ['return] names an argument. *)
Definition good_names (s : sig) : Prop := NoDup (map fst s).
Definition good_lifetimes (s : sig) : Prop :=
  forall j x l, nth_error s j = Some (x, Some l) -> l <> "return" -> In l (map fst s).

(** The nodes [args] are the arguments of the function node [f], in order, with signature [s]. *)
Definition has_sig (nodes : list node) (f : nat) (args : list nat) (s : sig) : Prop :=
  Forall2 (fun c a => exists n, nth_error nodes c = Some n /\ n_kind n = K_Arg /\ n_parent n = Some f /\
             n_name n = Some (fst a) /\ n_lifetime n = snd a) args s.

(** The function [f] of the module has the arguments [args] with signature [s]. *)
Definition fn_sig (nodes : list node) (f : nat) (args : list nat) (s : sig) : Prop :=
  exists fn, nth_error nodes f = Some fn /\ arg_children nodes fn = args /\ has_sig nodes f args s.

(** ** References at run time *)

(** [VRef r] occurs in the value through arrays and objects. *)
Inductive holds : value -> nat -> Prop :=
| holds_ref r : holds (VRef r) r
| holds_array l v r : In v l -> holds v r -> holds (VArray l) r
| holds_object l k v r : In (k, v) l -> holds v r -> holds (VObject l) r.

(** ... and through options, results and secrets too. *)
Inductive holds_any : value -> nat -> Prop :=
| any_ref r : holds_any (VRef r) r
| any_array l v r : In v l -> holds_any v r -> holds_any (VArray l) r
| any_object l k v r : In (k, v) l -> holds_any v r -> holds_any (VObject l) r
| any_some v r : holds_any v r -> holds_any (VSome v) r
| any_ok v r : holds_any v r -> holds_any (VOk v) r
| any_err v t r : holds_any v r -> holds_any (VErr v t) r
| any_bool b l v r : In v l -> holds_any v r -> holds_any (VBool b (Some l)) r
| any_f64 x l v r : In v l -> holds_any v r -> holds_any (VF64 x (Some l)) r.

(** Every argument with a lifetime is a reference that lives longer (has a lower slot) than every
    reference [H] finds in the argument it must outlive. *)
Definition args_outlive (H : value -> nat -> Prop) (s : sig) (args : list value) : Prop :=
  forall i x l, nth_error s i = Some (x, Some l) ->
    exists r, nth_error args i = Some (VRef r) /\
      (l <> "return" -> exists k y v, nth_error s k = Some (l, y) /\ nth_error args k = Some v /\
         forall q, H v q -> r < q).
