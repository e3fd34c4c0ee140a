(** * Rust functions that are called from Dyon.

    Model of the macros [dyon_fn] and [dyon_fn_pop] (src/macros.rs 7-61, 66-341).

    A function is declared with named parameters. A parameter is a plain value of a Rust type, or a Rust object that
    is given as `#&T`, `#&mut T` or `#T` (copied). Rust objects are mutexes on a heap; they have a type and a content,
    which is a number here. The body of the function ([inner]) is any function of what the parameters hold: it
    may panic, gives a result, and changes the content of the parameter with `&mut`. Error texts are left out. *)
From Coq Require Import String List ZArith Bool Arith.
From Verif Require Import Float64 Syntax InterpModel EmbedModel.
Import ListNotations.
Local Open Scope string_scope.
Local Open Scope nat_scope.
Local Open Scope list_scope.

Inductive kind := KPlain (t : rty) | KRef (ty : string) | KMut (ty : string) | KCopy (ty : string).
(** `Arc<Mutex<dyn Any>>`: the type, the content, and whether a thread panicked while it had the lock *)
Record object := { tag : string; content : nat; poisoned : bool }.
(** [held]: the objects that this thread has locked *)
Record machine := { mstk : list value; objs : list object; held : list nat }.
(** What a parameter is bound to: for objects also which one, and whether it may be changed. *)
Inductive bound := BVal (r : rval) | BObj (mutable : bool) (id content : nat).
(** What the body sees *)
Inductive seen := SVal (r : rval) | SObj (content : nat).
Definition sees (b : bound) : seen := match b with BVal r => SVal r | BObj _ _ c => SObj c end.

(** The end of a call: a result, an error, a panic, or a lock that this thread has already.
    The last does not return or panics ([Mutex::lock]). *)
Inductive ending := Returned (v : option value) | Failed | Panicked | Stuck.
Inductive step (A : Type) := Next (a : A) (m : machine) | End (e : ending) (m : machine).
Arguments Next {A}. Arguments End {A}.

Definition with_stk (m : machine) (s : list value) : machine := {| mstk := s; objs := objs m; held := held m |}.
Definition with_held (m : machine) (h : list nat) : machine := {| mstk := mstk m; objs := objs m; held := h |}.
(** macros.rs 12, 19, 26, 33, 40, 47, 54, 58: `$rt.pop()?` *)
Definition pop_plain (t : rty) (m : machine) : step rval :=
  match pop (mstk m) t with
  | (Got r, s) => Next r (with_stk m s)
  | (Wrong, s) => End Failed (with_stk m s)
  | (Crash, s) => End Panicked (with_stk m s)
  end.
(** 12-15, 19-22, 26-29, 33-36, 40-43, 47-50: the guard lives until the function returns, because its name is only shadowed. *)
Definition pop_object (mutable : bool) (ty : string) (m : machine) : step bound :=
  match pop_plain TRust m with
  | End e m => End e m
  | Next (RRust id) m =>
      if existsb (Nat.eqb id) (held m) then End Stuck m else
      match nth_error (objs m) id with
      | None => End Failed m
      | Some o =>
          if poisoned o then End Failed m
          else let m := with_held m (id :: held m) in
               if String.eqb (tag o) ty then Next (BObj mutable id (content o)) m else End Failed m
      end
  | Next _ m => End Failed m
  end.
Definition pop_one (k : kind) (m : machine) : step bound :=
  match k with
  | KPlain t => match pop_plain t m with Next r m => Next (BVal r) m | End e m => End e m end
  | KRef ty => pop_object false ty m
  | KMut ty => pop_object true ty m
  | KCopy ty => pop_object false ty m
  end.
(** The expansion of [dyon_fn_pop] is a list of bindings. Each arm of it (17-23, 31-37, 45-51, 56-59) expands the rest
    of the parameters first. *)
Fixpoint expansion (l : list (string * kind)) : list (string * kind) :=
  match l with
  | [] => []
  | [a] => [a]
  | a :: rest => expansion rest ++ [a]
  end.
(** The arms of [dyon_fn]: all parameters of one sort (68-94, 190-228, 312-340), one object and plain parameters (95-110,
    126-153, 267-311), two objects and plain parameters (111-125, 154-189, 229-266). *)
Inductive arm :=
| AllOf (l : list (string * kind))
| OneAnd (a : string * kind) (l : list (string * rty))
| TwoAnd (a b : string * kind) (l : list (string * rty)).
Definition plain (p : string * rty) : string * kind := (fst p, KPlain (snd p)).
Definition bindings (f : arm) : list (string * kind) :=
  match f with
  | AllOf l => expansion l
  | OneAnd a l => expansion (map plain l) ++ expansion [a]
  | TwoAnd a b l => expansion (map plain l) ++ expansion [b] ++ expansion [a]
  end.
(** The names in the call of [inner]. *)
Definition passed (f : arm) : list string :=
  match f with
  | AllOf l => map fst l
  | OneAnd a l => fst a :: map fst l
  | TwoAnd a b l => fst a :: fst b :: map fst l
  end.

Fixpoint pop_all (l : list (string * kind)) (env : list (string * bound)) (m : machine) : step (list (string * bound)) :=
  match l with
  | [] => Next env m
  | (x, k) :: l => match pop_one k m with Next b m => pop_all l ((x, b) :: env) m | End e m => End e m end
  end.
Fixpoint resolve (names : list string) (env : list (string * bound)) : list bound :=
  match names with
  | [] => []
  | x :: names => match assoc x env with Some b => b :: resolve names env | None => resolve names env end
  end.

Fixpoint change {A} (f : A -> A) (i : nat) (l : list A) : list A :=
  match l, i with
  | [], _ => []
  | x :: l, 0 => f x :: l
  | x :: l, S i => x :: change f i l
  end.
Definition set_content (c : nat) (o : object) : object := {| tag := tag o; content := c; poisoned := poisoned o |}.
Definition poison (o : object) : object := {| tag := tag o; content := content o; poisoned := true |}.
(** The guards are dropped. After a panic, the mutexes they had locked are poisoned. *)
Definition release (before : list nat) (m : machine) : machine := with_held m before.
Definition new_locks (before : list nat) (m : machine) : list nat := firstn (length (held m) - length before) (held m).
Definition unwind (before : list nat) (m : machine) : machine :=
  {| mstk := mstk m; objs := fold_left (fun h i => change poison i h) (new_locks before m) (objs m); held := before |}.

(** What the function is declared to give: nothing (218-340), a value (111-189, 205-217), or a new object `-> # T` (68-110, 190-204). *)
Inductive gives := GNothing | GValue | GObject (ty : string).
(** What the body does: a panic, or the content that the parameter with `&mut` gets and the result *)
Record did := { left_in : nat; result : rval; made : nat }.
Definition body := list seen -> option did.
(** The parameter with `&mut` *)
Fixpoint changed (bs : list bound) : option nat :=
  match bs with [] => None | BObj true id _ :: _ => Some id | _ :: bs => changed bs end.
(** [dyon_fn] *)
Definition call (f : arm) (g : gives) (inner : body) (m : machine) : ending * machine :=
  match pop_all (bindings f) [] m with
  | End e m' => (e, match e with Panicked => unwind (held m) m' | _ => release (held m) m' end)
  | Next env m' =>
      let bs := resolve (passed f) env in
      match inner (map sees bs) with
      | None => (Panicked, unwind (held m) m')
      | Some d =>
          let h := match changed bs with Some id => change (set_content (left_in d)) id (objs m') | None => objs m' end in
          match g with
          | GNothing => (Returned None, {| mstk := mstk m'; objs := h; held := held m |})
          | GValue => (Returned (Some (push_var (result d))), {| mstk := mstk m'; objs := h; held := held m |})
          | GObject ty =>
              (Returned (Some (VRust (length h))),
               {| mstk := mstk m'; objs := h ++ [{| tag := ty; content := made d; poisoned := false |}]; held := held m |})
          end
      end
  end.
