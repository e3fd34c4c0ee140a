(** * Constant folding.

    Model of [precompute] (src/ast/mod.rs 1447-1459, 1739-1751, 1817-1827, 1930-1940, 2017-2026,
    3616-3630) and of where it is used for expressions: `grab` (1377-1383). [alloc n] is whether a vector
    of [n] values can be allocated; otherwise Rust panics while loading. *)
From Coq Require Import String List ZArith Bool Arith.
From Verif Require Import Float64 Syntax InterpModel EmbedModel.
Import ListNotations.
Local Open Scope string_scope.
Local Open Scope nat_scope.
Local Open Scope list_scope.

(** Folded, left alone, or a panic. *)
Inductive folded (A : Type) := FSome (a : A) | FNone_ | FCrash.
Arguments FSome {A}. Arguments FNone_ {A}. Arguments FCrash {A}.
Definition fbind {A B} (x : folded A) (f : A -> folded B) : folded B :=
  match x with FSome a => f a | FNone_ => FNone_ | FCrash => FCrash end.
Definition foldr {A} (f : expr -> folded value) (step : A -> value -> folded A) : list expr -> A -> folded A :=
  fix go l acc :=
    match l with
    | [] => FSome acc
    | e :: l => fbind (f e) (fun v => fbind (step acc v) (fun acc => go l acc))
    end.
Definition foldkv (f : expr -> folded value) : list (string * expr) -> list (string * value) -> folded (list (string * value)) :=
  fix go l acc :=
    match l with
    | [] => FSome acc
    | (k, e) :: l => fbind (f e) (fun v => go l (insert k v acc))
    end.
(** 3616-3630: only numbers; missing components are 0 *)
Definition component_of (v : value) : folded f32 := match v with VF64 x _ => FSome (f32_of_f64 x) | _ => FNone_ end.
Definition fold4 (f : expr -> folded value) : nat -> list expr -> list f32 -> folded (list f32) :=
  fix go k l acc {struct l} :=
    match l, k with
    | [], _ | _, O => FSome acc
    | e :: l, S k => fbind (f e) (fun v => fbind (component_of v) (fun x => go k l (acc ++ [x])))
    end.
Fixpoint precompute (alloc : Z -> bool) (e : expr) : folded value :=
  match e with
  | EVar v => FSome v
  | EArrayFill (EVar x) (EVar (VF64 n _)) =>
      if alloc (f64_to_usize n) then FSome (VArray (repeat x (Z.to_nat (f64_to_usize n)))) else FCrash
  | EArray l => fbind (foldr (precompute alloc) (fun acc v => FSome (acc ++ [v])) l []) (fun l => FSome (VArray l))
  | EObject l => fbind (foldkv (precompute alloc) l []) (fun l => FSome (VObject l))
  | EVec4 l =>
      fbind (fold4 (precompute alloc) 4 l [])
            (fun l => FSome (VVec4 (V4 (nth 0 l g0) (nth 1 l g0) (nth 2 l g0) (nth 3 l g0))))
  | ELink l =>
      fbind (foldr (precompute alloc) (fun acc v => match link_push acc v with Some acc => FSome acc | None => FNone_ end) l [])
            (fun l => FSome (VLink l))
  | _ => FNone_
  end.
(** 1377-1383: a grab of a constant is the constant *)
Definition make_grab (alloc : Z -> bool) (level : nat) (e : expr) : folded expr :=
  match precompute alloc e with FSome v => FSome (EVar v) | FNone_ => FSome (EGrab level e) | FCrash => FCrash end.
