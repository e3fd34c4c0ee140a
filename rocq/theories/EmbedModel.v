(** * Values between Rust and Dyon.

    Model of src/embed.rs, src/vec4.rs and src/mat4.rs (PopVariable, PushVariable, ConvertVec4), of the macro
    [dyon_obj] (src/macros.rs 346-380) and of [push], [pop], [var], [current_object]
    (src/runtime/mod.rs 387-478).

    The Rust types are described by [rty], their values by [rval]. Left out: error messages, and
    Rust's type [Variable] itself (its [pop_var] is [deep_clone]). [String], [Arc<String>] and [str] are
    the same here. *)
From Coq Require Import String List ZArith Bool Arith.
From Verif Require Import Float64 Syntax InterpModel.
Import ListNotations.
Local Open Scope string_scope.
Local Open Scope nat_scope.
Local Open Scope list_scope.

Inductive rty :=
| TBool | TStr | TU32 | TUsize | TF32 | TF64
| TRust | TVec4 | TMat4
| TOption (t : rty)
| TResult (t u : rty)
| TArr (n : nat) (t : rty)      (* [T; n], for 2, 3 and 4 *)
| TTup (l : list rty)           (* (T, U), (T, U, V), (T, U, V, W) *)
| TVec (t : rty)
| TObj (l : list (string * rty)).  (* a structure with [dyon_obj] *)
Inductive rval :=
| RBool (b : bool)
| RStr (s : string)
| RInt (z : Z)                  (* u32, usize *)
| RF32 (x : f32)
| RF64 (x : f64)
| RRust (id : nat)
| RVec4 (v : vec4)
| RMat4 (m : mat4)
| RNone | RSome (r : rval)
| ROk (r : rval) | RErr (r : rval)
| RList (l : list rval)         (* arrays, tuples, vectors *)
| RObj (l : list (string * rval)).

(** [HashMap::insert] *)
Definition insert {A} (k : string) (v : A) (o : list (string * A)) : list (string * A) :=
  match assoc k o with Some _ => assoc_set k v o | None => o ++ [(k, v)] end.
(** embed.rs 268-415 [push_var]; vec4.rs 27-31; mat4.rs 27-31; macros.rs 365-377 *)
Fixpoint push_var (r : rval) : value :=
  match r with
  | RBool b => VBool b None
  | RStr s => VStr s
  | RInt z => VF64 (f_of_Z z) None
  | RF32 x => VF64 (f64_of_f32 x) None
  | RF64 x => VF64 x None
  | RRust id => VRust id
  | RVec4 v => VVec4 v
  | RMat4 m => VMat4 m
  | RNone => VNone
  | RSome r => VSome (push_var r)
  | ROk r => VOk (push_var r)
  | RErr r => VErr (push_var r) []
  | RList l => VArray (map push_var l)
  | RObj l => VObject (fold_left (fun o p => insert (fst p) (snd p) o) (map (fun p => (fst p, push_var (snd p))) l) [])
  end.

(** `as u32`: truncation, saturating *)
Definition f64_to_u32 (x : f64) : Z := Z.min (f64_to_usize x) (2 ^ 32 - 1).

(** The value, an error, or a panic. *)
Inductive got (A : Type) := Got (a : A) | Wrong | Crash.
Arguments Got {A}. Arguments Wrong {A}. Arguments Crash {A}.
Definition and_then {A B} (x : got A) (f : A -> got B) : got B :=
  match x with Got a => f a | Wrong => Wrong | Crash => Crash end.
(** runtime/mod.rs 509-511 [get] *)
Definition look (stk : list value) (v : value) : got value :=
  match v with
  | VRef i => match nth_error stk i with Some v => Got v | None => Crash end
  | _ => Got v
  end.
(** `[pop_var(rt, rt.get(&arr[0]))?, pop_var(rt, rt.get(&arr[1]))?, ..]` *)
Fixpoint in_turn (stk : list value) (fs : list (value -> got rval)) (arr : list value) : got (list rval) :=
  match fs with
  | [] => Got []
  | f :: fs =>
      match arr with
      | [] => Crash                         (* index out of bounds *)
      | v :: arr =>
          and_then (look stk v) (fun v => and_then (f v) (fun r =>
          and_then (in_turn stk fs arr) (fun l => Got (r :: l))))
      end
  end.
(** macros.rs 354-358, embed.rs 20-25 [obj_field]: no [get] *)
Fixpoint fields (o : list (string * value)) (fs : list (string * (value -> got rval))) : got (list (string * rval)) :=
  match fs with
  | [] => Got []
  | (k, f) :: fs =>
      match assoc k o with
      | None => Wrong
      | Some v => and_then (f v) (fun r => and_then (fields o fs) (fun l => Got ((k, r) :: l)))
      end
  end.
(** embed.rs 56-266 [pop_var]; vec4.rs 17-25; mat4.rs 17-25; macros.rs 349-363 *)
Fixpoint pop_var (stk : list value) (t : rty) (v : value) : got rval :=
  match t with
  | TBool => match v with VBool b _ => Got (RBool b) | _ => Wrong end
  | TStr => match v with VStr s => Got (RStr s) | _ => Wrong end
  | TU32 => match v with VF64 x _ => Got (RInt (f64_to_u32 x)) | _ => Wrong end
  | TUsize => match v with VF64 x _ => Got (RInt (f64_to_usize x)) | _ => Wrong end
  | TF32 => match v with VF64 x _ => Got (RF32 (f32_of_f64 x)) | _ => Wrong end
  | TF64 => match v with VF64 x _ => Got (RF64 x) | _ => Wrong end
  | TRust => match v with VRust id => Got (RRust id) | _ => Wrong end
  | TVec4 => match v with VVec4 x => Got (RVec4 x) | _ => Wrong end
  | TMat4 => match v with VMat4 x => Got (RMat4 x) | _ => Wrong end
  | TOption t =>
      match v with
      | VNone => Got RNone
      | VSome v => and_then (look stk v) (fun v => and_then (pop_var stk t v) (fun r => Got (RSome r)))
      | _ => Wrong
      end
  | TResult t u =>
      match v with
      | VOk v => and_then (look stk v) (fun v => and_then (pop_var stk t v) (fun r => Got (ROk r)))
      | VErr v _ => and_then (look stk v) (fun v => and_then (pop_var stk u v) (fun r => Got (RErr r)))
      | _ => Wrong
      end
  | TArr n t =>
      match v with
      | VArray arr => and_then (in_turn stk (repeat (pop_var stk t) n) arr) (fun l => Got (RList l))
      | _ => Wrong
      end
  | TTup ts =>
      match v with
      | VArray arr => and_then (in_turn stk (map (pop_var stk) ts) arr) (fun l => Got (RList l))
      | _ => Wrong
      end
  | TVec t =>
      match v with
      | VArray arr => and_then (in_turn stk (repeat (pop_var stk t) (length arr)) arr) (fun l => Got (RList l))
      | _ => Wrong
      end
  | TObj ts =>
      and_then (look stk v) (fun v =>
      match v with
      | VObject o => and_then (fields o (map (fun p => (fst p, pop_var stk (snd p))) ts)) (fun l => Got (RObj l))
      | _ => Wrong
      end)
  end.

(** runtime/mod.rs 467-468 [push] *)
Definition push (stk : list value) (r : rval) : list value := stk ++ [push_var r].
(** 387-391 [pop]: the result and the stack afterwards; [Crash] if the stack is empty *)
Definition pop (stk : list value) (t : rty) : got rval * list value :=
  match rev stk with
  | [] => (Crash, stk)
  | v :: _ =>
      let stk := removelast stk in
      (and_then (look stk v) (pop_var stk t), stk)
  end.
(** 411-414 [var] *)
Definition var_ (stk : list value) (t : rty) (v : value) : got rval := and_then (look stk v) (pop_var stk t).
(** 438-448 [current_object]; the stack of current objects is top first *)
Definition current_object (stk : list value) (currents : list (string * nat)) (t : rty) (name : string) : got rval :=
  match assoc name currents with
  | None => Wrong
  | Some i =>
      match nth_error stk i with
      | None => Crash
      | Some v => and_then (look stk v) (pop_var stk t)
      end
  end.

(** embed.rs 417-498 [ConvertVec4]: a list of 2, 3 or 4 numbers of type f32 *)
Definition g0 : f32 := g_of_Z 0.
Definition to_vec4 (l : list f32) : vec4 := V4 (nth 0 l g0) (nth 1 l g0) (nth 2 l g0) (nth 3 l g0).
Definition of_vec4 (n : nat) (v : vec4) : list f32 := firstn n [vx v; vy v; vz v; vw v].
(** and of type f64 *)
Definition to_vec4_64 (l : list f64) : vec4 := to_vec4 (map f32_of_f64 l).
Definition of_vec4_64 (n : nat) (v : vec4) : list f64 := map f64_of_f32 (of_vec4 n v).
