(** * Thread handles and `join`.

    Model of `Thread` (src/lib.rs 107-164), `join__thread` (src/dyon_std/mod.rs 1875-1901) and the
    closure that a thread runs (src/runtime/mod.rs 1013-1022, [thread_run] in InterpModel.v).

    A handle is `Option<Arc<Mutex<JoinHandle>>>`. The values of the model are trees, so the reference
    count of the [Arc] of thread [t] is the number of [VThread (Some t)] in all values. Arrays and
    objects that share their storage in Rust are counted several times here; this makes no difference
    to [join], which takes a handle out of a variable or gets it as a value of its own, so that every
    handle inside an array or object is one more than the one it has. *)
From Coq Require Import String List ZArith Bool Arith.
From Verif Require Import Float64 Syntax InterpModel.
Import ListNotations.
Local Open Scope string_scope.
Local Open Scope nat_scope.
Local Open Scope list_scope.

Definition total {A} (f : A -> nat) : list A -> nat :=
  fix go l := match l with [] => 0 | x :: l => f x + go l end.
Definition total_opt {A} (f : A -> nat) (o : option A) : nat := match o with Some x => f x | None => 0 end.

(** How many handles of thread [t] are in a value, and in the program text of a closure (where
    grabbing puts values). *)
Fixpoint count_v (t : nat) (v : value) : nat :=
  match v with
  | VThread (Some u) => if Nat.eqb u t then 1 else 0
  | VBool _ sec | VF64 _ sec => total_opt (total (count_v t)) sec
  | VArray l => total (count_v t) l
  | VObject l => total (fun kv => match kv with (_, x) => count_v t x end) l
  | VSome x | VOk x | VErr x _ => count_v t x
  | VClosure c _ _ => count_c t c
  | VRef _ | VReturn | VVec4 _ | VMat4 _ | VStr _ | VLink _ | VUnsafeRef _ _ | VRust _ | VNone | VThread None | VIn _ => 0
  end
with count_e (t : nat) (e : expr) : nat :=
  match e with
  | EVar v => count_v t v
  | EReturn x | ETry x | ESwizzle _ x | EGrab _ x | ETryExpr x => count_e t x
  | EReturnVoid | EBreak _ | EContinue _ | EIn _ => 0
  | EClosure c => count_c t c
  | EItem it => count_i t it
  | ELink l | EArray l | EBlock l | EGo _ l | ECall _ _ l | EVec4 l | EMat4 l => total (count_e t) l
  | EObject l => total (fun kv => match kv with (_, x) => count_e t x end) l
  | EArrayFill a b | EAssign _ a b => count_e t a + count_e t b
  | EFor _ a b c l => count_e t a + count_e t b + count_e t c + total (count_e t) l
  | EForN _ _ _ a b l => total_opt (count_e t) a + count_e t b + total (count_e t) l
  | EForIn _ _ _ a l => count_e t a + total (count_e t) l
  | EIf c tb cs bs eb =>
      count_e t c + total (count_e t) tb + total (count_e t) cs + total (total (count_e t)) bs +
      total_opt (total (count_e t)) eb
  | ECallClosure it l => count_i t it + total (count_e t) l
  end
with count_i (t : nat) (it : item) : nat :=
  match it with Item _ _ _ _ ids _ => total (count_x t) ids end
with count_x (t : nat) (x : idx) : nat :=
  match x with IdExpr e => count_e t e | _ => 0 end
with count_c (t : nat) (c : closure) : nat :=
  match c with Closure _ _ b => count_e t b end.

(** What `join` comes to: a value at once, or waiting for a thread (with the last handle). *)
Inductive joined := JNow (v : value) (s : rt) | JWait (t : nat) (s : rt) | JPanic.

Definition err_ (m : string) : value := VErr (VStr m) [].

(** lib.rs 146-163: [elsewhere t] counts the handles outside of this runtime's stack. *)
Definition take_handle (elsewhere : nat -> nat) (h : option nat) (s : rt) : joined :=
  match h with
  | None => JNow (err_ "The Thread has already been invalidated") s
  | Some t =>
      if Nat.eqb (total (count_v t) (r_stack s) + elsewhere t) 0 then JWait t s
      else JNow (err_ "Can not access Thread because there is more than one reference to it") s
  end.
(** dyon_std/mod.rs 1875-1901, lib.rs 126-145. The message is the same for every wrong type. *)
Definition join_thread (elsewhere : nat -> nat) (s : rt) : joined :=
  match rev (r_stack s) with
  | [] => JPanic
  | v :: _ =>
      let s := set_stack (removelast (r_stack s)) s in
      match v with
      | VRef i =>
          match nth_error (r_stack s) i with
          | None => JPanic
          | Some x =>
              let s := set_stack (list_set i (VThread None) (r_stack s)) s in
              match x with
              | VThread h => take_handle elsewhere h s
              | _ => JNow (err_ "Expected `Thread`") s
              end
          end
      | VThread h => take_handle elsewhere h s
      | _ => JNow (err_ "Expected `Thread`") s
      end
  end.

(** dyon_std/mod.rs 1881-1893: the value of `join` when the thread has ended. *)
Definition wake (o : outcome value) : option value :=
  match o with
  | Ok v _ => Some (VOk v)
  | Err m _ => Some (err_ m)
  | Panic _ => Some (err_ "Thread did not exit successfully")
  | OOF => None
  end.

(** ** The handles of all threads, under every interleaving

    A place that can hold a handle, of any runtime. [Taken]: the handle that a `join` under way has
    taken from its variable (lib.rs 130-149); [Losing]: after [Arc::try_unwrap] gave it back
    (150-156), before it is dropped. *)
Inductive place := Empty | Holds (t : nat) | Taken (t : nat) | Losing (t : nat).
Record sys := Sys { places : list place; spawned : nat; ended : list nat }.
Inductive act :=
  | Spawn                (* `go`: a new handle *)
  | Copy (i : nat)       (* any way of copying a variable: clones the [Arc] *)
  | Lose (i : nat)       (* a variable goes away or is overwritten *)
  | Take (i : nat)       (* `join` takes the handle *)
  | Unwrap (i : nat)     (* [Arc::try_unwrap], atomic *)
  | Give_up (i : nat).   (* the rejected [Arc] is dropped *)
Definition of_place (t : nat) (p : place) : nat :=
  match p with
  | Empty => 0
  | Holds u | Taken u | Losing u => if Nat.eqb u t then 1 else 0
  end.
Definition handles (s : sys) (t : nat) : nat := total (of_place t) (places s).
Definition act_ (a : act) (s : sys) : option sys :=
  match a with
  | Spawn => Some (Sys (places s ++ [Holds (spawned s)]) (S (spawned s)) (ended s))
  | Copy i =>
      match nth_error (places s) i with
      | Some (Holds t) => Some (Sys (places s ++ [Holds t]) (spawned s) (ended s))
      | _ => None
      end
  | Lose i =>
      match nth_error (places s) i with
      | Some (Holds t) => Some (Sys (list_set i Empty (places s)) (spawned s) (ended s))
      | _ => None
      end
  | Take i =>
      match nth_error (places s) i with
      | Some (Holds t) => Some (Sys (list_set i (Taken t) (places s)) (spawned s) (ended s))
      | _ => None
      end
  | Unwrap i =>
      match nth_error (places s) i with
      | Some (Taken t) =>
          Some (if Nat.eqb (handles s t) 1
                then Sys (list_set i Empty (places s)) (spawned s) (ended s ++ [t])
                else Sys (list_set i (Losing t) (places s)) (spawned s) (ended s))
      | _ => None
      end
  | Give_up i =>
      match nth_error (places s) i with
      | Some (Losing t) => Some (Sys (list_set i Empty (places s)) (spawned s) (ended s))
      | _ => None
      end
  end.
Fixpoint acts (l : list act) (s : sys) : option sys :=
  match l with
  | [] => Some s
  | a :: l => match act_ a s with Some s => acts l s | None => None end
  end.
