(** * Sending the arguments of a call to the channels made with [in f], for one function [f].

    Model of `senders: Arc<(AtomicBool, Mutex<Vec<Sender<Variable>>>)>` (src/ast/mod.rs 388-394, 509),
    of [in_expr] (src/runtime/mod.rs 682-705) and of the part of [call_loaded] that sends the
    arguments (src/runtime/mod.rs 1563-1589), run by any number of threads, one memory access at a
    time. The other functions have senders of their own and do not take part.

    Taken from the Rust documentation, not from /repo:
    - [Mutex]: at most one holder; taking it makes visible what was visible to the last holder.
    - [Ordering::Relaxed] on one atomic: the writes have one order; a thread never reads an older
      write than one it has seen (its [view]); otherwise it may read any of them.
    - mpsc [send] appends to the queue and fails only when the receiver was dropped; [ch_sent] lists
      everything that was ever sent, the receiver takes it from the front in that order.
    A receiver can be dropped at any time (action [Drop]); threads get to know of what other threads
    have seen at any time (action [Meet]: starting, joining, messages, other locks). *)
From Coq Require Import String List Bool Arith.
From Verif Require Import Float64 Syntax.
Import ListNotations.
Local Open Scope nat_scope.
Local Open Scope list_scope.

(** A message: the thread, the number of the call among the calls of this thread, the arguments. *)
Record msg := Msg { g_thread : nat; g_number : nat; g_args : list value }.

(** A channel: whether the receiver is alive, what was sent, and the position of the write
    `senders.0.store(true)` of its [in] expression in the order of the writes (only for statements). *)
Record chan := Chan { ch_open : bool; ch_sent : list msg; ch_store : option nat }.

(** Where a thread is. *)
Inductive pc :=
  | Idle
  | InLock (c : nat)                 (* mod.rs 692-694: before `f.senders.1.lock()` *)
  | InPush (c : nat)                 (* 695 *)
  | InStore (c : nat)                (* 696 *)
  | InDrop                           (* 697 *)
  | CallLock (m : msg)               (* 1572 *)
  | CallSend (m : msg) (i op : nat)  (* 1574-1582: the loop, still [i] channels to go; `open` *)
  | CallTrunc (op : nat)             (* 1583 *)
  | CallStore                        (* 1584-1587 *)
  | CallDrop.                        (* 1588 *)

Record state := State {
  flag : list bool;       (* the writes to the flag, oldest first *)
  lock : option nat;      (* holder *)
  seen : nat;             (* view of the last holder *)
  list_ : list nat;       (* the vector of senders, by channel *)
  chans : list chan;
  view : nat -> nat;
  at_pc : nat -> pc;
  calls : nat -> nat }.   (* number of calls begun by each thread *)

(** ast/mod.rs 509 *)
Definition start : state := State [false] None 0 [] [] (fun _ => 0) (fun _ => Idle) (fun _ => 0).

Definition upd {A} (f : nat -> A) (t : nat) (x : A) : nat -> A := fun u => if Nat.eqb u t then x else f u.
Fixpoint set_nth {A} (i : nat) (x : A) (l : list A) : list A :=
  match l, i with
  | [], _ => []
  | _ :: l, O => x :: l
  | y :: l, S i => y :: set_nth i x l
  end.
(** [Vec::swap] *)
Definition swap (i j : nat) (l : list nat) : list nat :=
  match nth_error l i, nth_error l j with
  | Some x, Some y => set_nth j x (set_nth i y l)
  | _, _ => l
  end.

Inductive action :=
  | New (t : nat)                               (* `in f` begins: `channel()` *)
  | Call (t : nat) (args : list value) (k : nat) (* a call begins; its load reads write number [k] *)
  | Go (t : nat)                                (* the next step of thread [t] *)
  | Drop (c : nat)
  | Meet (t u : nat).                           (* [t] gets to know what [u] has seen *)

Definition set_pc (t : nat) (p : pc) (s : state) : state :=
  State (flag s) (lock s) (seen s) (list_ s) (chans s) (view s) (upd (at_pc s) t p) (calls s).
Definition set_view (t v : nat) (s : state) : state :=
  State (flag s) (lock s) (seen s) (list_ s) (chans s) (upd (view s) t v) (at_pc s) (calls s).
Definition set_list (l : list nat) (s : state) : state :=
  State (flag s) (lock s) (seen s) l (chans s) (view s) (at_pc s) (calls s).
Definition set_chans (l : list chan) (s : state) : state :=
  State (flag s) (lock s) (seen s) (list_ s) l (view s) (at_pc s) (calls s).
Definition take (t : nat) (s : state) : state :=
  State (flag s) (Some t) (seen s) (list_ s) (chans s) (upd (view s) t (Nat.max (view s t) (seen s))) (at_pc s) (calls s).
Definition release (t : nat) (s : state) : state :=
  State (flag s) None (view s t) (list_ s) (chans s) (view s) (at_pc s) (calls s).
Definition write (t : nat) (b : bool) (s : state) : state :=
  State (flag s ++ [b]) (lock s) (seen s) (list_ s) (chans s) (upd (view s) t (length (flag s))) (at_pc s) (calls s).
Definition count (t : nat) (s : state) : state :=
  State (flag s) (lock s) (seen s) (list_ s) (chans s) (view s) (at_pc s) (upd (calls s) t (S (calls s t))).

Definition stored (c k : nat) (l : list chan) : list chan :=
  match nth_error l c with
  | Some h => set_nth c (Chan (ch_open h) (ch_sent h) (Some k)) l
  | None => l
  end.
Definition send (c : nat) (m : msg) (l : list chan) : list chan :=
  match nth_error l c with
  | Some h => set_nth c (Chan (ch_open h) (ch_sent h ++ [m]) (ch_store h)) l
  | None => l
  end.
Definition close (c : nat) (l : list chan) : list chan :=
  match nth_error l c with
  | Some h => set_nth c (Chan false (ch_sent h) (ch_store h)) l
  | None => l
  end.
Definition is_open (l : list chan) (c : nat) : bool :=
  match nth_error l c with Some h => ch_open h | None => false end.

(** The next step of thread [t]; [None] when it waits for the lock or has nothing to do. *)
Definition go (t : nat) (s : state) : option state :=
  match at_pc s t with
  | Idle => None
  | InLock c => match lock s with None => Some (set_pc t (InPush c) (take t s)) | Some _ => None end
  | InPush c => Some (set_pc t (InStore c) (set_list (list_ s ++ [c]) s))
  | InStore c => Some (set_pc t InDrop (write t true (set_chans (stored c (length (flag s)) (chans s)) s)))
  | InDrop => Some (set_pc t Idle (release t s))
  | CallLock m =>
      match lock s with
      | None => Some (set_pc t (CallSend m (length (list_ s)) (length (list_ s))) (take t s))
      | Some _ => None
      end
  | CallSend m O op => Some (set_pc t (CallTrunc op) s)
  | CallSend m (S i) op =>
      match nth_error (list_ s) i with
      | None => None
      | Some c =>
          if is_open (chans s) c
          then Some (set_pc t (CallSend m i op) (set_chans (send c m (chans s)) s))
          else Some (set_pc t (CallSend m i (op - 1)) (set_list (swap i (op - 1) (list_ s)) s))
      end
  | CallTrunc op => Some (set_pc t CallStore (set_list (firstn op (list_ s)) s))
  | CallStore => Some (set_pc t CallDrop (match list_ s with [] => write t false s | _ => s end))
  | CallDrop => Some (set_pc t Idle (release t s))
  end.

Definition fire (a : action) (s : state) : option state :=
  match a with
  | New t =>
      match at_pc s t with
      | Idle => Some (set_pc t (InLock (length (chans s))) (set_chans (chans s ++ [Chan true [] None]) s))
      | _ => None
      end
  | Call t args k =>
      match at_pc s t with
      | Idle =>
          if (view s t <=? k) && (k <? length (flag s)) then
            let m := Msg t (calls s t) args in
            let s := set_view t k (count t s) in
            Some (if nth k (flag s) false then set_pc t (CallLock m) s else s)
          else None
      | _ => None
      end
  | Go t => go t s
  | Drop c => Some (set_chans (close c (chans s)) s)
  | Meet t u => Some (set_view t (Nat.max (view s t) (view s u)) s)
  end.

Fixpoint exec (l : list action) (s : state) : option state :=
  match l with
  | [] => Some s
  | a :: l => match fire a s with Some s => exec l s | None => None end
  end.
