(** * What the channels of a function should do (C35, C36). *)
From Coq Require Import List Bool Arith.
From Verif Require Import Syntax ChannelModel.
Import ListNotations.
Local Open Scope nat_scope.
Local Open Scope list_scope.

(** States that some interleaving of any threads leads to. *)
Definition reachable (s : state) : Prop := exists l, exec l start = Some s.

(** The arguments of the calls of thread [t], in call order, and the messages numbered from [n]. *)
Fixpoint called (t : nat) (l : list action) : list (list value) :=
  match l with
  | [] => []
  | Call u args _ :: l => if Nat.eqb u t then args :: called t l else called t l
  | _ :: l => called t l
  end.
Fixpoint numbered (t n : nat) (l : list (list value)) : list msg :=
  match l with
  | [] => []
  | args :: l => Msg t n args :: numbered t (S n) l
  end.

(** What channel [c] was sent by thread [t]. *)
Definition from (t : nat) (l : list msg) : list msg := filter (fun m => Nat.eqb (g_thread m) t) l.
Definition sent (s : state) (c t : nat) : list msg :=
  match nth_error (chans s) c with Some h => from t (ch_sent h) | None => [] end.

Definition alive (s : state) (c : nat) : Prop := exists h, nth_error (chans s) c = Some h /\ ch_open h = true.
(** The [in] expression of [c] has set the flag, as write number [k]. *)
Definition made (s : state) (c k : nat) : Prop := exists h, nth_error (chans s) c = Some h /\ ch_store h = Some k.
(** Thread [t] knows of the flag: it made the channel, or heard of it from a thread that knew. *)
Definition knows (s : state) (t c : nat) : Prop := exists k, made s c k /\ k <= view s t.
Definition registered (s : state) (c : nat) : Prop := In c (list_ s).

(** The value of the flag in memory. *)
Definition flag_set (s : state) : Prop := last (flag s) false = true.

Fixpoint increasing (l : list nat) : Prop :=
  match l with
  | [] => True
  | x :: l => Forall (fun y => x < y) l /\ increasing l
  end.

(** Executions in which every call reads the newest write of the flag. *)
Fixpoint newest (l : list action) (s : state) : Prop :=
  match l with
  | [] => True
  | a :: l =>
      match a with Call _ _ k => S k = length (flag s) | _ => True end /\
      match fire a s with Some s => newest l s | None => True end
  end.
