(** * Model of [src/link.rs]: the link data structure with its unsafe storage.

    The model keeps the memory explicit: a heap of reference-counted blocks
    ([Arc<Block>]) and a heap of reference-counted strings ([Arc<String>]).
    Touching freed memory, an EMPTY slot or a slot past the block is a [Fault].

    Simplifications: a pointer is the number of a heap cell and cells are never
    reused after being freed (a use after free is therefore always visible as a
    fault); reference counts do not overflow; weak counts do not exist (the code
    creates no [Weak]); [f64] values are their bit patterns
    ([to_bits]/[from_bits] are the identity on them). *)
From Coq Require Import String List Arith NArith Bool.
Import ListNotations.
Local Open Scope list_scope.

(** ** Results *)
Inductive fault := FEmpty | FBounds | FFreed | FTag | FHandle.
Inductive res (A : Type) := Ok (a : A) | Fault (f : fault).
Arguments Ok {A} a. Arguments Fault {A} f.
Definition bind {A B} (r : res A) (k : A -> res B) : res B :=
  match r with Ok a => k a | Fault f => Fault f end.
Notation "'do' x <- m ; k" := (bind m (fun x => k))
  (at level 200, x pattern, m at level 100, k at level 200, right associativity).

(** ** Blocks: src/link.rs:7 BLOCK_SIZE, 9-12 tags, 15-18 [struct Block] *)
Definition BLOCK_SIZE : nat := 124.
Definition EMPTY : N := 0.
Definition BOOL : N := 1.
Definition F64 : N := 2.
Definition STR : N := 3.

Record block := mkBlock { data : list N; tys : list N }.

(** src/link.rs:21-26 [Block::new] *)
Definition block_new : block := mkBlock (repeat 0%N BLOCK_SIZE) (repeat 0%N 4).

Fixpoint upd {A} (n : nat) (x : A) (l : list A) : list A :=
  match l, n with
  | [], _ => []
  | _ :: t, O => x :: t
  | a :: t, S n => a :: upd n x t
  end.

(** src/link.rs:33-34 and 50-51, 85-86, 112-113: word and shift of slot [k] *)
Definition word_of (k : nat) : nat := k / 32.
Definition shift_of (k : nat) : N := N.of_nat ((k - word_of k * 32) * 2).

(** the two tag bits of slot [k]: [self.tys[i] >> (j * 2) & 0x3] *)
Definition tag (b : block) (k : nat) : N :=
  N.land (N.shiftr (nth (word_of k) (tys b) 0%N) (shift_of k)) 3.

(** A raw stored element, as the code sees it in a slot. *)
Inductive raw := RBool (b : bool) | RF64 (bits : N) | RStr (ptr : nat).

(** src/link.rs:28-42 [Block::var], up to the clone of the string [Arc] *)
Definition block_var (b : block) (k : nat) : res raw :=
  if negb (k <? BLOCK_SIZE) then Fault FBounds else
  let t := tag b k in
  let d := nth k (data b) 0%N in
  if N.eqb t EMPTY then Fault FEmpty
  else if N.eqb t BOOL then Ok (RBool (negb (N.eqb d 0)))
  else if N.eqb t F64 then Ok (RF64 d)
  else if N.eqb t STR then Ok (RStr (N.to_nat d))
  else Fault FTag.

(** all ones in 64 bits; [!x] of a [u64] is [x xor ones64] *)
Definition ones64 : N := (2 ^ 64 - 1)%N.
Definition not64 (x : N) : N := N.lxor x ones64.

(** src/link.rs:54-58: reset the tag bits and set the new ones *)
Definition set_tag (w : N) (sh : N) (t : N) : N :=
  N.lor (N.land w (not64 (N.shiftl 3 sh))) (N.shiftl t sh).

Definition raw_tag (r : raw) : N :=
  match r with RBool _ => BOOL | RF64 _ => F64 | RStr _ => STR end.
Definition raw_word (r : raw) : N :=
  match r with RBool b => if b then 1 else 0 | RF64 d => d | RStr p => N.of_nat p end%N.

(** src/link.rs:44-76 [Block::push], after the string [Arc] was cloned.
    (The old content of the slot is overwritten without being dropped.) *)
Definition block_push (b : block) (r : raw) (pos : nat) : res block :=
  if negb (pos <? BLOCK_SIZE) then Fault FBounds else
  let i := word_of pos in
  Ok (mkBlock (upd pos (raw_word r) (data b))
              (upd i (set_tag (nth i (tys b) 0%N) (shift_of pos) (raw_tag r)) (tys b))).

(** ** Memory *)
Record mem := mkMem {
  blocks : list (option (block * nat));   (* content and strong count; None = freed *)
  strs   : list (option (string * nat))
}.
Definition mem0 : mem := mkMem [] [].

Definition get_block (m : mem) (b : nat) : res (block * nat) :=
  match nth_error (blocks m) b with Some (Some x) => Ok x | _ => Fault FFreed end.
Definition set_block (m : mem) (b : nat) (x : option (block * nat)) : mem :=
  mkMem (upd b x (blocks m)) (strs m).
Definition get_str (m : mem) (p : nat) : res (string * nat) :=
  match nth_error (strs m) p with Some (Some x) => Ok x | _ => Fault FFreed end.
Definition set_str (m : mem) (p : nat) (x : option (string * nat)) : mem :=
  mkMem (blocks m) (upd p x (strs m)).

(** [Arc<String>::clone] and [drop] *)
Definition str_clone (m : mem) (p : nat) : res mem :=
  do (s, rc) <- get_str m p; Ok (set_str m p (Some (s, S rc))).
Definition str_drop (m : mem) (p : nat) : res mem :=
  do (s, rc) <- get_str m p;
  match rc with
  | O => Fault FFreed
  | S O => Ok (set_str m p None)
  | S rc' => Ok (set_str m p (Some (s, rc')))
  end.
(** [Arc::new(String)] *)
Definition str_new (m : mem) (s : string) : mem * nat :=
  (mkMem (blocks m) (strs m ++ [Some (s, 1)]), length (strs m)).

(** The slots visited by the loops [for k in 0..BLOCK_SIZE { match tag { EMPTY => break, ..} }]
    of src/link.rs:84-99 (clone) and 111-122 (drop): string pointers up to the first EMPTY slot.
    [n] is the number of slots still to visit, [k] the current one. *)
Fixpoint str_ptrs (b : block) (n k : nat) : list nat :=
  match n with
  | O => []
  | S n' =>
      let t := tag b k in
      if N.eqb t EMPTY then []
      else if N.eqb t STR then N.to_nat (nth k (data b) 0%N) :: str_ptrs b n' (S k)
      else str_ptrs b n' (S k)
  end.
Definition block_strs (b : block) : list nat := str_ptrs b BLOCK_SIZE 0.

Fixpoint fold_mem (f : mem -> nat -> res mem) (m : mem) (l : list nat) : res mem :=
  match l with [] => Ok m | p :: t => do m' <- f m p; fold_mem f m' t end.

(** [Arc<Block>::clone] *)
Definition block_clone_arc (m : mem) (b : nat) : res mem :=
  do (c, rc) <- get_block m b; Ok (set_block m b (Some (c, S rc))).
(** [Arc<Block>::drop]; src/link.rs:107-124 [Drop for Block] when the count reaches zero *)
Definition block_drop_arc (m : mem) (b : nat) : res mem :=
  do (c, rc) <- get_block m b;
  match rc with
  | O => Fault FFreed
  | S O => do m' <- fold_mem str_drop m (block_strs c); Ok (set_block m' b None)
  | S rc' => Ok (set_block m b (Some (c, rc')))
  end.
(** [Arc::new(block)] *)
Definition block_new_arc (m : mem) (c : block) : mem * nat :=
  (mkMem (blocks m ++ [Some (c, 1)]) (strs m), length (blocks m)).

(** [Arc::make_mut]: the block itself when the count is one; otherwise a clone
    (src/link.rs:79-105 [Clone for Block]: words copied, strings cloned up to the first EMPTY
    slot), after which the old [Arc] is dropped. Returns the block to use. *)
Definition make_mut (m : mem) (b : nat) : res (mem * nat) :=
  do (c, rc) <- get_block m b;
  if Nat.eqb rc 1 then Ok (m, b)
  else
    do m1 <- fold_mem str_clone m (block_strs c);
    let '(m2, b') := block_new_arc m1 c in
    do m3 <- block_drop_arc m2 b;
    Ok (m3, b').

(** ** Slices and links: src/link.rs:132-137, 149-153 *)
Record slice := mkSlice { blk : nat; start : nat; stop : nat }.
Definition link := list slice.

(** An element handed to [push] ([&Variable]) by its owner. *)
Definition elt := raw.

(** [Block::var] including the clone of a string [Arc] (src/link.rs:39) *)
Definition slot_var (m : mem) (b k : nat) : res (mem * raw) :=
  do (c, _) <- get_block m b;
  do r <- block_var c k;
  match r with
  | RStr p => do m' <- str_clone m p; Ok (m', r)
  | _ => Ok (m, r)
  end.

(** dropping the temporary value produced by [slot_var] *)
Definition raw_drop (m : mem) (r : raw) : res mem :=
  match r with RStr p => str_drop m p | _ => Ok m end.

(** [Block::push] on block [b]: clone the string, overwrite the slot *)
Definition slot_push (m : mem) (b : nat) (r : raw) (pos : nat) : res mem :=
  do m1 <- match r with RStr p => str_clone m p | _ => Ok m end;
  do (c, rc) <- get_block m1 b;
  do c' <- block_push c r pos;
  Ok (set_block m1 b (Some (c', rc))).

(** src/link.rs:168-179 [Link::head] *)
Definition link_head (m : mem) (l : link) : res (mem * option raw) :=
  match l with
  | [] => Ok (m, None)
  | first :: _ =>
      if start first <? stop first
      then do (m', r) <- slot_var m (blk first) (start first); Ok (m', Some r)
      else Ok (m, None)
  end.

(** [Vec::last] *)
Fixpoint last_slice (l : link) : option slice :=
  match l with [] => None | [s] => Some s | _ :: t => last_slice t end.
Definition but_last (l : link) : link := removelast l.

(** src/link.rs:182-192 [Link::tip] *)
Definition link_tip (m : mem) (l : link) : res (mem * option raw) :=
  match last_slice l with
  | None => Ok (m, None)
  | Some s =>
      if start s <? stop s
      then do (m', r) <- slot_var m (blk s) (stop s - 1); Ok (m', Some r)
      else Ok (m, None)
  end.

(** [Slice::clone] for each slice *)
Definition clone_slices (m : mem) (l : link) : res mem :=
  fold_mem block_clone_arc m (map blk l).

(** src/link.rs:197-213 [Link::tail] *)
Definition link_tail (m : mem) (l : link) : res (mem * link) :=
  match l with
  | [] => Ok (m, [])
  | first :: rest =>
      let l' := (if start first + 1 <? stop first
                 then [mkSlice (blk first) (start first + 1) (stop first)] else [])
                ++ rest in
      do m' <- clone_slices m l'; Ok (m', l')
  end.

(** src/link.rs:218-236 [Link::neck] *)
Definition link_neck (m : mem) (l : link) : res (mem * link) :=
  match last_slice l with
  | None => Ok (m, [])
  | Some s =>
      let l' := but_last l ++
                (if start s + 1 <? stop s
                 then [mkSlice (blk s) (start s) (stop s - 1)] else []) in
      do m' <- clone_slices m l'; Ok (m', l')
  end.

(** src/link.rs:239-241 [Link::is_empty] *)
Definition link_is_empty (l : link) : bool := Nat.eqb (length l) 0.

(** src/link.rs:244-249 [Link::add] *)
Definition link_add (m : mem) (a b : link) : res (mem * link) :=
  do m' <- clone_slices m (a ++ b); Ok (m', a ++ b).

(** derived [Clone for Link] and the drop of a link *)
Definition link_clone (m : mem) (l : link) : res (mem * link) :=
  do m' <- clone_slices m l; Ok (m', l).
Definition link_drop (m : mem) (l : link) : res mem :=
  fold_mem block_drop_arc m (map blk l).

(** src/link.rs:256-272 [Link::push] for bool, f64 and str *)
Definition link_push1 (m : mem) (l : link) (r : raw) : res (mem * link) :=
  let fresh (_ : unit) :=
    let '(m1, b) := block_new_arc m block_new in
    do (m2, b') <- make_mut m1 b;
    do m3 <- slot_push m2 b' r 0;
    Ok (m3, l ++ [mkSlice b' 0 1]) in
  match last_slice l with
  | Some s =>
      if stop s <? BLOCK_SIZE then
        do (m1, b') <- make_mut m (blk s);
        do m2 <- slot_push m1 b' r (stop s);
        Ok (m2, but_last l ++ [mkSlice b' (start s) (stop s + 1)])
      else fresh tt
  | None => fresh tt
  end.

(** src/link.rs:273-280 [Link::push] of a link: every element is read (cloned), pushed and
    the temporary dropped. [push_range] is the inner loop [for i in slice.start..slice.end]. *)
Fixpoint push_range (m : mem) (l : link) (b i n : nat) : res (mem * link) :=
  match n with
  | O => Ok (m, l)
  | S n' =>
      do (m1, r) <- slot_var m b i;
      do (m2, l2) <- link_push1 m1 l r;
      do m3 <- raw_drop m2 r;
      push_range m3 l2 b (S i) n'
  end.
Fixpoint push_link (m : mem) (l : link) (other : link) : res (mem * link) :=
  match other with
  | [] => Ok (m, l)
  | s :: t =>
      do (m1, l1) <- push_range m l (blk s) (start s) (stop s - start s);
      push_link m1 l1 t
  end.

(** ** Histories

    The program holds numbered link variables and numbered string variables; a history is a
    list of operations on them. This is the interface the rest of the interpreter uses
    ([runtime::assign] += and -=, [dyon_std::{head,tip,tail,neck,is_empty}], [add]). *)
Inductive item := IBool (b : bool) | IF64 (bits : N) | IStr (v : nat).  (* IStr: string variable *)

Inductive op :=
| ONewStr (s : string)                (* new string variable *)
| ODropStr (v : nat)
| ONewLink                            (* new link variable *)
| OClone (i : nat)                    (* new variable holding a clone *)
| ODrop (i : nat)
| OPush (i : nat) (x : item)          (* i += x *)
| OPushLink (i j : nat)               (* push every element of j on i *)
| OAdd (i j : nat)                    (* new variable i + j *)
| OTail (i : nat) | ONeck (i : nat)   (* new variable *)
| OHead (i : nat) | OTip (i : nat)    (* observation; a string result becomes a string variable *)
| OIsEmpty (i : nat).

Inductive val := VBool (b : bool) | VF64 (bits : N) | VStr (s : string).
Inductive out := ONone | OVal (v : option val) | OBool (b : bool) | OInvalid.

Record world := mkWorld { wmem : mem; wlinks : list (option link); wstrs : list (option nat) }.
Definition world0 : world := mkWorld mem0 [] [].

Definition get_link (w : world) (i : nat) : option link :=
  match nth_error (wlinks w) i with Some (Some l) => Some l | _ => None end.
Definition get_sv (w : world) (i : nat) : option nat :=
  match nth_error (wstrs w) i with Some (Some p) => Some p | _ => None end.

(** the value a raw element denotes *)
Definition val_of (m : mem) (r : raw) : res val :=
  match r with
  | RBool b => Ok (VBool b)
  | RF64 d => Ok (VF64 d)
  | RStr p => do (s, _) <- get_str m p; Ok (VStr s)
  end.

Definition item_raw (w : world) (x : item) : option raw :=
  match x with
  | IBool b => Some (RBool b)
  | IF64 d => Some (RF64 d)
  | IStr v => match get_sv w v with Some p => Some (RStr p) | None => None end
  end.

(** observation result: a returned string is kept alive by a new string variable *)
Definition observe (w : world) (r : res (mem * option raw)) : res (world * out) :=
  do (m, x) <- r;
  match x with
  | None => Ok (mkWorld m (wlinks w) (wstrs w), OVal None)
  | Some x =>
      do v <- val_of m x;
      let ss := match x with RStr p => wstrs w ++ [Some p] | _ => wstrs w end in
      Ok (mkWorld m (wlinks w) ss, OVal (Some v))
  end.

(** one operation; an operation naming a variable that does not exist is [OInvalid] and does
    nothing (the language has no such operation) *)
Definition step (w : world) (o : op) : res (world * out) :=
  let m := wmem w in
  match o with
  | ONewStr s =>
      let '(m', p) := str_new m s in
      Ok (mkWorld m' (wlinks w) (wstrs w ++ [Some p]), ONone)
  | ODropStr v =>
      match get_sv w v with
      | None => Ok (w, OInvalid)
      | Some p => do m' <- str_drop m p; Ok (mkWorld m' (wlinks w) (upd v None (wstrs w)), ONone)
      end
  | ONewLink => Ok (mkWorld m (wlinks w ++ [Some []]) (wstrs w), ONone)
  | OClone i =>
      match get_link w i with
      | None => Ok (w, OInvalid)
      | Some l => do (m', l') <- link_clone m l;
                  Ok (mkWorld m' (wlinks w ++ [Some l']) (wstrs w), ONone)
      end
  | ODrop i =>
      match get_link w i with
      | None => Ok (w, OInvalid)
      | Some l => do m' <- link_drop m l; Ok (mkWorld m' (upd i None (wlinks w)) (wstrs w), ONone)
      end
  | OPush i x =>
      match get_link w i, item_raw w x with
      | Some l, Some r => do (m', l') <- link_push1 m l r;
                  Ok (mkWorld m' (upd i (Some l') (wlinks w)) (wstrs w), ONone)
      | _, _ => Ok (w, OInvalid)
      end
  | OPushLink i j =>
      match get_link w i, get_link w j with
      | Some l, Some l2 =>
          if Nat.eqb i j then Ok (w, OInvalid)   (* excluded by the borrow checker *)
          else do (m', l') <- push_link m l l2;
               Ok (mkWorld m' (upd i (Some l') (wlinks w)) (wstrs w), ONone)
      | _, _ => Ok (w, OInvalid)
      end
  | OAdd i j =>
      match get_link w i, get_link w j with
      | Some l, Some l2 => do (m', l') <- link_add m l l2;
                  Ok (mkWorld m' (wlinks w ++ [Some l']) (wstrs w), ONone)
      | _, _ => Ok (w, OInvalid)
      end
  | OTail i =>
      match get_link w i with
      | None => Ok (w, OInvalid)
      | Some l => do (m', l') <- link_tail m l;
                  Ok (mkWorld m' (wlinks w ++ [Some l']) (wstrs w), ONone)
      end
  | ONeck i =>
      match get_link w i with
      | None => Ok (w, OInvalid)
      | Some l => do (m', l') <- link_neck m l;
                  Ok (mkWorld m' (wlinks w ++ [Some l']) (wstrs w), ONone)
      end
  | OHead i =>
      match get_link w i with
      | None => Ok (w, OInvalid)
      | Some l => observe w (link_head m l)
      end
  | OTip i =>
      match get_link w i with
      | None => Ok (w, OInvalid)
      | Some l => observe w (link_tip m l)
      end
  | OIsEmpty i =>
      match get_link w i with
      | None => Ok (w, OInvalid)
      | Some l => Ok (w, OBool (link_is_empty l))
      end
  end.

Fixpoint run (w : world) (os : list op) : res (world * list out) :=
  match os with
  | [] => Ok (w, [])
  | o :: t => do (w1, r) <- step w o; do (w2, rs) <- run w1 t; Ok (w2, r :: rs)
  end.
