(** * Model of lifetime/mod.rs 1143-1195: the end of the check of a file, and the suggestions in its errors. *)
From Coq Require Import String List Bool Arith ZArith NArith.
From Verif Require Import Syntax Float64 TypeModel LifetimeModel TypecheckModel PrintModel NodesModel LivesModel.
From Verif Require Import TypedSpec.
Import ListNotations.
Local Open Scope string_scope.
Local Open Scope nat_scope.
Local Open Scope list_scope.

(** ** lifetime/mod.rs 17-38 [check], 40-1155 [check_core] *)

(** what the whole check says; [CType] is an error of the type checker, [COut] are names that it does not find *)
Inductive check_result := CGood (rets : list (string * ty)) | CNode (e : nerr) (at_ : nat) | CLife (e : xerr) (at_ : nat) | CType (code at_ : nat) | CPanic | COof | COut.
(** 1146-1154: the types of the functions after type checking, by name. [h] has the nodes of [g] with their types. *)
Definition refined_rets (g : fgraph) (h : graph) : list (string * ty) :=
  flat_map (fun x => match x with
                     | (n, m) => match f_kind n, f_name n, g_ty m with K_Fn, Some y, Some t => [(y, t)] | _, _, _ => [] end
                     end) (combine g h).
Definition check_core (P : type_parser) (sort : fgraph -> fgraph) (O : outside) (K : known) (rounds fuel : nat) (ms : list meta) : check_result :=
  match front P sort O ms with
  | NOk g =>
      match check_lives fuel g with
      | XOk _ =>
          match typecheck K rounds fuel (checked g) with
          | TOk h => CGood (refined_rets g h)
          | TErr c i => CType c i
          | TPanic => CPanic
          | TOof => COof
          | TOut => COut
          end
      | XErr e i => CLife e i
      | XPanic => CPanic
      | XOof => COof
      end
  | NErr e i => CNode e i
  | NPanic => CPanic
  | NOof => COof
  end.

(** ** 1157-1195 [suggestions]

    A text is the list of its characters. Rust stores it in UTF-8, and slices it by bytes. *)
Notation text := (list N) (only parsing).
Definition char_bytes (c : N) : nat := if (c <? 128)%N then 1 else if (c <? 2048)%N then 2 else if (c <? 65536)%N then 3 else 4.
(** [&t[..k]]: it panics ([None]) when [k] is behind the end or within a character *)
Fixpoint slice (t : text) (k : nat) : option text :=
  match k with
  | O => Some []
  | _ => match t with
         | [] => None
         | c :: t => if char_bytes c <=? k then option_map (cons c) (slice t (k - char_bytes c)) else None
         end
  end.
(** the number of characters before the first [(] *)
Fixpoint paren (t : text) : option nat :=
  match t with [] => None | c :: t => if (c =? 40)%N then Some 0 else option_map S (paren t) end.
(** 1164-1169; [mut_pos - 1] is checked for overflow, or the slice ends behind the text *)
Definition search_name (name : text) : option text :=
  match paren name with Some O => None | Some (S p) => slice name p | None => Some name end.
Fixpoint starts_with (p t : text) : bool :=
  match p, t with
  | [], _ => true
  | c :: p, d :: t => (c =? d)%N && starts_with p t
  | _ :: _, [] => false
  end.
(** 1170-1195: the names that are listed, of functions of the file and of functions from outside, each in some order *)
Definition suggestions (name : text) (own prelude : list text) : option (list text) :=
  match search_name name with
  | Some s => Some (filter (starts_with s) own ++ filter (starts_with s) prelude)
  | None => None
  end.
