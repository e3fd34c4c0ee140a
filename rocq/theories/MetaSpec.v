(** * What meta data says: a tree of named values. *)
From Coq Require Import String List ZArith NArith Bool.
From Verif Require Import Float64 DataModel DataSpec MetaModel.
Import ListNotations.
Local Open Scope list_scope.

Inductive leaf := LBool (b : bool) | LStr (s : text) | LNum (x : f64).
Inductive mtree := MLeaf (v : leaf) | MNode (members : list (text * mtree)).
(** The tokens of the members of a node, from the outside: every start has its end. *)
Inductive nests : list meta -> list (text * mtree) -> Prop :=
| n_nil : nests [] []
| n_bool k b ts ms : nests ts ms -> nests (MBool k b :: ts) ((k, MLeaf (LBool b)) :: ms)
| n_str k s ts ms : nests ts ms -> nests (MString k s :: ts) ((k, MLeaf (LStr s)) :: ms)
| n_num k x ts ms : nests ts ms -> nests (MF64 k x :: ts) ((k, MLeaf (LNum x)) :: ms)
| n_node k ts1 ms1 ts ms : nests ts1 ms1 -> nests ts ms -> nests (MStart k :: ts1 ++ MEnd k :: ts) ((k, MNode ms1) :: ms).

(** Numbers that JSON has. *)
Definition finite_meta (m : meta) : Prop := match m with MF64 _ x => finite x | _ => True end.

(** The members of an object when a name comes again: the place of the first, the value of the last. *)
Definition has_key (k : text) (l : list (text * data)) : bool := existsb (fun kv => text_eqb (fst kv) k) l.
Definition last_of (k : text) (v : data) (l : list (text * data)) : data := fold_left (fun v kv => if text_eqb (fst kv) k then snd kv else v) l v.
Fixpoint latest_ (seen : list text) (l : list (text * data)) : list (text * data) :=
  match l with
  | [] => []
  | (k, v) :: l => if existsb (text_eqb k) seen then latest_ seen l else (k, last_of k v l) :: latest_ (k :: seen) l
  end.
Definition latest : list (text * data) -> list (text * data) := latest_ [].
Definition leaf_data (v : leaf) : data := match v with LBool b => DBool b | LStr s => DStr s | LNum x => DNum x end.
Fixpoint value_of (t : mtree) : data :=
  match t with
  | MLeaf v => leaf_data v
  | MNode ms => DObject (latest (map (fun kt => (fst kt, value_of (snd kt))) ms))
  end.
Definition object_of (ms : list (text * mtree)) : data := DObject (latest (map (fun kt => (fst kt, value_of (snd kt))) ms)).
(** Places that an `f64` has. *)
Definition placed (t : token) : Prop := (Z.of_N (t_offset t) <= 2 ^ 53 /\ Z.of_N (t_length t) <= 2 ^ 53)%Z.
