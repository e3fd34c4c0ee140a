(** * What formatting a text should keep.

    A text as a sequence of pieces: strings, comments, blanks and all else. Written without reference to
    the automaton of the formatter. *)
From Coq Require Import List ZArith NArith Bool.
From Verif Require Import DataModel DataSpec.
Import ListNotations.
Local Open Scope list_scope.
Local Open Scope N_scope.

Definition is_blank (c : char) : bool := (c =? 10) || (c =? 32).
(** The text without spaces and line breaks. *)
Definition strip (t : text) : text := filter (fun c => negb (is_blank c)) t.

Inductive piece :=
| Solid (c : char)          (* a character that stands for itself *)
| Blank (c : char)
| Quoted (body : text)      (* "body" *)
| Remark (body : text)      (* //body *)
| Block (body : text).      (* /*body*/ *)
Definition text1 (p : piece) : text :=
  match p with
  | Solid c | Blank c => [c]
  | Quoted b => 34 :: b ++ [34]
  | Remark b => 47 :: 47 :: b
  | Block b => 47 :: 42 :: b ++ [42; 47]
  end.
Definition text_of (ps : list piece) : text := concat (map text1 ps).
Definition visible (p : piece) : bool := match p with Blank _ => false | _ => true end.
Definition shown (ps : list piece) : list piece := filter visible ps.

(** A string whose quotes are escaped and in which nothing else is. *)
Fixpoint clean (b : text) : Prop :=
  match b with
  | [] => True
  | c :: r => if c =? 92 then match r with d :: r => d = 34 /\ clean r | [] => False end else c <> 34 /\ clean r
  end.
Definition piece_ok (p : piece) : Prop :=
  match p with
  | Solid c => is_blank c = false /\ c <> 34 /\ c <> 47
  | Blank c => is_blank c = true
  | Quoted b => clean b
  | Remark b => ~ In 10 b /\ ~ In 34 b
  | Block b => ~ In 34 b /\ ~ In 42 b /\ ~ In 47 b
  end.
(** What may follow directly: a remark ends with the line, a comment in the style of C is not followed by a slash. *)
Definition joint (p : piece) (q : piece) : Prop :=
  match p, q with
  | Remark _, Blank c => c = 10
  | Remark _, _ => False
  | Block _, (Solid _ | Blank _) => True
  | Block _, _ => False
  | _, _ => True
  end.
Definition head_is (P : piece -> Prop) (ps : list piece) : Prop := match ps with [] => True | p :: _ => P p end.
(** No string is the next thing after a comment. *)
Definition no_string (p : piece) : Prop := match p with Quoted _ => False | _ => True end.
Definition is_comment (p : piece) : Prop := match p with Remark _ | Block _ => True | _ => False end.
Fixpoint regular (ps : list piece) : Prop :=
  match ps with
  | [] => True
  | p :: ps => piece_ok p /\ head_is (joint p) ps /\ (is_comment p -> head_is no_string (shown ps)) /\ regular ps
  end.

(** The layout: one line per element of what is in brackets, indented by the depth. *)
Definition opens (c : char) : bool := (c =? 40) || (c =? 91) || (c =? 123).
Definition closes (c : char) : bool := (c =? 41) || (c =? 93) || (c =? 125).
Definition new_line (tab depth : Z) : list piece := Blank 10 :: repeat (Blank 32) (Z.to_nat (depth * tab)).
Fixpoint layout (tab depth : Z) (nl : bool) (ps : list piece) : list piece :=
  match ps with
  | [] => []
  | Blank _ :: ps => layout tab depth nl ps
  | Quoted b :: ps => Quoted b :: layout tab depth nl ps
  | Remark b :: ps => (if nl then new_line tab depth else []) ++ Remark b :: layout tab depth true ps
  | Block b :: ps => (if nl then new_line tab depth else []) ++ Block b :: layout tab depth true ps
  | Solid c :: ps =>
      let depth := if closes c then (depth - 1)%Z else depth in
      (if nl || closes c then new_line tab depth else []) ++ Solid c :: (if c =? 58 then [Blank 32] else []) ++
      layout tab (if opens c then depth + 1 else depth)%Z (opens c || (c =? 44)) ps
  end.

(** Small enough for 32-bit numbers. *)
Definition fits (tab : Z) (n : nat) : Prop := (Z.of_nat n < 2147483648 /\ Z.abs tab * Z.of_nat n < 2147483648)%Z.

(** ** Formatted data *)

(** What is assumed of the libraries besides [laws]: a line break is white and ends a number, and numbers are
    written without the characters that the formatter acts on. *)
Definition quiet_char (c : char) : Prop := is_blank c = false /\ ~ In c [34; 40; 41; 44; 47; 58; 91; 93; 123; 125].
Record format_laws (L : lib) : Prop := FormatLaws {
  f_white : white L 10 = true;
  f_num : forall x r, DataSpec.finite x -> num L (show64 L x ++ 10 :: r) = Some (Some (x, 10 :: r));
  f_show : forall x, DataSpec.finite x -> Forall quiet_char (show64 L x) }.
(** A string that is written with no escape but for quotes. *)
Definition simple (L : lib) (s : text) : Prop := exists b, quote L s = 34 :: b ++ [34] /\ clean b.
(** Data without vectors, links and `none()`. *)
Inductive tame (L : lib) : data -> Prop :=
| t_str s : simple L s -> tame L (DStr s)
| t_num x : DataSpec.finite x -> tame L (DNum x)
| t_bool b : tame L (DBool b)
| t_some v : tame L v -> tame L (DSome v)
| t_array l : Forall (tame L) l -> tame L (DArray l)
| t_object l : NoDup (map fst l) -> Forall (fun kv => fst kv <> [] /\ simple L (fst kv)) l ->
    Forall (fun kv => tame L (snd kv)) l -> tame L (DObject l).
