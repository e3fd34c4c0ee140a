(** * The formatter of texts.

    Model of [fmt] and [Comment] (src/write.rs 892-1008), which the function `fmt__tab_string` of the
    standard library calls (dyon_std/mod.rs 975-977; the conversion of its number to `i32` is left out).
    Texts are lists of Unicode code points. [None] is an overflow of `i32`, a panic in debug builds. *)
From Coq Require Import String List ZArith NArith Bool.
From Verif Require Import DataModel.
Import ListNotations.
Local Open Scope list_scope.
Local Open Scope N_scope.

(** write.rs 892-899; [CFirst]: one slash was read. *)
Inductive comment := CNone | CFirst | CLine | CTerm (b : bool) | CMulti (star : bool) (inner : comment).
(** write.rs 902-908 *)
Definition is_active (c : comment) : bool := match c with CLine | CMulti _ _ => true | _ => false end.
(** write.rs 911-913 *)
Definition is_terminated (c : comment) : bool := match c with CTerm true => true | _ => false end.
(** write.rs 915-917 *)
Definition is_none (c : comment) : bool := match c with CNone => true | _ => false end.
(** write.rs 919-938 *)
Fixpoint advance (c : comment) (ch : char) : comment :=
  match c with
  | CNone => if ch =? 47 then CFirst else CNone
  | CFirst => if ch =? 47 then CLine else if ch =? 42 then CMulti false CNone else CNone
  | CLine => if ch =? 10 then CTerm true else CLine
  | CTerm false => CTerm true
  | CTerm true => CNone
  | CMulti false s =>
      if negb (is_none s) then CMulti false (advance s ch)
      else if ch =? 42 then CMulti true CNone
      else CMulti false (advance s ch)
  | CMulti true _ => if ch =? 47 then CTerm false else CMulti false CNone
  end.

(** The variables of [fmt] (write.rs 943-949). *)
Record fstate := FState { f_tabs : Z; f_newline : bool; f_comment : comment; f_string : bool; f_escape : bool }.
Definition fstart : fstate := FState 0 false CNone false false.

Definition i32 (z : Z) : option Z := if ((-2147483648 <=? z) && (z <=? 2147483647))%Z then Some z else None.
Definition closing (ch : char) : bool := (ch =? 93) || (ch =? 125) || (ch =? 41).
Definition opening (ch : char) : bool := (ch =? 91) || (ch =? 123) || (ch =? 40).
Definition blank (ch : char) : bool := (ch =? 10) || (ch =? 32).

(** write.rs 984-989: the line break and the spaces in front of a character. *)
Definition line_break (add_newline : bool) (tabs tab : Z) : option text :=
  if add_newline then
    match i32 (tabs * tab) with Some n => Some (10 :: repeat 32 (Z.to_nat n)) | None => None end
  else Some [].

(** write.rs 973-1005: a character outside of strings and comments, [nl] and [c] after 966-970. *)
Definition plain_step (tab : Z) (s : fstate) (nl : bool) (c : comment) (ch : char) : option (fstate * text) :=
  if blank ch then Some (FState (f_tabs s) nl c (f_string s) (f_escape s), [])
  else
    match i32 (if closing ch then f_tabs s - 1 else f_tabs s)%Z with
    | None => None
    | Some before =>
        match line_break (nl || closing ch) before tab with
        | None => None
        | Some pre =>
            match i32 (if opening ch then before + 1 else before)%Z with
            | None => None
            | Some after =>
                Some (FState after (opening ch || (ch =? 44)) c (f_string s) (f_escape s),
                      pre ++ ch :: (if ch =? 58 then [32] else []))
            end
        end
    end.
(** write.rs 966-972 *)
Definition code_step (tab : Z) (s : fstate) (ch : char) : option (fstate * text) :=
  let c := advance (f_comment s) ch in
  let nl := f_newline s || is_terminated c in
  let c := if is_terminated c then CNone else c in
  if is_active c then Some (FState (f_tabs s) nl c (f_string s) (f_escape s), [ch])
  else plain_step tab s nl c ch.
(** write.rs 950-965 *)
Definition fmt_step (tab : Z) (s : fstate) (ch : char) : option (fstate * text) :=
  if (ch =? 34) && negb (f_escape s) then
    Some (FState (f_tabs s) (f_newline s) (f_comment s) (negb (f_string s)) (f_escape s), [ch])
  else
    let esc := if ch =? 34 then false else if (ch =? 92) && f_string s then true else f_escape s in
    let s := FState (f_tabs s) (f_newline s) (f_comment s) (f_string s) esc in
    if f_string s then Some (s, [ch]) else code_step tab s ch.
Fixpoint fmt_go (tab : Z) (s : fstate) (t : text) : option (fstate * text) :=
  match t with
  | [] => Some (s, [])
  | ch :: t =>
      match fmt_step tab s ch with
      | None => None
      | Some (s, o) => match fmt_go tab s t with Some (s, r) => Some (s, o ++ r) | None => None end
      end
  end.
(** write.rs 941-1008 *)
Definition fmt (tab : Z) (t : text) : option text := option_map snd (fmt_go tab fstart t).
