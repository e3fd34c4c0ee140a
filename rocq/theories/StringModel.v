(** * The string library.

    Model of string/src/lib.rs. Its functions are declared with [dyon_fn]: the arguments are popped from the last to the first
    (src/macros.rs 52-60, 115-123; src/runtime/mod.rs 388-391; src/embed.rs 56-70).

    A text is the list of its characters. What Rust's library does with texts ([lines], [split], [starts_with], [ends_with],
    the functions for ASCII) is modelled after its documentation. Parameters are the Unicode tables of [to_lowercase] and
    [to_uppercase], the compiler and the matcher of the crate regex, and whether [lines] keeps a carriage return at the end of
    the text, which versions of Rust do differently. The kinds of values that no function of the library gives or
    takes are one, [SOther], and objects with fields are left out. Error messages are left out. A lock that was poisoned is
    left out. The crate names the kinds of values as older versions of Dyon did ([Text] for [Str]). *)
From Coq Require Import String List NArith Bool Arith.
Import ListNotations.
Local Open Scope nat_scope.
Local Open Scope list_scope.

Notation char := N (only parsing).
Notation text := (list N) (only parsing).
Definition lf : char := 10%N.
Definition cr : char := 13%N.

Section Library.
(** compiled patterns *)
Variable pattern : Type.
Record outer := Outer {
  lower : text -> text; upper : text -> text;                  (* [str::to_lowercase], [to_uppercase] *)
  compile : text -> option pattern;                            (* [Regex::new] *)
  matches : pattern -> text -> bool;                           (* [Regex::is_match] *)
  keeps_cr : bool }.
Variable R : outer.

(** lib.rs 194-233 [Variable] *)
Inductive sval :=
| SRef (i : nat)
| SText (t : text)
| SBool (b : bool)
| SArray (l : list sval)
| SOk (v : sval) | SErr
| SPattern (p : pattern)             (* a Rust object with a regex *)
| SRust                              (* another Rust object *)
| SOther.
(** A result, an error, a panic; [SOof] for references in a circle *)
Inductive out (A : Type) := Gives (a : A) | Fails | Panics | SOof.
Arguments Gives {A}. Arguments Fails {A}. Arguments Panics {A}. Arguments SOof {A}.
Definition sbind {A B} (x : out A) (f : A -> out B) : out B := match x with Gives a => f a | Fails => Fails | Panics => Panics | SOof => SOof end.

(** [Iterator::split]: the parts between characters with [p] *)
Fixpoint split_by (p : char -> bool) (t : text) : list text :=
  match t with
  | [] => [[]]
  | c :: t =>
      if p c then [] :: split_by p t
      else match split_by p t with x :: l => (c :: x) :: l | [] => [[c]] end
  end.
(** a carriage return at the end is removed *)
Fixpoint chomp (t : text) : text :=
  match t with
  | [] => []
  | [c] => if (c =? cr)%N then [] else [c]
  | c :: t => c :: chomp t
  end.
(** [str::lines] *)
Fixpoint lines_of (l : list text) : list text :=
  match l with
  | [] => []
  | [x] => match x with [] => [] | _ => [if keeps_cr R then x else chomp x] end
  | x :: l => chomp x :: lines_of l
  end.
Definition lines (t : text) : list text := lines_of (split_by (N.eqb lf) t).
(** lib.rs 80-84 *)
Definition separates (chs : list sval) (c : char) : bool :=
  existsb (fun v => match v with SText (d :: _) => (d =? c)%N | _ => false end) chs.
(** 77-90 *)
Definition split (t : text) (chs : sval) : list text := match chs with SArray chs => split_by (separates chs) t | _ => [] end.
(** 92-98 *)
Fixpoint starts_with (t p : text) : bool :=
  match p, t with
  | [], _ => true
  | c :: p, d :: t => (c =? d)%N && starts_with t p
  | _ :: _, [] => false
  end.
Definition ends_with (t p : text) : bool := starts_with (rev t) (rev p).
(** 108-118 *)
Definition is_ascii (t : text) : bool := forallb (fun c => (c <? 128)%N) t.
Definition to_ascii_lower (t : text) : text := map (fun c => if (65 <=? c)%N && (c <=? 90)%N then (c + 32)%N else c) t.
Definition to_ascii_upper (t : text) : text := map (fun c => if (97 <=? c)%N && (c <=? 122)%N then (c - 32)%N else c) t.

(** src/lib.rs 279-320 [deep_clone]; [n] bounds how many references follow each other *)
Fixpoint deep (n : nat) (stk : list sval) : sval -> out sval :=
  fix go v :=
    match v with
    | SRef i =>
        match n with
        | O => SOof
        | S n => match nth_error stk i with Some v => deep n stk v | None => Panics end
        end
    | SArray l =>
        (fix all l r := match l with
                        | [] => Gives (SArray (rev r))
                        | v :: l => sbind (go v) (fun v => all l (v :: r))
                        end) l []
    | v => Gives v
    end.
(** runtime/mod.rs 388-391 [pop]: the value that was on top, looked up; the stack is bottom first *)
Definition pop (stk : list sval) : out (sval * list sval) :=
  match rev stk with
  | [] => Panics
  | v :: r =>
      let stk := rev r in
      match v with
      | SRef i => match nth_error stk i with Some v => Gives (v, stk) | None => Panics end
      | v => Gives (v, stk)
      end
  end.
Definition pop_text (stk : list sval) : out (text * list sval) :=
  sbind (pop stk) (fun p => match p with (SText t, stk) => Gives (t, stk) | _ => Fails end).
(** embed.rs 56-60 *)
Definition pop_any (stk : list sval) : out (sval * list sval) :=
  sbind (pop stk) (fun p => match p with (v, stk) => sbind (deep (length stk) stk v) (fun v => Gives (v, stk)) end).

Inductive fn := FLines | FSplit | FStartsWith | FEndsWith | FLower | FUpper | FIsAscii | FAsciiLower | FAsciiUpper | FRegex | FMatches.
Definition texts (l : list text) : sval := SArray (map SText l).
Definition of_text (f : text -> sval) (stk : list sval) : out (sval * list sval) := sbind (pop_text stk) (fun p => match p with (t, stk) => Gives (f t, stk) end).
Definition of_texts (f : text -> text -> bool) (stk : list sval) : out (sval * list sval) :=
  sbind (pop_text stk) (fun p => match p with (b, stk) => sbind (pop_text stk) (fun p => match p with (a, stk) => Gives (SBool (f a b), stk) end) end).
(** 69-130: the result, and the stack afterwards *)
Definition run (f : fn) (stk : list sval) : out (sval * list sval) :=
  match f with
  | FLines => of_text (fun t => texts (lines t)) stk
  | FSplit => sbind (pop_any stk) (fun p => match p with (chs, stk) => of_text (fun t => texts (split t chs)) stk end)
  | FStartsWith => of_texts starts_with stk
  | FEndsWith => of_texts ends_with stk
  | FLower => of_text (fun t => SText (lower R t)) stk
  | FUpper => of_text (fun t => SText (upper R t)) stk
  | FIsAscii => of_text (fun t => SBool (is_ascii t)) stk
  | FAsciiLower => of_text (fun t => SText (to_ascii_lower t)) stk
  | FAsciiUpper => of_text (fun t => SText (to_ascii_upper t)) stk
  | FRegex => of_text (fun t => match compile R t with Some p => SOk (SPattern p) | None => SErr end) stk
  | FMatches =>
      sbind (pop_text stk) (fun p => match p with (t, stk) =>
      sbind (pop stk) (fun p => match p with (v, stk) =>
      match v with
      | SPattern p => Gives (SBool (matches R p t), stk)
      | SRust => Panics                                     (* 128: [downcast_ref().unwrap()] *)
      | _ => Fails
      end end) end)
  end.
End Library.
