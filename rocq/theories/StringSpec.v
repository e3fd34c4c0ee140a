(** * C76: What the functions of the string library mean. *)
From Coq Require Import String List NArith Bool Arith.
From Verif Require Import StringModel.
Import ListNotations.
Local Open Scope nat_scope.
Local Open Scope list_scope.

(** [t] is cut at its separators: the parts have none, and with the separators between them they are [t]. *)
Fixpoint weave (l : list text) (ds : text) : text :=
  match l, ds with
  | x :: l, d :: ds => x ++ d :: weave l ds
  | x :: _, [] => x
  | [], _ => []
  end.
Definition cut (sep : char -> Prop) (t : text) (l : list text) : Prop :=
  exists ds, length l = S (length ds) /\ Forall sep ds /\ Forall (Forall (fun c => ~ sep c)) l /\ t = weave l ds.

(** [t] is these lines. A line ends with a line feed or a carriage return and a line feed, the last one possibly with the end
    of the text. *)
Definition one_line (x : text) : Prop := ~ In lf x.
Definition returns (x : text) : Prop := exists y, x = y ++ [cr].
Inductive are_lines (keeps : bool) : text -> list text -> Prop :=
| Al_none : are_lines keeps [] []
| Al_lf x t l : one_line x -> ~ returns x -> are_lines keeps t l -> are_lines keeps (x ++ lf :: t) (x :: l)
| Al_crlf x t l : one_line x -> are_lines keeps t l -> are_lines keeps (x ++ cr :: lf :: t) (x :: l)
| Al_last x : one_line x -> x <> [] -> keeps = true \/ ~ returns x -> are_lines keeps x [x]
| Al_last_cr x : one_line x -> keeps = false -> are_lines keeps (x ++ [cr]) [x].

(** ASCII letters *)
Definition capital (c : char) : Prop := (65 <= c <= 90)%N.
Definition small (c : char) : Prop := (97 <= c <= 122)%N.

Section Values.
Variable pattern : Type.
Notation sval := (sval pattern).
(** The value of an argument: of a reference, that of the variable. *)
Inductive arg (stk : list sval) : sval -> sval -> Prop :=
| Ar_value v : (forall i, v <> SRef _ i) -> arg stk v v
| Ar_ref i v : nth_error stk i = Some v -> arg stk (SRef _ i) v.
(** The value of an element, through any number of references *)
Inductive means (stk : list sval) : sval -> sval -> Prop :=
| Me_ref i v w : nth_error stk i = Some v -> means stk v w -> means stk (SRef _ i) w
| Me_array l k : Forall2 (means stk) l k -> means stk (SArray _ l) (SArray _ k)
| Me_value v : (forall i, v <> SRef _ i) -> (forall l, v <> SArray _ l) -> means stk v v.
(** References are to variables that were there before. *)
Inductive below (n : nat) : sval -> Prop :=
| Be_ref i : i < n -> below n (SRef _ i)
| Be_array l : Forall (below n) l -> below n (SArray _ l)
| Be_value v : (forall i, v <> SRef _ i) -> (forall l, v <> SArray _ l) -> below n v.
Definition ordered (stk : list sval) : Prop := forall i v, nth_error stk i = Some v -> below i v.

(** The declarations of string/src/lib.rs 10-67 *)
Inductive sty := YText | YTexts | YBool | YAny.
Definition declared (f : fn) : list sty * sty :=
  match f with
  | FLines => ([YText], YTexts)
  | FSplit => ([YText; YTexts], YTexts)
  | FStartsWith | FEndsWith => ([YText; YText], YBool)
  | FLower | FUpper | FAsciiLower | FAsciiUpper => ([YText], YText)
  | FIsAscii => ([YText], YBool)
  | FRegex => ([YText], YAny)
  | FMatches => ([YAny; YText], YBool)
  end.
(** a value of a type, where a reference stands for what it refers to *)
Definition fits (stk : list sval) (v : sval) (y : sty) : Prop :=
  match y with
  | YText => exists t, arg stk v (SText _ t)
  | YTexts => exists l, arg stk v (SArray _ l) /\ Forall (fun v => exists t, means stk v (SText _ t)) l
  | YBool => exists b, arg stk v (SBool _ b)
  | YAny => True
  end.
(** each argument on the stack with those before it *)
Fixpoint fit_all (stk : list sval) (args : list sval) (ys : list sty) : Prop :=
  match args, ys with
  | [], [] => True
  | v :: args, y :: ys => fits stk v y /\ fit_all (stk ++ [v]) args ys
  | _, _ => False
  end.
End Values.
