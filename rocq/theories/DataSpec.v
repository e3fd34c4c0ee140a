(** * What loading written data should give. *)
From Coq Require Import String List ZArith NArith Bool SpecFloat.
From Verif Require Import Float64 DataModel.
Import ListNotations.
Local Open Scope list_scope.

Definition finite (x : f64) : Prop := match x with S754_zero _ | S754_finite _ _ _ => True | _ => False end.
Definition finite32 (x : f32) : Prop := finite x /\ valid_binary 24 128 x = true.
(** What follows a value: the end, or one of these characters. *)
Definition ends (t : text) : Prop := match t with [] => True | c :: _ => In c (tx " ,)]}") end.
Definition digits : text := tx "0123456789".
Definition letter (c : char) : Prop := (48 <= c <= 57 \/ 65 <= c <= 90 \/ 97 <= c <= 122)%N.

(** What is assumed of the libraries: the Unicode classes on ASCII; quoting and parsing a string are
    inverse, and so are printing and parsing a finite number (for an [f32], by way of [f64]). *)
Record laws (L : lib) : Prop := Laws {
  l_space : white L 32%N = true;
  l_print : forall c, (33 <= c <= 126)%N -> white L c = false;
  l_alnum : forall c, alnum L c = true -> white L c = false /\ ((c <= 127)%N -> letter c);
  l_quote : forall s, exists r, quote L s = 34%N :: r;
  l_str : forall s r, str L (quote L s ++ r) = Some (Some (s, r));
  l_str_none : forall c r, c <> 34%N -> str L (c :: r) = None;
  l_show : forall x, finite x -> exists c r, show64 L x = c :: r /\ In c (tx "-" ++ digits);
  l_num : forall x r, finite x -> ends r -> num L (show64 L x ++ r) = Some (Some (x, r));
  l_show32 : forall x, finite32 x -> exists c r, show32 L x = c :: r /\ In c (tx "-" ++ digits);
  l_num32 : forall x r, finite32 x -> ends r -> exists y, num L (show32 L x ++ r) = Some (Some (y, r)) /\ f32_of_f64 y = x;
  l_num_none : forall c r, ~ In c (tx "+-." ++ digits) -> num L (c :: r) = None }.

(** The data values the property speaks of, [stk] being the stack that references point into. *)
Inductive datum (stk : list data) : data -> Prop :=
  | d_ref i v : nth_error stk i = Some v -> datum stk v -> datum stk (DRef i)
  | d_str s : datum stk (DStr s)
  | d_num x : finite x -> datum stk (DNum x)
  | d_bool b : datum stk (DBool b)
  | d_vec4 x y z w : finite32 x -> finite32 y -> finite32 z -> finite32 w -> datum stk (DVec4 x y z w)
  | d_link l : Forall (fun v => match v with DStr _ | DBool _ => True | DNum x => finite x | _ => False end) l -> datum stk (DLink l)
  | d_array l : Forall (datum stk) l -> datum stk (DArray l)
  | d_object l : NoDup (map fst l) -> Forall (fun kv => fst kv <> []) l -> Forall (fun kv => datum stk (snd kv)) l -> datum stk (DObject l)
  | d_none : datum stk DNone
  | d_some v : datum stk v -> datum stk (DSome v).

(** The same value, with references followed. `0` and `-0` are the same component of a vector. *)
Definition same_number (x y : f32) : Prop := x = y \/ feq x f0 = true /\ y = f0.
Inductive same (stk : list data) : data -> data -> Prop :=
  | s_ref i v v' : nth_error stk i = Some v -> same stk v v' -> same stk (DRef i) v'
  | s_str s : same stk (DStr s) (DStr s)
  | s_num x : same stk (DNum x) (DNum x)
  | s_bool b : same stk (DBool b) (DBool b)
  | s_vec4 x y z w z' w' : same_number z z' -> same_number w w' -> same stk (DVec4 x y z w) (DVec4 x y z' w')
  | s_link l : same stk (DLink l) (DLink l)
  | s_array l l' : Forall2 (same stk) l l' -> same stk (DArray l) (DArray l')
  | s_object l l' : Forall2 (fun a b => fst a = fst b /\ same stk (snd a) (snd b)) l l' -> same stk (DObject l) (DObject l')
  | s_none : same stk DNone DNone
  | s_some v v' : same stk v v' -> same stk (DSome v) (DSome v').
