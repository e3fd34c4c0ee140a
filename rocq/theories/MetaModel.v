(** * Meta data as values and as JSON

    Model of [parse_syntax_data] (src/dyon_std/meta.rs 15-57), without the parser, and of [json_from_meta_data]
    (185-282). The library of C38 gives the quoting of strings and the printing of numbers. Numbers of characters
    fit into 53 bits where the theorems say so; [None] is a panic: an element that is too short, or an
    overflow of the indentation. *)
From Coq Require Import String List ZArith NArith Bool.
From Verif Require Import Float64 DataModel.
Import ListNotations.
Local Open Scope list_scope.

(** piston_meta [MetaData], and a token with its place in the text *)
Inductive meta := MBool (name : text) (b : bool) | MString (name val : text) | MF64 (name : text) (x : f64) | MStart (name : text) | MEnd (name : text).
Record token := Token { t_offset : N; t_length : N; t_data : meta }.

(** meta.rs 26-55 *)
Definition token_data (t : token) : data :=
  let place := [DNum (f_of_Z (Z.of_N (t_offset t))); DNum (f_of_Z (Z.of_N (t_length t)))] in
  DArray (place ++
    match t_data t with
    | MBool n b => [DStr (tx "bool"); DStr n; DBool b]
    | MString n s => [DStr (tx "str"); DStr n; DStr s]
    | MF64 n x => [DStr (tx "f64"); DStr n; DNum x]
    | MStart n => [DStr (tx "start"); DStr n]
    | MEnd n => [DStr (tx "end"); DStr n]
    end).
(** meta.rs 19-57 *)
Definition syntax_data (ts : list token) : list data := map token_data ts.

(** meta.rs 186-208 [is_start_node], [is_end_node] *)
Definition is_kind (kind : text) (v : data) : option bool :=
  match v with
  | DArray arr =>
      match nth_error arr 2 with
      | None => None
      | Some (DStr t) => Some (text_eqb t kind)
      | Some _ => Some false
      end
  | _ => Some false
  end.
(** meta.rs 218-219 *)
Fixpoint count_kind (kind : text) (l : list data) : option N :=
  match l with
  | [] => Some 0%N
  | v :: l =>
      match is_kind kind v, count_kind kind l with
      | Some b, Some n => Some (if b then n + 1 else n)%N
      | _, _ => None
      end
  end.
Definition u32 (n : N) : N := (n mod 4294967296)%N.

Section Json.
Variable L : lib.

(** meta.rs 241-277: whether a node starts, and what is written *)
Definition json_item (v : data) : option (bool * text) :=
  match v with
  | DArray arr =>
      match nth_error arr 3, nth_error arr 2 with
      | Some n, Some k =>
          let name := match n with DStr t => t | _ => [] end in
          match k with
          | DStr t =>
              if text_eqb t (tx "start") then Some (true, quote L name ++ tx ":{")
              else if text_eqb t (tx "end") then Some (false, tx "}")
              else if text_eqb t (tx "bool") then
                match nth_error arr 4 with
                | None => None
                | Some (DBool b) => Some (false, quote L name ++ tx ":" ++ (if b then tx "true" else tx "false"))
                | Some _ => Some (false, [])
                end
              else if text_eqb t (tx "f64") then
                match nth_error arr 4 with
                | None => None
                | Some (DNum x) => Some (false, quote L name ++ tx ":" ++ show64 L x)
                | Some _ => Some (false, [])
                end
              else if text_eqb t (tx "str") then
                match nth_error arr 4 with
                | None => None
                | Some (DStr s) => Some (false, quote L name ++ tx ":" ++ quote L s)
                | Some _ => Some (false, [])
                end
              else Some (false, [])
          | _ => Some (false, [])
          end
      | _, _ => None
      end
  | _ => Some (false, [])
  end.

(** meta.rs 222-279; [zero]: `i == 0` *)
Fixpoint json_loop (indent : N) (first zero : bool) (l : list data) : option text :=
  match l with
  | [] => Some []
  | v :: l =>
      match is_kind (tx "end") v with
      | None => None
      | Some is_end =>
          if is_end && (indent =? 0)%N then None
          else
            let indent := if is_end then (indent - 1)%N else indent in
            let sep := if negb first && negb is_end then tx "," ++ [10%N] else if zero then [] else [10%N] in
            match json_item v with
            | None => None
            | Some (start, t) =>
                if start && (indent =? 4294967295)%N then None
                else
                  match json_loop (if start then indent + 1 else indent)%N start false l with
                  | None => None
                  | Some r => Some (sep ++ repeat 32%N (N.to_nat indent) ++ t ++ r)
                  end
            end
      end
  end.
(** meta.rs 185-282 *)
Definition json_from_meta_data (l : list data) : option text :=
  match count_kind (tx "start") l, count_kind (tx "end") l with
  | Some s, Some e =>
      let s := u32 s in
      let e := u32 e in
      match json_loop (N.max s e - N.min s e)%N true true l with
      | Some t => Some (t ++ [10%N])
      | None => None
      end
  | _, _ => None
  end.
End Json.
