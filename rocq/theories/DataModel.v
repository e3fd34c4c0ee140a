(** * Writing and loading data.

    Model of [write_variable] (src/write.rs 13-157) and of src/dyon_std/data.rs.

    Texts are lists of Unicode code points. Not part of the repository, and so a parameter [lib]: how
    piston_meta quotes a string, how read_token recognises and parses strings and numbers, how Rust
    prints numbers, read_color, and the Unicode classes. Error messages are left out. Closures and
    secrets are left out; values that are printed as a fixed word are [DWord]. *)
From Coq Require Import String Ascii List ZArith NArith Bool Arith.
From Verif Require Import Float64.
Import ListNotations.
Local Open Scope string_scope.
Local Open Scope nat_scope.
Local Open Scope list_scope.

Notation char := N (only parsing).
Notation text := (list N) (only parsing).
(** A text of the source code. *)
Fixpoint tx (s : string) : text :=
  match s with EmptyString => [] | String a s => N_of_ascii a :: tx s end.

Record lib := Lib {
  white : char -> bool;                         (* [char::is_whitespace] *)
  alnum : char -> bool;                         (* [char::is_alphanumeric] *)
  quote : text -> text;                         (* piston_meta [json::write_string] *)
  (* read_token [string] and [parse_string]: no string; an error; the string and the rest *)
  str : text -> option (option (text * text));
  show64 : f64 -> text;                         (* [Display] *)
  show32 : f32 -> text;
  num : text -> option (option (f64 * text));   (* read_token [number] and [parse_number] *)
  color : text -> option (f32 * f32 * f32 * f32) }. (* read_color [rgb_maybe_a], over 255.0 *)

(** lib.rs 194-233 [Variable], as far as it is written here. *)
Inductive data :=
  | DRef (i : nat)
  | DStr (s : text)
  | DNum (x : f64)
  | DBool (b : bool)
  | DVec4 (x y z w : f32)
  | DMat4 (m : list (list f32))
  | DLink (l : list data)
  | DArray (l : list data)
  | DObject (l : list (text * data))
  | DNone | DSome (v : data)
  | DOk (v : data) | DErr (v : data)
  | DWord (w : text).

(** f32 `!= 0.0` *)
Definition nonzero (x : f32) : bool := negb (feq x f0).
(** Elements with [sep] between them (the loops over `i + 1 < n`). *)
Fixpoint joined (sep : text) (l : list text) : text :=
  match l with
  | [] => []
  | [x] => x
  | x :: l => x ++ sep ++ joined sep l
  end.
Definition all_some {A} : list (option A) -> option (list A) :=
  fix go l := match l with
              | [] => Some []
              | Some x :: l => match go l with Some r => Some (x :: r) | None => None end
              | None :: _ => None
              end.
Definition opt_map {A B} (f : A -> B) (o : option A) : option B := match o with Some x => Some (f x) | None => None end.

Section Data.
Variable L : lib.

(** write.rs 100-106 *)
Definition write_key (k : text) : text :=
  (if forallb (fun c => alnum L c || N.eqb c 95) k then k else quote L k) ++ (tx ": ").
(** write.rs 34-46 *)
Definition write_vec4 (x y z w : f32) : text :=
  (tx "(") ++ show32 L x ++ (tx ", ") ++ show32 L y ++
  (if nonzero z || nonzero w then
     (tx ", ") ++ show32 L z ++ (if nonzero w then (tx ", ") ++ show32 L w ++ (tx ")") else (tx ")"))
   else (tx ")")).

(** write.rs 13-157, with [rec] for the values inside. [json]: [EscapeString::Json]. *)
Definition write1 (stk : list data) (rec : bool -> data -> option text) (json : bool) (v : data) : option text :=
  match v with
  | DStr s => Some (if json then quote L s else s)
  | DNum x => Some (show64 L x)
  | DVec4 x y z w => Some (write_vec4 x y z w)
  | DMat4 m => Some (tx "mat4 {" ++ joined (tx "; ") (map (fun r => joined (tx ",") (map (show32 L) r)) m) ++ tx "}")
  | DBool b => Some (if b then tx "true" else tx "false")
  | DRef i => match nth_error stk i with Some v => rec json v | None => None end
  | DLink l =>
      if json
      then opt_map (fun ts => tx "link { " ++ concat (map (fun t => t ++ tx " ") ts) ++ tx "}") (all_some (map (rec true) l))
      else opt_map (@concat _) (all_some (map (rec false) l))
  | DObject l =>
      opt_map (fun ts => tx "{" ++ joined (tx ", ") ts ++ tx "}")
        (all_some (map (fun kv => match kv with (k, v) => opt_map (app (write_key k)) (rec true v) end) l))
  | DArray l => opt_map (fun ts => tx "[" ++ joined (tx ", ") ts ++ tx "]") (all_some (map (rec true) l))
  | DNone => Some (tx "none()")
  | DSome v => opt_map (fun t => tx "some(" ++ t ++ tx ")") (rec true v)
  | DErr v => opt_map (fun t => tx "err(" ++ t ++ tx ")") (rec true v)
  | DOk v => opt_map (fun t => tx "ok(" ++ t ++ tx ")") (rec true v)
  | DWord w => Some w
  end.
(** [n] bounds the depth; [None] when it is not enough. *)
Fixpoint write (n : nat) (stk : list data) (json : bool) (v : data) : option text :=
  match n with O => None | S n => write1 stk (write n stk) json v end.

(** ** Loading. A [ReadToken] is the text that is left. *)
Inductive parsed (A : Type) := POk (a : A) (rest : text) | PErr | POof.
Arguments POk {A}. Arguments PErr {A}. Arguments POof {A}.

(** read_token [tag] *)
Fixpoint tag (p t : text) : option text :=
  match p, t with
  | [], _ => Some t
  | a :: p, b :: t => if N.eqb a b then tag p t else None
  | _ :: _, [] => None
  end.
(** read_token [until_any] *)
Fixpoint until_any (set t : text) : text :=
  match t with
  | [] => []
  | c :: r => if existsb (N.eqb c) set then t else until_any set r
  end.
(** read_token [whitespace] *)
Fixpoint skip_white (t : text) : text :=
  match t with
  | [] => []
  | c :: r => if white L c then skip_white r else t
  end.
(** data.rs 340-377 *)
Fixpoint multi_line (n : nat) (t : text) : text :=
  match n with
  | O => t
  | S n =>
      match tag (tx "/*") t with
      | None => t
      | Some r =>
          let r := multi_loop n (until_any (tx "*/") r) in
          match tag (tx "*/") r with Some r => r | None => r end
      end
  end
with multi_loop (n : nat) (t : text) : text :=
  match n with
  | O => t
  | S n =>
      let t1 := match tag (tx "*/") t with
                | Some _ => t
                | None => match tag (tx "*") t with Some r => until_any (tx "*/") r | None => t end
                end in
      let t2 := multi_line n t1 in
      let t3 := if Nat.eqb (length t2) (length t1)
                then match tag (tx "/") t1 with Some r => until_any (tx "*/") r | None => t1 end
                else until_any (tx "*/") t2 in
      if Nat.eqb (length t3) (length t) then t3 else multi_loop n t3
  end.
(** data.rs 318-338 *)
Fixpoint opt_w_ (n : nat) (t : text) : text :=
  match n with
  | O => t
  | S n =>
      let a := skip_white t in
      let b := match tag (tx "//") a with Some r => until_any [10%N] r | None => a end in
      let c := multi_line (2 * length b) b in
      if Nat.eqb (length c) (length t) then c else opt_w_ n c
  end.
Definition opt_w (t : text) : text := opt_w_ (S (length t)) t.
(** data.rs 380-389 *)
Definition comma (t : text) : bool * text :=
  let t := opt_w t in
  match tag (tx ",") t with Some r => (true, opt_w r) | None => (false, opt_w t) end.

(** data.rs 46 *)
Definition seps : text := (tx "(){}[],.:;") ++ [10; 34; 92]%N.
(** read_token [until_any_or_whitespace]: what was read, and the rest *)
Fixpoint until_sep (t : text) : text * text :=
  match t with
  | [] => ([], [])
  | c :: r => if existsb (N.eqb c) seps || white L c then ([], t)
              else match until_sep r with (k, r) => (c :: k, r) end
  end.
(** [HashMap::insert] *)
Definition text_eqb (a b : text) : bool := if list_eq_dec N.eq_dec a b then true else false.
Fixpoint insert (k : text) (v : data) (l : list (text * data)) : list (text * data) :=
  match l with
  | [] => [(k, v)]
  | (k', v') :: l => if text_eqb k' k then (k', v) :: l else (k', v') :: insert k v l
  end.
(** data.rs 253-315 *)
Definition number (t : text) : parsed f64 :=
  match num L t with
  | Some (Some (x, r)) => POk x r
  | Some None => PErr
  | None => POof (* no number *)
  end.
Definition vec4_end (x y z w : f64) (t : text) : parsed data :=
  match tag (tx ")") (opt_w t) with
  | Some r => POk (DVec4 (f32_of_f64 x) (f32_of_f64 y) (f32_of_f64 z) (f32_of_f64 w)) r
  | None => PErr
  end.
Definition vec4_ (t : text) : parsed data :=
  match number t with
  | POk x r =>
      match number (snd (comma r)) with
      | POk y r =>
          match comma r with
          | (false, r) => vec4_end x y f0 f0 r
          | (true, r) =>
              match number r with
              | POk z r =>
                  match comma r with
                  | (_, r) =>
                      match number r with
                      | POk w r => vec4_end x y z w r
                      | PErr => PErr
                      | POof => vec4_end x y z f0 r
                      end
                  end
              | PErr => PErr
              | POof => vec4_end x y f0 f0 r
              end
          end
      | _ => PErr
      end
  | _ => PErr
  end.
(** data.rs 134-204; [ex] is [expr] *)
Fixpoint object_ (ex : text -> parsed data) (n : nat) (res : list (text * data)) (was_comma : bool) (t : text) : parsed data :=
  match n with
  | O => POof
  | S n =>
      let t := opt_w t in
      match tag (tx "}") t with
      | Some r => POk (DObject res) r
      | None =>
          if negb (match res with [] => true | _ => false end) && negb was_comma then PErr
          else
            let key : parsed text :=
              match str L t with
              | Some (Some (s, r)) => POk s r
              | Some None => PErr
              | None => match until_sep t with ([], _) => PErr | (k, r) => POk k r end
              end in
            match key with
            | POk k r =>
                match tag (tx ":") (opt_w r) with
                | None => PErr
                | Some r =>
                    match ex (opt_w r) with
                    | POk v r => match comma r with (b, r) => object_ ex n (insert k v res) b r end
                    | PErr => PErr
                    | POof => POof
                    end
                end
            | PErr => PErr
            | POof => POof
            end
      end
  end.
(** data.rs 206-227 *)
Fixpoint array_ (ex : text -> parsed data) (n : nat) (res : list data) (was_comma : bool) (t : text) : parsed data :=
  match n with
  | O => POof
  | S n =>
      let t := opt_w t in
      match tag (tx "]") t with
      | Some r => POk (DArray res) r
      | None =>
          if negb (match res with [] => true | _ => false end) && negb was_comma then PErr
          else match ex t with
               | POk v r => match comma r with (b, r) => array_ ex n (res ++ [v]) b r end
               | PErr => PErr
               | POof => POof
               end
      end
  end.
(** link.rs 252-284: what can be pushed *)
Definition linkable (v : data) : option (list data) :=
  match v with
  | DStr _ | DNum _ | DBool _ => Some [v]
  | DLink l => Some l
  | _ => None
  end.
Fixpoint link_loop (ex : text -> parsed data) (n : nat) (res : list data) (t : text) : parsed data :=
  match n with
  | O => POof
  | S n =>
      let t := opt_w t in
      match tag (tx "}") t with
      | Some r => POk (DLink res) r
      | None =>
          match ex t with
          | POk v r => match linkable v with Some l => link_loop ex n (res ++ l) r | None => PErr end
          | PErr => PErr
          | POof => POof
          end
      end
  end.
(** data.rs 229-244 *)
Definition link_ (ex : text -> parsed data) (n : nat) (t : text) : parsed data :=
  match tag (tx "{") (opt_w t) with
  | Some r => link_loop ex n [] (opt_w r)
  | None => PErr
  end.
(** data.rs 48-132 *)
Fixpoint expr (n : nat) (t : text) : parsed data :=
  match n with
  | O => POof
  | S n =>
      match tag (tx "{") t with Some r => object_ (expr n) n [] false r | None =>
      match tag (tx "[") t with Some r => array_ (expr n) n [] false r | None =>
      match tag (tx "(") t with Some r => vec4_ r | None =>
      match tag (tx "#") t with
      | Some r =>
          match color L (fst (until_sep r)) with
          | Some (a, b, c, d) => POk (DVec4 a b c d) r   (* the text of the color is not consumed *)
          | None => PErr
          end
      | None =>
      match tag (tx "link") t with Some r => link_ (expr n) n r | None =>
      match str L t with
      | Some (Some (s, r)) => POk (DStr s) r
      | Some None => PErr
      | None =>
      match num L t with
      | Some (Some (x, r)) => POk (DNum x) r
      | Some None => PErr
      | None =>
      match tag (tx "false") t with Some r => POk (DBool false) r | None =>
      match tag (tx "true") t with Some r => POk (DBool true) r | None =>
      match tag (tx "none()") t with Some r => POk DNone r | None =>
      match tag (tx "some(") t with
      | Some r =>
          match expr n (opt_w r) with
          | POk v r => match tag (tx ")") (opt_w r) with Some r => POk (DSome v) r | None => PErr end
          | PErr => PErr
          | POof => POof
          end
      | None => PErr
      end end end end end end end end end end end
  end.
(** data.rs 35-40. What follows the value is ignored. *)
Definition load_data (t : text) : parsed data := expr (S (length t)) (opt_w t).
End Data.
Arguments POk {A}. Arguments PErr {A}. Arguments POof {A}.
