(** * Types as texts

    Model of [Type::description] (/repo/src/ty.rs 67-155), of the rules 100 and 101 of /repo/assets/syntax.txt that read
    a type, and of [list_functions] (/repo/src/dyon_std/functions.rs). A text is a sequence of bytes. Of the separators
    those outside of ASCII are left out, and so are comments between the words of a type. *)
From Coq Require Import String Ascii List Bool Arith.
From Verif Require Import TypeModel LifetimeModel NodesModel NodesSpec AstSpec.
Import ListNotations.
Local Open Scope string_scope.
Local Open Scope list_scope.

(** ** ty.rs 67-155. [None]: the panic of 115 *)
Definition bracketed (word : string) (t : ty) (d : option string) (empty : string) : option string :=
  match t with
  | TAny => Some empty
  | _ => match d with Some d => Some (word ++ "[" ++ d ++ "]")%string | None => None end
  end.
Fixpoint comma_list (l : list (option string)) : option string :=
  match l with
  | [] => Some ""
  | [d] => d
  | d :: l =>
      match d, comma_list l with Some d, Some r => Some (d ++ ", " ++ r)%string | _, _ => None end
  end.
Fixpoint description (t : ty) : option string :=
  match t with
  | TUnreachable => Some "unreachable"
  | TVoid => Some "void"
  | TAny => Some "any"
  | TBool => Some "bool"
  | TF64 => Some "f64"
  | TVec4 => Some "vec4"
  | TMat4 => Some "mat4"
  | TStr => Some "str"
  | TLink => Some "link"
  | TArray t => bracketed "" t (description t) "[]"
  | TObject => Some "{}"
  | TOption t => bracketed "opt" t (description t) "opt"
  | TResult t => bracketed "res" t (description t) "res"
  | TSecret TBool => Some "sec[bool]"
  | TSecret TF64 => Some "sec[f64]"
  | TSecret _ => None
  | TThread t => bracketed "thr" t (description t) "thr"
  | TIn t => bracketed "in" t (description t) "in"
  | TAdHoc x t => match description t with Some d => Some (x ++ " " ++ d)%string | None => None end
  | TClosure ts r =>
      match comma_list (map description ts), description r with
      | Some a, Some d => Some ("\(" ++ a ++ ") -> " ++ d)%string
      | _, _ => None
      end
  end.

(** ** The rules, as piston_meta reads them: alternatives in order, the first that fits is taken. *)
Inductive rres := ROk (b : list stx) (rest : string) | RFail | ROof.
Definition orelse (a b : rres) : rres := match a with RFail => b | _ => a end.

(** a text in quotes *)
Fixpoint tag (p t : string) : option string :=
  match p, t with
  | EmptyString, _ => Some t
  | String a p, String b t => if Ascii.eqb a b then tag p t else None
  | String _ _, EmptyString => None
  end.
Definition white (c : ascii) : bool := existsb (Ascii.eqb c) [" "; "009"; "010"; "011"; "012"; "013"]%char.
(** `?w`, without comments *)
Fixpoint skip (t : string) : string :=
  match t with String c r => if white c then skip r else t | EmptyString => t end.
(** `_seps`, line 1 of syntax.txt *)
Definition seps : list ascii := list_ascii_of_string "(){}[],.:;=<>*+-/%^?~|&!\" ++ ["010"; """"]%char.
Definition stops (c : ascii) : bool := white c || existsb (Ascii.eqb c) seps.
(** `.._seps!`: the characters up to a separator or white space *)
Fixpoint until (t : string) : string * string :=
  match t with
  | String c r => if stops c then ("", t) else match until r with (a, b) => (String c a, b) end
  | EmptyString => ("", "")
  end.

(** `"kw":"node"` *)
Definition word (kw node t : string) : rres := match tag kw t with Some r => ROk [flag node] r | None => RFail end.
(** `["kw" ?w "[" ?w type:"node" ?w "]"]` *)
Definition wrapped (R : string -> rres) (kw node t : string) : rres :=
  match tag kw t with
  | None => RFail
  | Some r =>
      match tag "[" (skip r) with
      | None => RFail
      | Some r =>
          match R (skip r) with
          | ROk b r => match tag "]" (skip r) with Some r => ROk [SNode node b] r | None => RFail end
          | x => x
          end
      end
  end.
(** `["sec" ?w "[" ?w {"bool":"sec_bool" "f64":"sec_f64"} ?w "]"]` *)
Definition secret (t : string) : rres :=
  match tag "sec" t with
  | None => RFail
  | Some r =>
      match tag "[" (skip r) with
      | None => RFail
      | Some r =>
          match orelse (word "bool" "sec_bool" (skip r)) (word "f64" "sec_f64" (skip r)) with
          | ROk b r => match tag "]" (skip r) with Some r => ROk b r | None => RFail end
          | x => x
          end
      end
  end.
(** `.s?.(, type:"cl_arg")`; the list may end after a comma, too *)
Fixpoint cl_list (k : nat) (R : string -> rres) (t : string) : rres :=
  match k with
  | O => ROof
  | S k =>
      match R t with
      | ROk b r =>
          match tag "," (skip r) with
          | Some r =>
              match cl_list k R (skip r) with
              | ROk l r => ROk (SNode "cl_arg" b :: l) r
              | x => x
              end
          | None => ROk [SNode "cl_arg" b] r
          end
      | RFail => ROk [] t
      | ROof => ROof
      end
  end.
(** 101 *)
Definition closure_rule (R : string -> rres) (k : nat) (t : string) : rres :=
  match tag "\(" t with
  | None => RFail
  | Some r =>
      match cl_list k R (skip r) with
      | ROk l r =>
          match tag ")" (skip r) with
          | None => RFail
          | Some r =>
              match tag "->" (skip r) with
              | None => RFail
              | Some r =>
                  match R (skip r) with
                  | ROk b r => ROk [SNode "closure_type" (l ++ [SNode "cl_ret" b])] r
                  | x => x
                  end
              end
          end
      | x => x
      end
  end.
(** `[!"sec" .._seps!:"ad_hoc" ?[?w type:"ad_hoc_ty"]]` *)
Definition ad_hoc_rule (R : string -> rres) (t : string) : rres :=
  match tag "sec" t with
  | Some _ => RFail
  | None =>
      match until t with
      | ("", _) => RFail
      | (x, r) =>
          match R (skip r) with
          | ROk b r => ROk [str "ad_hoc" x; SNode "ad_hoc_ty" b] r
          | RFail => ROk [str "ad_hoc" x] r
          | ROof => ROof
          end
      end
  end.
(** 100 *)
Fixpoint type_rule (n : nat) (t : string) : rres :=
  match n with
  | O => ROof
  | S n =>
      let R := type_rule n in
      orelse (word "any" "any" t) (orelse (word "bool" "bool" t) (orelse (word "f64" "f64" t) (orelse (word "str" "str" t)
      (orelse (word "vec4" "vec4" t) (orelse (word "mat4" "mat4" t) (orelse (word "link" "link" t)
      (orelse (wrapped R "opt" "opt" t) (orelse (word "opt" "opt_any" t)
      (orelse (wrapped R "res" "res" t) (orelse (word "res" "res_any" t)
      (orelse (secret t)
      (orelse (word "[]" "arr_any" t) (orelse (wrapped R "" "arr" t)
      (orelse (word "{}" "obj_any" t)
      (orelse (wrapped R "thr" "thr" t) (orelse (word "thr" "thr_any" t)
      (orelse (wrapped R "in" "in" t) (orelse (word "in" "in_any" t)
      (orelse (closure_rule R n t) (ad_hoc_rule R t))))))))))))))))))))
  end.
(** with enough depth for every text *)
Definition read_type (t : string) : rres := type_rule (S (S (String.length t))) t.

(** ** functions.rs: what `functions()` gives *)
Record ext_fn := ExtFn { x_name : string; x_lts : list lt; x_tys : list ty; x_ret : ty }.
Record loaded_arg := LoadedArg { a_name : string; a_lifetime : option string; a_ty : ty }.
Record loaded_fn := LoadedFn { l_name : string; l_args : list loaded_arg; l_ret : ty }.

Record listed_arg := ListedArg { g_name : string; g_lifetime : option string; g_takes : string }.
Record listed := Listed { f_name : string; f_external : bool; f_returns : string; f_arguments : list listed_arg }.

Fixpoint all_some {A} (l : list (option A)) : option (list A) :=
  match l with
  | [] => Some []
  | Some x :: l => match all_some l with Some r => Some (x :: r) | None => None end
  | None :: _ => None
  end.
(** `{}` of a number *)
Definition digit (n : nat) : string := String (ascii_of_nat (48 + n)) "".
Fixpoint decimal_ (k n : nat) : string :=
  match k with O => "" | S k => if (n <? 10)%nat then digit n else (decimal_ k (n / 10)%nat ++ digit (n mod 10)%nat)%string end.
Definition decimal (n : nat) : string := decimal_ (S n) n.
Definition arg_n (i : nat) : string := ("arg" ++ decimal i)%string.
(** 28-47 *)
Definition list_ext_arg (tys : list ty) (i : nat) (l : lt) : option listed_arg :=
  match nth_error tys i with
  | None => None
  | Some t =>
      match description t with
      | None => None
      | Some d => Some (ListedArg (arg_n i) (match l with LtDefault => None | LtArg j => Some (arg_n j) | LtReturn => Some "return" end) d)
      end
  end.
Fixpoint numbered {A B} (f : nat -> A -> B) (i : nat) (l : list A) : list B :=
  match l with [] => [] | x :: l => f i x :: numbered f (S i) l end.
(** 19-51 *)
Definition list_ext (f : ext_fn) : option listed :=
  match description (x_ret f), all_some (numbered (list_ext_arg (x_tys f)) 0 (x_lts f)) with
  | Some d, Some args => Some (Listed (x_name f) true d args)
  | _, _ => None
  end.
(** 52-75 *)
Definition list_loaded (f : loaded_fn) : option listed :=
  match description (l_ret f),
        all_some (map (fun a => match description (a_ty a) with Some d => Some (ListedArg (a_name a) (a_lifetime a) d) | None => None end) (l_args f)) with
  | Some d, Some args => Some (Listed (l_name f) false d args)
  | _, _ => None
  end.
(** 77-84: [sort_by] is stable *)
Definition not_after (a b : listed) : bool := match String.compare (f_name a) (f_name b) with Gt => false | _ => true end.
Fixpoint put (x : listed) (l : list listed) : list listed :=
  match l with [] => [x] | y :: l => if not_after x y then x :: y :: l else y :: put x l end.
Definition sort_names (l : list listed) : list listed := fold_right put [] l.
(** 6-86 *)
Definition list_functions (exts : list ext_fn) (fns : list loaded_fn) : option (list listed) :=
  match all_some (map list_ext exts), all_some (map list_loaded fns) with
  | Some a, Some b => Some (sort_names (a ++ b))
  | _, _ => None
  end.
