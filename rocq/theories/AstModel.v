(** * From meta data to the syntax tree that is run.

    Model of the functions [from_meta_data] in /repo/src/ast/mod.rs and /repo/src/ty.rs and of [convert]
    (ast/mod.rs 21-60), up to the lookup of variables and functions (ResolveModel.v, ModuleModel.v).
    Definitions only.

    Simplifications:
    - source ranges, file names and source texts are left out; a position in the meta data is the list of the
      tokens from there on, and an ignored range is the list of the tokens in it;
    - piston_meta is not part of the repository. [Convert::ignore] follows its documentation: it skips a value, or
      a node from its start to its end. A loop that reaches the end of the data is out of fuel here;
    - every alternative of a loop first looks at the first token, and the alternatives of one loop look for
      different ones, so a sequence of alternatives is a choice by the first token. If the alternative that was
      chosen fails, the others fail too and the token or node is ignored;
    - Syntax.v has no place for the alias of a call, so it is a part of the name: [alias::name]. What [in f] refers
      to is looked up later; Syntax.v has the result only, so the lookup is a parameter;
    - [alloc n]: a vector of [n] values can be allocated (see FoldModel.v);
    - the threading feature is on. *)
From Coq Require Import String List Bool Arith ZArith Ascii.
From Verif Require Import PrintModel ColorModel Float64 TypeModel LifetimeModel NodesModel FoldModel TransformModel Syntax.
Import ListNotations.
Local Open Scope string_scope.
Local Open Scope nat_scope.
Local Open Scope list_scope.

(** ** Results *)

(** A value with the tokens left and what was ignored; [Err(())] with what was ignored before; a panic; out of fuel. *)
Definition skipped := list (list meta).
Inductive ares (A : Type) := AOk (a : A) (rest : list meta) (ign : skipped) | AErr (ign : skipped) | APanic | AOof.
Arguments AOk {A}. Arguments AErr {A}. Arguments APanic {A}. Arguments AOof {A}.
Definition amap {A B} (f : A -> B) (r : ares A) : ares B :=
  match r with AOk a rest i => AOk (f a) rest i | AErr i => AErr i | APanic => APanic | AOof => AOof end.
Definition also {A} (i : skipped) (r : ares A) : ares A :=
  match r with AOk a rest j => AOk a rest (i ++ j) | AErr j => AErr (i ++ j) | _ => r end.

(** One round of a loop: a new state, nothing that fits, [return Err(())], a panic, out of fuel. *)
Inductive sres (St : Type) := SNext (s : St) (rest : list meta) (ign : skipped) | SNone_ (ign : skipped) | SFail (ign : skipped) | SPanic | SOof.
Arguments SNext {St}. Arguments SNone_ {St}. Arguments SFail {St}. Arguments SPanic {St}. Arguments SOof {St}.
(** [else if let Ok((range, val)) = ... { convert.update(range); ... }] *)
Definition take {A St} (r : ares A) (f : A -> St) : sres St :=
  match r with
  | AOk a rest i => SNext (f a) rest i
  | AErr i => SNone_ i
  | APanic => SPanic
  | AOof => SOof
  end.
(** the same where the body can fail or panic *)
Definition take_if {A St} (r : ares A) (f : A -> folded St) : sres St :=
  match r with
  | AOk a rest i => match f a with FSome s => SNext s rest i | FNone_ => SFail i | FCrash => SPanic end
  | AErr i => SNone_ i
  | APanic => SPanic
  | AOof => SOof
  end.

(** [Convert::ignore]: the tokens skipped and the tokens left; [d] is the number of open nodes *)
Fixpoint ignore (d : nat) (ms : list meta) : option (list meta * list meta) :=
  match ms with
  | [] => Some ([], [])
  | m :: ms =>
      let more d := match ignore d ms with Some (a, b) => Some (m :: a, b) | None => None end in
      match m, d with
      | MStart _, _ => more (S d)
      | MEnd _, O => None
      | MEnd _, S O => Some ([m], ms)
      | MEnd _, S d => more d
      | _, O => Some ([m], ms)
      | _, S _ => more d
      end
  end.

(** The loop that all of these functions have: the end of the node, an alternative, or [convert.ignore()]. *)
Fixpoint loop {St} (k : nat) (name : string) (step : St -> list meta -> sres St) (s : St) (ms : list meta) : ares St :=
  match k with
  | O => AOof
  | S k =>
      let other :=
        match step s ms with
        | SNext s rest i => also i (loop k name step s rest)
        | SNone_ i =>
            match ignore 0 ms with
            | Some (g, rest) => also (i ++ [g]) (loop k name step s rest)
            | None => APanic
            end
        | SFail i => AErr i
        | SPanic => APanic
        | SOof => AOof
        end in
      match ms with
      | MEnd n :: rest => if (n =? name)%string then AOk s rest [] else other
      | _ => other
      end
  end.
(** The start of the node, the loop, and what is made of the state at the end. *)
Definition node {St A} (name : string) (step : St -> list meta -> sres St) (s : St) (fin : St -> folded A) (ms : list meta) : ares A :=
  match ms with
  | MStart n :: rest =>
      if (n =? name)%string then
        match loop (S (length rest)) name step s rest with
        | AOk s rest i => match fin s with FSome a => AOk a rest i | FNone_ => AErr i | FCrash => APanic end
        | AErr i => AErr i
        | APanic => APanic
        | AOof => AOof
        end
      else AErr []
  | _ => AErr []
  end.
(** [ok_or(())?] *)
Definition need {A} (x : option A) : folded A := match x with Some a => FSome a | None => FNone_ end.

(** ** ty.rs 468-597 [Type::from_meta_data] *)
Definition atoms : list (string * ty) :=
  [("any", TAny); ("bool", TBool); ("sec_bool", TSecret TBool); ("f64", TF64); ("sec_f64", TSecret TF64); ("str", TStr);
   ("vec4", TVec4); ("mat4", TMat4); ("link", TLink); ("opt_any", TOption TAny); ("res_any", TResult TAny);
   ("arr_any", TArray TAny); ("obj_any", TObject); ("thr_any", TThread TAny); ("in_any", TIn TAny)].
Definition wraps : list (string * (ty -> ty)) :=
  [("opt", TOption); ("res", TResult); ("arr", TArray); ("thr", TThread); ("in", TIn)].
(** 544-550: [while let] *)
Fixpoint cl_args (k : nat) (T : string -> list meta -> ares ty) (ms : list meta) : ares (list ty) :=
  match k with
  | O => AOof
  | S k =>
      match T "cl_arg" ms with
      | AOk t rest i => also i (amap (cons t) (cl_args k T rest))
      | AErr i => AOk [] ms i
      | APanic => APanic
      | AOof => AOof
      end
  end.
Definition type_step (T : string -> list meta -> ares ty) (s : option ty) (ms : list meta) : sres (option ty) :=
  match ms with
  | MBool n _ :: rest => match assoc n atoms with Some t => SNext (Some t) rest [] | None => SNone_ [] end
  | MString n v :: rest =>
      if (n =? "ad_hoc")%string then
        match T "ad_hoc_ty" rest with
        | AOk t rest i => SNext (Some (TAdHoc v t)) rest i
        | AErr i => SNext (Some (TAdHoc v TObject)) rest i
        | APanic => SPanic
        | AOof => SOof
        end
      else SNone_ []
  | MStart n :: rest =>
      match assoc n wraps with
      | Some f => take (T n ms) (fun t => Some (f t))
      | None =>
          if (n =? "closure_type")%string then
            match cl_args (S (length rest)) T rest with
            | AOk tys rest i =>
                match T "cl_ret" rest with
                | AOk r rest j =>
                    match rest with
                    | MEnd e :: rest => if (e =? "closure_type")%string then SNext (Some (TClosure tys r)) rest (i ++ j) else SFail (i ++ j)
                    | _ => SFail (i ++ j)
                    end
                | AErr j => SFail (i ++ j)
                | APanic => SPanic
                | AOof => SOof
                end
            | AErr i => SFail i
            | APanic => SPanic
            | AOof => SOof
            end
          else SNone_ []
      end
  | _ => SNone_ []
  end.
Fixpoint type_ (n : nat) (name : string) (ms : list meta) : ares ty :=
  match n with O => AOof | S n => node name (type_step (type_ n)) None need ms end.
(** as it is called: the depth of the data is not more than its length *)
Definition type_of (name : string) (ms : list meta) : ares ty := type_ (S (length ms)) name ms.

Section Convert.
Context (in_of : option string -> string -> callee) (alloc : Z -> bool).

Definition qualified (alias : option string) (name : string) : string :=
  match alias with Some a => (a ++ "::" ++ name)%string | None => name end.
Definition call (name : string) (args : list expr) : expr := ECall FNone name args.

(** ** Parts of expressions *)
Section Parts.
(** [Expression::from_meta_data] for the parts *)
Context (E : string -> list meta -> ares expr).

(** a step of a loop that collects the nodes [item] *)
Definition collect (item : string) (s : list expr) (ms : list meta) : sres (list expr) :=
  match ms with
  | MStart n :: _ => if (n =? item)%string then take (E item ms) (fun e => s ++ [e]) else SNone_ []
  | _ => SNone_ []
  end.
(** 986-1023 [Block] *)
Definition block (name : string) (ms : list meta) : ares (list expr) := node name (collect "expr") [] (@FSome _) ms.
(** 1702-1737 [Link] *)
Definition link (ms : list meta) : ares expr := node "link" (collect "link_item") [] (fun l => FSome (ELink l)) ms.
(** 1893-1928 [Array] *)
Definition array (ms : list meta) : ares expr := node "array" (collect "array_item") [] (fun l => FSome (EArray l)) ms.

(** a step that keeps the last node of each of the names *)
Fixpoint put (i : nat) (e : expr) (s : list (option expr)) : list (option expr) :=
  match s, i with x :: s, O => Some e :: s | x :: s, S i => x :: put i e s | [], _ => [] end.
Fixpoint pos (n : string) (l : list string) : option nat :=
  match l with [] => None | x :: l => if (n =? x)%string then Some 0 else option_map S (pos n l) end.
Definition slots (names : list string) (s : list (option expr)) (ms : list meta) : sres (list (option expr)) :=
  match ms with
  | MStart n :: _ => match pos n names with Some i => take (E n ms) (fun e => put i e s) | None => SNone_ [] end
  | _ => SNone_ []
  end.
(** 671-713 [Grab], 758-792 [TryExpr], 3130-3165 [Norm], 3234-3289 [UnOpExpression]: one expression *)
Definition one (name : string) (f : expr -> expr) (ms : list meta) : ares expr :=
  node name (slots ["expr"]) [None] (fun s => match s with [Some e] => FSome (f e) | _ => FNone_ end) ms.
Definition norm (ms : list meta) : ares expr := one "norm" (fun e => call "norm" [e]) ms.
Definition not_ (ms : list meta) : ares expr := one "not" (fun e => call "not" [e]) ms.
Definition neg (ms : list meta) : ares expr := one "neg" (fun e => call "neg" [e]) ms.
Definition try_expr (ms : list meta) : ares expr := one "try_expr" ETryExpr ms.
Definition grab_step (s : option Z * option expr) (ms : list meta) : sres (option Z * option expr) :=
  match ms with
  | MF64 n v :: rest => if (n =? "grab_level")%string then SNext (Some (f64_to_u16 v), snd s) rest [] else SNone_ []
  | MStart n :: _ => if (n =? "expr")%string then take (E "expr" ms) (fun e => (fst s, Some e)) else SNone_ []
  | _ => SNone_ []
  end.
Definition grab (ms : list meta) : ares (Z * expr) :=
  node "grab" grab_step (None, None)
    (fun s => match s with
              | (l, Some e) => FSome (match l with Some z => z | None => 1%Z end, e)
              | _ => FNone_
              end) ms.
(** 1377-1383 *)
Definition grab_expr (ms : list meta) : ares expr :=
  match grab ms with
  | AOk (level, e) rest i =>
      match make_grab alloc (Z.to_nat level) e with FSome e => AOk e rest i | FNone_ => AErr i | FCrash => APanic end
  | AErr i => AErr i
  | APanic => APanic
  | AOof => AOof
  end.
(** 1971-2015 [ArrayFill] *)
Definition array_fill (ms : list meta) : ares expr :=
  node "array_fill" (slots ["fill"; "n"]) [None; None]
    (fun s => match s with [Some a; Some n] => FSome (EArrayFill a n) | _ => FNone_ end) ms.
(** 3551-3614 [Vec4]; 3447-3518 [Mat4] *)
Definition or_else (x : option expr) (v : value) : expr := match x with Some e => e | None => EVar v end.
Definition zero : value := vf64 (f_of_Z 0).
Definition vec4_ (ms : list meta) : ares expr :=
  node "vec4" (slots ["x"; "y"; "z"; "w"]) [None; None; None; None]
    (fun s => match s with
              | [Some x; y; z; w] => FSome (EVec4 [x; or_else y zero; or_else z zero; or_else w zero])
              | _ => FNone_
              end) ms.
Definition row (x y z w : Z) : value := VVec4 (V4 (g_of_Z x) (g_of_Z y) (g_of_Z z) (g_of_Z w)).
Definition mat4_ (ms : list meta) : ares expr :=
  node "mat4" (slots ["ex"; "ey"; "ez"; "ew"]) [None; None; None; None]
    (fun s => match s with
              | [Some x; y; z; w] => FSome (EMat4 [x; or_else y (row 0 1 0 0); or_else z (row 0 0 1 0); or_else w (row 0 0 0 1)])
              | _ => FNone_
              end) ms.

(** 1829-1863, 1780-1815 [Object] *)
Definition key_value_step (s : option string * option expr) (ms : list meta) : sres (option string * option expr) :=
  match ms with
  | MString n v :: rest => if (n =? "key")%string then SNext (Some v, snd s) rest [] else SNone_ []
  | MStart n :: _ => if (n =? "val")%string then take (E "val" ms) (fun e => (fst s, Some e)) else SNone_ []
  | _ => SNone_ []
  end.
Definition key_value (ms : list meta) : ares (string * expr) :=
  node "key_value" key_value_step (None, None) (fun s => match s with (Some k, Some e) => FSome (k, e) | _ => FNone_ end) ms.
Definition object_step (s : list (string * expr)) (ms : list meta) : sres (list (string * expr)) :=
  match ms with
  | MStart n :: _ => if (n =? "key_value")%string then take (key_value ms) (fun kv => s ++ [kv]) else SNone_ []
  | _ => SNone_ []
  end.
Definition object (ms : list meta) : ares expr := node "object" object_step [] (fun l => FSome (EObject l)) ms.

(** 2057-2155 [BinOpSeq]; the symbols of 2083-2131 are those of node.rs ([binop_table]) *)
Definition seq_symbols : list (string * binop) :=
  [("*.", PrintModel.Dot); ("x", PrintModel.Cross); ("*", PrintModel.Mul); ("/", PrintModel.Div); ("%", PrintModel.Rem);
   ("+", PrintModel.Add); ("-", PrintModel.Sub); ("||", PrintModel.OrElse); ("^", PrintModel.Pow); ("&&", PrintModel.AndAlso);
   ("<", PrintModel.Less); ("<=", PrintModel.LessOrEqual); (">", PrintModel.Greater); (">=", PrintModel.GreaterOrEqual);
   ("==", PrintModel.Equal); ("!=", PrintModel.NotEqual)].
(** 3193-3223 [BinOpExpression::into_expression] with the names of lib.rs 131-146 *)
Definition op_function (b : binop) : string :=
  match b with
  | PrintModel.Add => "add" | PrintModel.Sub => "sub" | PrintModel.Mul => "mul" | PrintModel.Div => "div" | PrintModel.Rem => "rem"
  | PrintModel.Pow => "pow" | PrintModel.Dot => "dot" | PrintModel.Cross => "cross" | PrintModel.AndAlso => "and_also"
  | PrintModel.OrElse => "or_else" | PrintModel.Less => "less" | PrintModel.LessOrEqual => "less_or_equal"
  | PrintModel.Greater => "greater" | PrintModel.GreaterOrEqual => "greater_or_equal"
  | PrintModel.Equal => "equal" | PrintModel.NotEqual => "not_equal"
  end.
(** 2157-2175; [items] and [ops] in reverse order, so that [pop] takes the first; the operator is taken first, and there is
    at least one item *)
Fixpoint into_expression (items : list expr) (ops : list binop) : folded expr :=
  match items with
  | [] => FCrash
  | [e] => FSome e
  | e :: items =>
      match ops with
      | [] => FCrash
      | o :: ops => fbind (into_expression items ops) (fun l => FSome (call (op_function o) [l; e]))
      end
  end.
Definition seq_step (B : list meta -> ares expr) (s : list expr * list binop) (ms : list meta) : sres (list expr * list binop) :=
  match ms with
  | MStart n :: _ =>
      if (n =? "neg")%string then take (neg ms) (fun e => (e :: fst s, snd s))
      else if (n =? "pow")%string then take (B ms) (fun e => (e :: fst s, snd s))
      else if (n =? "expr")%string then take (E "expr" ms) (fun e => (e :: fst s, snd s))
      else SNone_ []
  | MBool n _ :: rest => match assoc n seq_symbols with Some o => SNext (fst s, o :: snd s) rest [] | None => SNone_ [] end
  | _ => SNone_ []
  end.
(** with [into_expression]; [Err] if there are no items. The code converts the sequence after the node was read, here both
    are one function. *)
Fixpoint bin_seq (k : nat) (name : string) (ms : list meta) : ares expr :=
  match k with
  | O => AOof
  | S k => node name (seq_step (bin_seq k "pow")) ([], []) (fun s => match fst s with [] => FNone_ | _ => into_expression (fst s) (snd s) end) ms
  end.

(** 2377-2450 [Item] *)
Record ist := Ist { i_name : option string; i_current : bool; i_try : bool; i_ids : list idx; i_tries : list nat }.
Definition item_step (s : ist) (ms : list meta) : sres ist :=
  let id x := Ist (i_name s) (i_current s) (i_try s) (i_ids s ++ [x]) (i_tries s) in
  match ms with
  | MString n v :: rest =>
      if (n =? "name")%string then SNext (Ist (Some v) (i_current s) (i_try s) (i_ids s) (i_tries s)) rest []
      else if (n =? "id")%string then SNext (id (IdStr v)) rest []
      else SNone_ []
  | MBool n _ :: rest =>
      if (n =? "current")%string then SNext (Ist (i_name s) true (i_try s) (i_ids s) (i_tries s)) rest []
      else if (n =? "try_item")%string then SNext (Ist (i_name s) (i_current s) true (i_ids s) (i_tries s)) rest []
      else if (n =? "try_id")%string then
        match length (i_ids s) with
        | O => SPanic
        | S j => SNext (Ist (i_name s) (i_current s) (i_try s) (i_ids s) (i_tries s ++ [j])) rest []
        end
      else SNone_ []
  | MF64 n v :: rest => if (n =? "id")%string then SNext (id (IdF64 v)) rest [] else SNone_ []
  | MStart n :: rest =>
      if (n =? "item_extra")%string then SNext s rest []
      else if (n =? "id")%string then take (E "id" ms) (fun e => id (IdExpr e))
      else SNone_ []
  | MEnd n :: rest => if (n =? "item_extra")%string then SNext s rest [] else SNone_ []
  | [] => SNone_ []
  end.
Definition item_ (ms : list meta) : ares item :=
  node "item" item_step (Ist None false false [] [])
    (fun s => match i_name s with Some n => FSome (Item n None (i_current s) (i_try s) (i_ids s) (i_tries s)) | None => FNone_ end) ms.

(** Names with mutability: 488-501, 2720-2735, 2792-2803 *)
Definition with_marks (name : string) (marks : list bool) : string :=
  if existsb (fun b => b) marks then
    (name ++ "(" ++ snd (fold_left (fun (acc : bool * string) (b : bool) =>
        (false, (snd acc ++ (if fst acc then "" else ",") ++ (if b then "mut" else "_"))%string)) marks (true, ""%string)) ++ ")")%string
  else name.
(** 2696-2706: [mut] directly after the start of the argument *)
Definition marked_arg (ms : list meta) : bool :=
  match ms with MStart _ :: MBool n _ :: _ => (n =? "mut")%string | _ => false end.
(** 2674-2750 [Call], 2753-2823 [Call::named_from_meta_data] *)
Record kst := Kst { k_alias : option string; k_name : option string; k_args : list expr; k_marks : list bool }.
Definition call_step (named : bool) (s : kst) (ms : list meta) : sres kst :=
  match ms with
  | MString n v :: rest =>
      if (n =? "alias")%string then SNext (Kst (Some v) (k_name s) (k_args s) (k_marks s)) rest []
      else if negb named && (n =? "name")%string then SNext (Kst (k_alias s) (Some v) (k_args s) (k_marks s)) rest []
      else if named && (n =? "word")%string then
        let old := match k_name s with Some x => x | None => "" end in
        SNext (Kst (k_alias s) (Some (if (old =? "")%string then v ++ "_" else old ++ "_" ++ v)%string) (k_args s) (k_marks s)) rest []
      else SNone_ []
  | MStart n :: _ =>
      if (n =? "call_arg")%string then
        take (E "call_arg" ms) (fun e => Kst (k_alias s) (k_name s) (k_args s ++ [e]) (k_marks s ++ [marked_arg ms]))
      else SNone_ []
  | _ => SNone_ []
  end.
(** alias, name, arguments *)
Definition call_ (ms : list meta) : ares (option string * string * list expr) :=
  node "call" (call_step false) (Kst None None [] [])
    (fun s => match k_name s with Some n => FSome (k_alias s, with_marks n (k_marks s), k_args s) | None => FNone_ end) ms.
Definition named_call (ms : list meta) : ares (option string * string * list expr) :=
  node "named_call" (call_step true) (Kst None None [] [])
    (fun s => FSome (k_alias s, with_marks (match k_name s with Some n => n | None => "" end) (k_marks s), k_args s)) ms.
Definition call_expr (c : option string * string * list expr) : expr := match c with (a, n, args) => call (qualified a n) args end.
(** 2495-2536 [Go] *)
Definition go_step (s : option (option string * string * list expr)) (ms : list meta) : sres (option (option string * string * list expr)) :=
  match ms with
  | MStart n :: _ =>
      if (n =? "call")%string then take (call_ ms) (@Some _)
      else if (n =? "named_call")%string then take (named_call ms) (@Some _)
      else SNone_ []
  | _ => SNone_ []
  end.
Definition go (ms : list meta) : ares expr :=
  node "go" go_step None (fun s => match s with Some (a, n, args) => FSome (EGo (qualified a n) args) | None => FNone_ end) ms.
(** 2943-2993 [CallClosure], 2996-3069 with words *)
Record cst_ := Cst_ { c_item : option item; c_word : string; c_args : list expr }.
Definition closure_step (named : bool) (s : cst_) (ms : list meta) : sres cst_ :=
  match ms with
  | MString n v :: rest =>
      if named && (n =? "word")%string then
        SNext (Cst_ (c_item s) (if (c_word s =? "")%string then v else (c_word s ++ "_" ++ v)%string) (c_args s)) rest []
      else SNone_ []
  | MStart n :: _ =>
      if (n =? "item")%string then take (item_ ms) (fun it => Cst_ (Some it) (c_word s) (c_args s))
      else if (n =? "call_arg")%string then take (E "call_arg" ms) (fun e => Cst_ (c_item s) (c_word s) (c_args s ++ [e]))
      else SNone_ []
  | _ => SNone_ []
  end.
Definition call_closure (ms : list meta) : ares expr :=
  node "call_closure" (closure_step false) (Cst_ None "" [])
    (fun s => match c_item s with Some it => FSome (ECallClosure it (c_args s)) | None => FNone_ end) ms.
(** 3044-3061 *)
Fixpoint last_word (w : string) (ids : list idx) : list idx :=
  match ids with
  | [] => []
  | [IdStr x] => [IdStr (x ++ "__" ++ w)%string]
  | [i] => [i]
  | i :: ids => i :: last_word w ids
  end.
Definition with_word (w : string) (it : item) : item :=
  match it with
  | Item n sid c t [] tr => Item (n ++ "__" ++ w)%string sid c t [] tr
  | Item n sid c t ids tr => Item n sid c t (last_word w ids) tr
  end.
Definition named_call_closure (ms : list meta) : ares expr :=
  node "named_call_closure" (closure_step true) (Cst_ None "" [])
    (fun s => match c_item s with Some it => FSome (ECallClosure (with_word (c_word s) it) (c_args s)) | None => FNone_ end) ms.

(** 3298-3363 [Assign] *)
Definition assign_symbols : list (string * assign_op) :=
  [(":=", OpAssign); ("=", OpSet); ("+=", OpAdd); ("-=", OpSub); ("*=", OpMul); ("/=", OpDiv); ("%=", OpRem); ("^=", OpPow)].
Definition assign_step (s : option assign_op * list (option expr)) (ms : list meta) : sres (option assign_op * list (option expr)) :=
  match ms with
  | MBool n _ :: rest => match assoc n assign_symbols with Some o => SNext (Some o, snd s) rest [] | None => SNone_ [] end
  | MStart n :: _ => match pos n ["left"; "right"] with Some i => take (E n ms) (fun e => (fst s, put i e (snd s))) | None => SNone_ [] end
  | _ => SNone_ []
  end.
Definition assign (ms : list meta) : ares expr :=
  node "assign" assign_step (None, [None; None])
    (fun s => match s with (Some o, [Some l; Some r]) => FSome (EAssign o l r) | _ => FNone_ end) ms.

(** 3675-3727 [Vec4UnLoop] *)
Definition un_loop_step (s : nat * option string * option expr) (ms : list meta) : sres (nat * option string * option expr) :=
  match s with
  | (len, name, e) =>
      match ms with
      | MBool n _ :: rest =>
          if (n =? "4")%string then SNext (4, name, e) rest []
          else if (n =? "3")%string then SNext (3, name, e) rest []
          else if (n =? "2")%string then SNext (2, name, e) rest []
          else SNone_ []
      | MString n v :: rest => if (n =? "name")%string then SNext (len, Some v, e) rest [] else SNone_ []
      | MStart n :: _ => if (n =? "expr")%string then take (E "expr" ms) (fun e => (len, name, Some e)) else SNone_ []
      | _ => SNone_ []
      end
  end.
Definition un_loop (ms : list meta) : ares expr :=
  node "vec4_un_loop" un_loop_step (4, None, None)
    (fun s => match s with (len, Some name, Some e) => FSome (vec4_un_loop name len e) | _ => FNone_ end) ms.

(** 3850-3890 [Sw], 3774-3832 [Swizzle] *)
Definition sw_step (s : option nat) (ms : list meta) : sres (option nat) :=
  match ms with
  | MBool n _ :: rest => match pos n ["x"; "y"; "z"; "w"] with Some i => SNext (Some i) rest [] | None => SNone_ [] end
  | _ => SNone_ []
  end.
Definition sw (name : string) (ms : list meta) : ares nat := node name sw_step None need ms.
Fixpoint put_nat (i : nat) (e : nat) (s : list (option nat)) : list (option nat) :=
  match s, i with x :: s, O => Some e :: s | x :: s, S i => x :: put_nat i e s | [], _ => [] end.
Definition swizzle_step (s : list (option nat) * option expr) (ms : list meta) : sres (list (option nat) * option expr) :=
  match ms with
  | MStart n :: _ =>
      match pos n ["sw0"; "sw1"; "sw2"; "sw3"] with
      | Some i => take (sw n ms) (fun c => (put_nat i c (fst s), snd s))
      | None => if (n =? "expr")%string then take (E "expr" ms) (fun e => (fst s, Some e)) else SNone_ []
      end
  | _ => SNone_ []
  end.
Definition given (l : list (option nat)) : list nat := flat_map (fun x => match x with Some i => [i] | None => [] end) l.
Definition swizzle (ms : list meta) : ares expr :=
  node "swizzle" swizzle_step ([None; None; None; None], None)
    (fun s => match s with ([Some a; Some b; c; d], Some e) => FSome (ESwizzle (a :: b :: given [c; d]) e) | _ => FNone_ end) ms.

(** 3913-3978 [For]; 4297-4334, 4336-4353 [Loop] *)
Record fst_ := Fst_ { l_parts : list (option expr); l_block : option (list expr); l_label : option string }.
Definition for_step (names : list string) (s : fst_) (ms : list meta) : sres fst_ :=
  match ms with
  | MString n v :: rest => if (n =? "label")%string then SNext (Fst_ (l_parts s) (l_block s) (Some v)) rest [] else SNone_ []
  | MStart n :: _ =>
      match pos n names with
      | Some i => take (E n ms) (fun e => Fst_ (put i e (l_parts s)) (l_block s) (l_label s))
      | None => if (n =? "block")%string then take (block "block" ms) (fun b => Fst_ (l_parts s) (Some b) (l_label s)) else SNone_ []
      end
  | _ => SNone_ []
  end.
Definition for_ (ms : list meta) : ares expr :=
  node "for" (for_step ["init"; "cond"; "step"]) (Fst_ [None; None; None] None None)
    (fun s => match s with Fst_ [Some i; Some c; Some t] (Some b) l => FSome (EFor l i c t b) | _ => FNone_ end) ms.
Definition loop_ (ms : list meta) : ares expr :=
  node "loop" (for_step []) (Fst_ [] None None)
    (fun s => match s with Fst_ _ (Some b) l => FSome (EFor l (EBlock []) (EVar (vbool true)) (EBlock []) b) | _ => FNone_ end) ms.
(** 4024-4078 [ForIn] *)
Definition for_in_step (s : fst_ * option string) (ms : list meta) : sres (fst_ * option string) :=
  let other := match for_step ["iter"] (fst s) ms with
               | SNext f rest i => SNext (f, snd s) rest i
               | SNone_ i => SNone_ i | SFail i => SFail i | SPanic => SPanic | SOof => SOof
               end in
  match ms with
  | MString n v :: rest => if (n =? "name")%string then SNext (fst s, Some v) rest [] else other
  | _ => other
  end.
Definition for_in (name : string) (k : loopk) (ms : list meta) : ares expr :=
  node name for_in_step (Fst_ [None] None None, None)
    (fun s => match s with (Fst_ [Some it] (Some b) l, Some x) => FSome (EForIn k l x it b) | _ => FNone_ end) ms.
(** 4144-4202 [ForN]; 4204-4261 is [for_n_create] *)
Record nst := Nst { n_indices : list (string * option expr * option expr); n_block : option (list expr); n_label : option string }.
Definition optional (name : string) (ms : list meta) : ares (option expr) :=
  match E name ms with
  | AOk e rest i => AOk (Some e) rest i
  | AErr i => AOk None ms i
  | APanic => APanic
  | AOof => AOof
  end.
Definition for_n_step (s : nst) (ms : list meta) : sres nst :=
  match ms with
  | MString n v :: rest =>
      if (n =? "label")%string then SNext (Nst (n_indices s) (n_block s) (Some v)) rest []
      else if (n =? "name")%string then
        match optional "start" rest with
        | AOk a rest i =>
            match optional "end" rest with
            | AOk b rest j => SNext (Nst (n_indices s ++ [(v, a, b)]) (n_block s) (n_label s)) rest (i ++ j)
            | AErr j => SFail (i ++ j)
            | APanic => SPanic
            | AOof => SOof
            end
        | AErr i => SFail i
        | APanic => SPanic
        | AOof => SOof
        end
      else SNone_ []
  | MStart n :: _ => if (n =? "block")%string then take (block "block" ms) (fun b => Nst (n_indices s) (Some b) (n_label s)) else SNone_ []
  | _ => SNone_ []
  end.
Definition for_n (name : string) (k : loopk) (ms : list meta) : ares expr :=
  node name for_n_step (Nst [] None None)
    (fun s => match n_block s with Some b => need (for_n_create k (n_label s) (n_indices s) b) | None => FNone_ end) ms.

(** 4370-4403 [Break], 4415-4448 [Continue] *)
Definition label_step (s : option string) (ms : list meta) : sres (option string) :=
  match ms with
  | MString n v :: rest => if (n =? "label")%string then SNext (Some v) rest [] else SNone_ []
  | _ => SNone_ []
  end.
Definition break_ (ms : list meta) : ares expr := node "break" label_step None (fun l => FSome (EBreak l)) ms.
Definition continue_ (ms : list meta) : ares expr := node "continue" label_step None (fun l => FSome (EContinue l)) ms.

(** 4468-4533 [If] *)
Record ifst := Ifst { f_cond : option expr; f_true : option (list expr); f_conds : list expr; f_blocks : list (list expr); f_else : option (list expr) }.
Definition if_step (s : ifst) (ms : list meta) : sres ifst :=
  match ms with
  | MStart n :: _ =>
      if (n =? "cond")%string then take (E n ms) (fun e => Ifst (Some e) (f_true s) (f_conds s) (f_blocks s) (f_else s))
      else if (n =? "true_block")%string then take (block n ms) (fun b => Ifst (f_cond s) (Some b) (f_conds s) (f_blocks s) (f_else s))
      else if (n =? "else_if_cond")%string then take (E n ms) (fun e => Ifst (f_cond s) (f_true s) (f_conds s ++ [e]) (f_blocks s) (f_else s))
      else if (n =? "else_if_block")%string then take (block n ms) (fun b => Ifst (f_cond s) (f_true s) (f_conds s) (f_blocks s ++ [b]) (f_else s))
      else if (n =? "else_block")%string then take (block n ms) (fun b => Ifst (f_cond s) (f_true s) (f_conds s) (f_blocks s) (Some b))
      else SNone_ []
  | _ => SNone_ []
  end.
Definition if_ (ms : list meta) : ares expr :=
  node "if" if_step (Ifst None None [] [] None)
    (fun s => match f_cond s, f_true s with Some c, Some t => FSome (EIf c t (f_conds s) (f_blocks s) (f_else s)) | _, _ => FNone_ end) ms.

(** 4587-4620 [In] *)
Definition in_step (s : option string * option string) (ms : list meta) : sres (option string * option string) :=
  match ms with
  | MString n v :: rest =>
      if (n =? "alias")%string then SNext (Some v, snd s) rest []
      else if (n =? "name")%string then SNext (fst s, Some v) rest []
      else SNone_ []
  | _ => SNone_ []
  end.
Definition in_ (ms : list meta) : ares expr :=
  node "in" in_step (None, None) (fun s => match s with (a, Some n) => FSome (EIn (in_of a n)) | _ => FNone_ end) ms.

(** 843-918 [Arg]: name, lifetime, type, mutable, and the lazy invariants *)
Record arg := Arg { r_name : string; r_lifetime : option string; r_ty : ty; r_mut : bool }.
Record ast_ := Ast_ { s_name : option string; s_lifetime : option string; s_ty : option ty; s_mut : bool; s_lazy : list lazy }.
Definition arg_step (s : ast_) (ms : list meta) : sres ast_ :=
  let lz x := Ast_ (s_name s) (s_lifetime s) (s_ty s) (s_mut s) (s_lazy s ++ [x]) in
  match ms with
  | MBool n v :: rest =>
      if (n =? "mut")%string then SNext (Ast_ (s_name s) (s_lifetime s) (s_ty s) v (s_lazy s)) rest []
      else if (n =? "ok(_)")%string then SNext (lz LzOk) rest []
      else if (n =? "err(_)")%string then SNext (lz LzErr) rest []
      else if (n =? "some(_)")%string then SNext (lz LzSome) rest []
      else SNone_ []
  | MString n v :: rest =>
      if (n =? "name")%string then SNext (Ast_ (Some v) (s_lifetime s) (s_ty s) (s_mut s) (s_lazy s)) rest []
      else if (n =? "lifetime")%string then SNext (Ast_ (s_name s) (Some v) (s_ty s) (s_mut s) (s_lazy s)) rest []
      else SNone_ []
  | MStart n :: _ =>
      if (n =? "type")%string then take (type_of "type" ms) (fun t => Ast_ (s_name s) (s_lifetime s) (Some t) (s_mut s) (s_lazy s))
      else if (n =? "grab")%string then take_if (grab ms) (fun g => fbind (precompute alloc (snd g)) (fun v => FSome (lz (LzVar v))))
      else SNone_ []
  | _ => SNone_ []
  end.
Definition arg_ (ms : list meta) : ares (arg * list lazy) :=
  node "arg" arg_step (Ast_ None None None false [])
    (fun s => match s_name s with
              | Some n => FSome (Arg n (s_lifetime s) (match s_ty s with Some t => t | None => TAny end) (s_mut s), s_lazy s)
              | None => FNone_
              end) ms.
(** 932-972 [Current] *)
Definition current_step (s : option string * bool) (ms : list meta) : sres (option string * bool) :=
  match ms with
  | MBool n v :: rest => if (n =? "mut")%string then SNext (fst s, v) rest [] else SNone_ []
  | MString n v :: rest => if (n =? "name")%string then SNext (Some v, snd s) rest [] else SNone_ []
  | MStart n :: _ => if (n =? "type")%string then take (type_of "type" ms) (fun _ => s) else SNone_ []
  | _ => SNone_ []
  end.
Definition current_ (ms : list meta) : ares (string * bool) :=
  node "current" current_step (None, false) (fun s => match s with (Some n, m) => FSome (n, m) | _ => FNone_ end) ms.

(** 564-622 [Closure], 397-531 [Function]: arguments, current objects, type of the result, block and expression *)
Record fnst := Fnst { g_name : option string; g_args : list (arg * list lazy); g_currents : list (string * bool); g_ret : option ty;
                      g_block : option (list expr); g_expr : option expr }.
Definition fn_step (fn : bool) (s : fnst) (ms : list meta) : sres fnst :=
  match ms with
  | MString n v :: rest =>
      if fn && (n =? "name")%string then SNext (Fnst (Some v) (g_args s) (g_currents s) (g_ret s) (g_block s) (g_expr s)) rest [] else SNone_ []
  | MBool n v :: rest =>
      if (n =? "returns")%string then SNext (Fnst (g_name s) (g_args s) (g_currents s) (Some (if v then TAny else TVoid)) (g_block s) (g_expr s)) rest []
      else SNone_ []
  | MStart n :: _ =>
      if (n =? "arg")%string then take (arg_ ms) (fun a => Fnst (g_name s) (g_args s ++ [a]) (g_currents s) (g_ret s) (g_block s) (g_expr s))
      else if (n =? "current")%string then take (current_ ms) (fun c => Fnst (g_name s) (g_args s) (g_currents s ++ [c]) (g_ret s) (g_block s) (g_expr s))
      else if (n =? "ret_type")%string then take (type_of "ret_type" ms) (fun t => Fnst (g_name s) (g_args s) (g_currents s) (Some t) (g_block s) (g_expr s))
      else if fn && (n =? "block")%string then take (block "block" ms) (fun b => Fnst (g_name s) (g_args s) (g_currents s) (g_ret s) (Some b) (g_expr s))
      else if (n =? "expr")%string then take (E "expr" ms) (fun e => Fnst (g_name s) (g_args s) (g_currents s) (Some TAny) (g_block s) (Some e))
      else if fn && (n =? "ty")%string then
        (* 457-461: ignored, but not reported *)
        match ignore 0 ms with Some (_, rest) => SNext s rest [] | None => SPanic end
      else SNone_ []
  | _ => SNone_ []
  end.
Definition fn_start : fnst := Fnst None [] [] None None None.
Definition names_of (l : list (arg * list lazy)) : list string := map (fun a => r_name (fst a)) l.
(** 603-604: the type of the result is there whenever the expression is *)
Definition closure_ (ms : list meta) : ares expr :=
  node "closure" (fn_step false) fn_start
    (fun s => match g_ret s, g_expr s with
              | Some _, Some e => FSome (EClosure (Closure (names_of (g_args s)) (map fst (g_currents s)) e))
              | _, _ => FNone_
              end) ms.

(** ** 1153-1444 [Expression]: the nodes, in the order of the code *)
Definition nodes : list (string * (list meta -> ares expr)) :=
  [("link", link); ("object", object); ("array", array); ("array_fill", array_fill);
   ("return", fun ms => amap EReturn (E "return" ms));
   ("break", break_); ("continue", continue_); ("block", fun ms => amap EBlock (block "block" ms));
   ("add", fun ms => bin_seq (S (length ms)) "add" ms); ("not", not_);
   ("mul", fun ms => bin_seq (S (length ms)) "mul" ms); ("compare", fun ms => bin_seq (S (length ms)) "compare" ms);
   ("item", fun ms => amap EItem (item_ ms)); ("norm", norm); ("vec4", vec4_); ("mat4", mat4_); ("vec4_un_loop", un_loop);
   ("go", go); ("call", fun ms => amap call_expr (call_ ms)); ("named_call", fun ms => amap call_expr (named_call ms));
   ("assign", assign); ("for", for_);
   ("for_n", for_n "for_n" KFor); ("sum", for_n "sum" KSum); ("sum_vec4", for_n "sum_vec4" KSumVec4); ("prod", for_n "prod" KProd);
   ("prod_vec4", for_n "prod_vec4" KProdVec4); ("min", for_n "min" KMin); ("max", for_n "max" KMax); ("sift", for_n "sift" KSift);
   ("any", for_n "any" KAny); ("all", for_n "all" KAll); ("link_for", for_n "link_for" KLink);
   ("loop", loop_); ("if", if_); ("swizzle", swizzle); ("closure", closure_); ("call_closure", call_closure);
   ("named_call_closure", named_call_closure); ("grab", grab_expr); ("try_expr", try_expr); ("in", in_);
   ("for_in", for_in "for_in" KFor); ("sum_in", for_in "sum_in" KSum); ("prod_in", for_in "prod_in" KProd);
   ("min_in", for_in "min_in" KMin); ("max_in", for_in "max_in" KMax); ("sift_in", for_in "sift_in" KSift);
   ("any_in", for_in "any_in" KAny); ("all_in", for_in "all_in" KAll); ("link_in", for_in "link_in" KLink)].
Definition code_points (s : string) : list N := map N_of_ascii (list_ascii_of_string s).
Definition expr_step (s : option expr) (ms : list meta) : sres (option expr) :=
  match ms with
  | MBool n v :: rest =>
      if (n =? "mut")%string then SNext s rest []
      else if (n =? "return_void")%string then SNext (Some EReturnVoid) rest []
      else if (n =? "bool")%string then SNext (Some (EVar (vbool v))) rest []
      else if (n =? "try")%string then match s with Some e => SNext (Some (ETry e)) rest [] | None => SPanic end
      else SNone_ []
  | MString n v :: rest =>
      if (n =? "text")%string then SNext (Some (EVar (VStr v))) rest []
      else if (n =? "color")%string then
        match color_lit (code_points v) with Some c => SNext (Some (EVar (VVec4 c))) rest [] | None => SFail [] end
      else SNone_ []
  | MF64 n v :: rest => if (n =? "num")%string then SNext (Some (EVar (vf64 v))) rest [] else SNone_ []
  | MStart n :: _ => match assoc n nodes with Some f => take (f ms) (@Some _) | None => SNone_ [] end
  | _ => SNone_ []
  end.
End Parts.

(** the depth of the data is not more than its length *)
Fixpoint expression_ (n : nat) (name : string) (ms : list meta) : ares expr :=
  match n with O => AOof | S n => node name (expr_step (expression_ n)) None need ms end.
Definition expression (name : string) (ms : list meta) : ares expr := expression_ (S (length ms)) name ms.

(** ** Functions and files *)

(** 330-357 [Function] *)
Record function_ := Function_ { h_name : string; h_args : list arg; h_lazy : list (list lazy); h_currents : list (string * bool);
                                h_block : list expr; h_ret : ty }.
(** 503-505 *)
Fixpoint drop_empty (l : list (list lazy)) : list (list lazy) :=
  match l with
  | [] => []
  | x :: l => match drop_empty l, x with [], [] => [] | l, _ => x :: l end
  end.
Definition fn_finish (s : fnst) : folded function_ :=
  fbind (need (g_name s)) (fun name =>
  fbind (match g_expr s with None => need (g_block s) | Some e => FSome [EReturn e] end) (fun b =>
  fbind (need (g_ret s)) (fun ret =>
  FSome (Function_ (with_marks name (map (fun a => r_mut (fst a)) (g_args s))) (map fst (g_args s)) (drop_empty (map snd (g_args s)))
                   (g_currents s) b ret)))).
Definition function (ms : list meta) : ares function_ := node "fn" (fn_step expression true) fn_start fn_finish ms.

(** 236-266 [Namespace] *)
Definition names_step (s : list string) (ms : list meta) : sres (list string) :=
  match ms with
  | MString n v :: rest => if (n =? "name")%string then SNext (s ++ [v]) rest [] else SNone_ []
  | _ => SNone_ []
  end.
Definition namespace (ms : list meta) : ares (list string) := node "ns" names_step [] (@FSome _) ms.
(** 319-366 [UseImport], 278-303 [Uses] *)
Record use_ := Use_ { u_names : list string; u_fns : list (string * option string); u_alias : string }.
Definition use_step (s : list string * list (string * option string) * option string) (ms : list meta)
  : sres (list string * list (string * option string) * option string) :=
  match s with
  | (names, fns, alias) =>
      match ms with
      | MString n v :: rest =>
          if (n =? "name")%string then SNext (names ++ [v], fns, alias) rest []
          else if (n =? "use_fn")%string then
            match rest with
            | MString m w :: rest' =>
                if (m =? "use_fn_alias")%string then SNext (names, fns ++ [(v, Some w)], alias) rest' [] else SNext (names, fns ++ [(v, None)], alias) rest []
            | _ => SNext (names, fns ++ [(v, None)], alias) rest []
            end
          else if (n =? "alias")%string then SNext (names, fns, Some v) rest []
          else SNone_ []
      | _ => SNone_ []
      end
  end.
Definition use_import (ms : list meta) : ares use_ :=
  node "use" use_step ([], [], None) (fun s => match s with (names, fns, Some a) => FSome (Use_ names fns a) | _ => FNone_ end) ms.
Definition uses_step (s : list use_) (ms : list meta) : sres (list use_) :=
  match ms with
  | MStart n :: _ => if (n =? "use")%string then take (use_import ms) (fun u => s ++ [u]) else SNone_ []
  | _ => SNone_ []
  end.
Definition uses (ms : list meta) : ares (list use_) := node "uses" uses_step [] (@FSome _) ms.

(** 43-54: the functions of the file are registered one after another, until the data ends or one is not understood *)
Inductive outcome := Done | Refused | Panicked | Endless.
Fixpoint functions (k : nat) (ms : list meta) : list function_ * skipped * outcome :=
  match k with
  | O => ([], [], Endless)
  | S k =>
      match function ms with
      | AOk f rest i => match functions k rest with (fs, j, o) => (f :: fs, i ++ j, o) end
      | AErr i => ([], i, match ms with [] => Done | _ => Refused end)
      | APanic => ([], [], Panicked)
      | AOof => ([], [], Endless)
      end
  end.
(** 21-54 [convert]: namespace, imports, functions *)
Record file := File { d_ns : list string; d_uses : list use_; d_fns : list function_ }.
Definition or_none {A} (d : A) (r : ares A) (ms : list meta) : ares A :=
  match r with AErr i => AOk d ms i | _ => r end.
Definition convert (ms : list meta) : file * skipped * outcome :=
  match or_none [] (namespace ms) ms with
  | AOk ns ms i =>
      match or_none [] (uses ms) ms with
      | AOk us ms j => match functions (S (length ms)) ms with (fs, l, o) => (File ns us fs, i ++ j ++ l, o) end
      | APanic => (File ns [] [], [], Panicked)
      | _ => (File ns [] [], [], Endless)
      end
  | APanic => (File [] [] [], [], Panicked)
  | _ => (File [] [] [], [], Endless)
  end.
(** lib.rs 722-758 [check_ignored_meta_data]: the file is loaded if nothing was ignored and there is no error *)
Definition loads (r : file * skipped * outcome) : bool :=
  match r with (_, [], Done) => true | _ => false end.
End Convert.

(** What Syntax.v keeps of a function. *)
Definition to_func (f : function_) : func :=
  Func (h_name f) (map r_name (h_args f)) (h_lazy f) (map fst (h_currents f)) (h_block f) (negb (is_void (h_ret f))).
