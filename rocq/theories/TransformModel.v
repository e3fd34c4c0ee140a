(** * Changes of the syntax tree at parse time.

    Model of the replacement of a loop variable by a number (src/ast/replace.rs), of unrolled vector
    loops (src/ast/mod.rs 3731-3752) and of the inference of a loop range (src/ast/infer_len.rs,
    src/ast/mod.rs 4204-4261). Both run while parsing, when calls are not yet resolved and variables
    have no slot number. *)
From Coq Require Import String List ZArith Bool.
From Verif Require Import Float64 Syntax.
Import ListNotations.
Local Open Scope string_scope.
Local Open Scope list_scope.

Definition item_name (it : item) : string := match it with Item n _ _ _ _ _ => n end.

(** ** replace.rs *)
(** replace.rs 15-295 [number]: [EVar] stands for [Variable::f64(val)]. The resolved forms of calls do
    not occur at parse time (the `unimplemented!` cases 71-76); here all forms of [ECall] are
    treated alike. *)
Fixpoint number (name : string) (val : f64) (e : expr) : expr :=
  (* 322-352 *)
  let number_block := fix number_block (b : list expr) : list expr :=
    match b with
    | [] => []
    | e :: b =>
        match e with
        | EAssign op (EItem it) r =>
            if String.eqb (item_name it) name then EAssign op (EItem it) (number name val r) :: b
            else number name val e :: number_block b
        | _ => number name val e :: number_block b
        end
    end in
  match e with
  | ELink items => ELink (map (number name val) items)
  | EObject kvs => EObject (map (fun kv => (fst kv, number name val (snd kv))) kvs)
  | EArray items => EArray (map (number name val) items)
  | EArrayFill f n => EArrayFill (number name val f) (number name val n)
  | EReturn e => EReturn (number name val e)
  | EReturnVoid | EBreak _ | EContinue _ | EVar _ | EClosure _ | EIn _ => e
  | EBlock b => EBlock (number_block b)
  | EGo n args => EGo n (map (number name val) args)
  | ECall f n args => ECall f n (map (number name val) args)
  | EItem (Item n sid cur tryf ids ti) =>
      if String.eqb n name then EVar (vf64 val)
      else EItem (Item n sid cur tryf
        (map (fun i => match i with IdExpr e => IdExpr (number name val e) | i => i end) ids) ti)
  | EAssign op l r => EAssign op (number name val l) (number name val r)
  | EVec4 args => EVec4 (map (number name val) args)
  | EMat4 args => EMat4 (map (number name val) args)
  | EFor lb init cond step body =>
      let other := EFor lb (number name val init) (number name val cond) (number name val step) (number_block body) in
      match init with
      | EAssign op (EItem it) r =>
          if String.eqb (item_name it) name then EFor lb (EAssign op (EItem it) (number name val r)) cond step body else other
      | _ => other
      end
  | EForN k lb n start stop body =>
      (* 354-371 *)
      if String.eqb n name then e
      else EForN k lb n (option_map (number name val) start) (number name val stop) (number_block body)
  | EForIn k lb n iter body => EForIn k lb n (number name val iter) (number_block body)
  | EIf c tb cs bs eb =>
      EIf (number name val c) (number_block tb) (map (number name val) cs) (map number_block bs) (option_map number_block eb)
  | ETry e => ETry (number name val e)
  | ESwizzle inds e => ESwizzle inds (number name val e)
  | ECallClosure it args => ECallClosure it (map (number name val) args)
  | EGrab l e => EGrab l (number name val e)
  | ETryExpr e => ETryExpr (number name val e)
  end.
Definition number_block (name : string) (val : f64) : list expr -> list expr :=
  fix number_block b :=
    match b with
    | [] => []
    | e :: b =>
        match e with
        | EAssign op (EItem it) r =>
            if String.eqb (item_name it) name then EAssign op (EItem it) (number name val r) :: b
            else number name val e :: number_block b
        | _ => number name val e :: number_block b
        end
    end.
(** ast/mod.rs 3731-3752 [Vec4UnLoop::into_expression] *)
Definition vec4_un_loop (name : string) (len : nat) (e : expr) : expr :=
  let zero := EVar (vf64 (f_of_Z 0)) in
  EVec4 [number name (f_of_Z 0) e; number name (f_of_Z 1) e;
         if Nat.ltb 2 len then number name (f_of_Z 2) e else zero;
         if Nat.ltb 3 len then number name (f_of_Z 3) e else zero].

(** ** infer_len.rs *)
(** ast/mod.rs 2354-2374 [Item::trunc] *)
Fixpoint take_below (n : nat) (l : list nat) : list nat :=
  match l with [] => [] | i :: l => if Nat.leb n i then [] else i :: take_below n l end.
Definition item_trunc (it : item) (n : nat) : item :=
  match it with Item name sid cur tryf ids ti => Item name None cur tryf (firstn n ids) (take_below n ti) end.

(** The search returns at the first find; [decls] is the list of declarations so far, newest first. *)
Definition found := (option item * list string)%type.
Definition orelse (a : found) (k : list string -> found) : found :=
  match a with (Some it, d) => (Some it, d) | (None, d) => k d end.
Definition each {A} (f : A -> list string -> found) : list A -> list string -> found :=
  fix each l d := match l with [] => (None, d) | x :: l => orelse (f x d) (each l) end.
(** [decls.truncate(st)] *)
Definition restore (d : list string) (r : found) : found :=
  (fst r, skipn (length (snd r) - length d) (snd r)).

(** infer_len.rs 26-290 *)
Fixpoint infer_expr (name : string) (e : expr) (d : list string) : found :=
  let infer_ids := fix infer_ids (it : item) (i : nat) (ids : list idx) (d : list string) : found :=
    (* 293-329; [i] counts the ids *)
    match ids with
    | [] => (None, d)
    | IdExpr e :: ids =>
        match e with
        | EItem j =>
            if String.eqb (item_name j) name then (Some (item_trunc it i), d)
            else if existsb (String.eqb (item_name j)) d then (None, d)
            else orelse (infer_expr name e d) (infer_ids it (S i) ids)
        | _ => infer_expr name e d
        end
    | _ :: ids => infer_ids it (S i) ids d
    end in
  let infer_block := fix infer_block (b : list expr) (d : list string) : found :=
    (* 386-424, without the truncation *)
    match b with
    | [] => (None, d)
    | EAssign op l r :: b =>
        orelse (infer_expr name r d) (fun d =>
          match l with
          | EItem it =>
              if String.eqb (item_name it) name then (None, d)
              else
                let d := match it, op with Item n _ _ _ [] _, OpAssign => n :: d | _, _ => d end in
                orelse (infer_expr name l d) (infer_block b)
          | _ => orelse (infer_expr name l d) (infer_block b)
          end)
    | e :: b => orelse (infer_expr name e d) (infer_block b)
    end in
  let block b d := restore d (infer_block b d) in
  match e with
  | ELink items | EArray items | EVec4 items | EMat4 items => each (infer_expr name) items d
  | EItem it => match it with Item _ _ _ _ ids _ => infer_ids it 0 ids d end
  | EAssign _ l r => orelse (infer_expr name l d) (infer_expr name r)
  | EObject kvs => each (fun kv => infer_expr name (snd kv)) kvs d
  | EArrayFill f n => orelse (infer_expr name f d) (infer_expr name n)
  | EReturn e | ETry e | ESwizzle _ e | ETryExpr e => infer_expr name e d
  | EReturnVoid | EBreak _ | EContinue _ | EVar _ | EClosure _ | EGrab _ _ | EIn _ => (None, d)
  | EBlock b => block b d
  | EGo _ args | ECall _ _ args => each (infer_expr name) args d
  | EFor _ init cond step body =>
      orelse (infer_expr name init d) (fun d =>
      orelse (infer_expr name cond d) (fun d =>
      orelse (infer_expr name step d) (block body)))
  | EForN _ _ n start stop body =>
      (* 359-384; the name is pushed before the length is noted *)
      if String.eqb n name then (None, d)
      else
        let d := n :: d in
        restore d
          (orelse (match start with Some s => infer_expr name s d | None => (None, d) end) (fun d =>
           orelse (infer_expr name stop d) (block body)))
  | EForIn _ _ _ iter _ => infer_expr name iter d
  | EIf c tb cs bs eb =>
      orelse (infer_expr name c d) (fun d =>
      orelse (block tb d) (fun d =>
      orelse (each (fun p d => orelse (fst p d) (snd p)) (combine (map (infer_expr name) cs) (map block bs)) d) (fun d =>
      match eb with Some b => block b d | None => (None, d) end)))
  | ECallClosure it args =>
      (* 341-357 *)
      orelse (match it with Item _ _ _ _ ids _ => infer_ids it 0 ids d end) (each (infer_expr name) args)
  end.
(** infer_len.rs 6-24 *)
Definition infer (body : list expr) (name : string) : option expr :=
  match fst (infer_expr name (EBlock body) []) with
  | Some it => Some (ECall FNone "len" [EItem it])
  | None => None
  end.
(** ast/mod.rs 4204-4261 [ForN::create]; [None] is a syntax error *)
Fixpoint for_n_create (k : loopk) (label : option string) (indices : list (string * option expr * option expr)) (body : list expr) : option expr :=
  match indices with
  | [] => None
  | (name, start, stop) :: more =>
      let block := match more with
        | [] => Some body
        | _ => match for_n_create k None more body with Some e => Some [e] | None => None end
        end in
      match block with
      | None => None
      | Some b =>
          match stop with
          | Some stop => Some (EForN k label name start stop b)
          | None => match infer b name with Some stop => Some (EForN k label name start stop b) | None => None end
          end
      end
  end.
