(** * Slot numbers of variables: the [get_locals] functions of /repo/src/ast/mod.rs.

    [get_locals] walks the syntax tree with a stack that imitates the run-time stack (names of
    variables, or nothing for temporaries) and writes into every [Item] how far below the top its
    variable lies. The same walk sets what each call refers to; here the callee is taken as given
    (see [ModuleModel.v] for that part). *)
From Coq Require Import String List ZArith Bool Arith.
From Verif Require Import Float64 Syntax InterpModel.
Import ListNotations.
Local Open Scope string_scope.
Local Open Scope nat_scope.
Local Open Scope list_scope.

(** [stack: &mut Vec<Option<Arc<String>>>], newest first. *)
Definition cstack := list (option string).
(** [Vec::truncate] *)
Definition trunc (n : nat) (st : cstack) : cstack := skipn (length st - n) st.

(** ast/mod.rs 2460-2468: position from the top, counted from one, of the first equal name. *)
Fixpoint position (i : nat) (name : string) (st : cstack) : option nat :=
  match st with
  | [] => None
  | Some n :: st => if String.eqb n name then Some (S i) else position (S i) name st
  | None :: st => position (S i) name st
  end.

(** Walking a list: leaving the stack alone after each element (1031-1034, 1762-1765) ... *)
Definition walk {A} (f : cstack -> A -> A * cstack) : cstack -> list A -> list A * cstack :=
  fix go st l :=
    match l with
    | [] => ([], st)
    | x :: l =>
        let (x', st1) := f st x in
        let (l', st2) := go st1 l in (x' :: l', st2)
    end.
(** ... or truncating to what it was and then pushing [push x] temporaries. *)
Definition walk_trunc {A} (f : cstack -> A -> A * cstack) (push : A -> nat) : cstack -> list A -> list A * cstack :=
  fix go st l :=
    match l with
    | [] => ([], st)
    | x :: l =>
        let (x', st1) := f st x in
        let (l', st2) := go (repeat None (push x) ++ trunc (length st) st1) l in (x' :: l', st2)
    end.
(** ast/mod.rs 2895-2906, 3088-3098, 3646-3656 *)
Definition arg_slots (e : expr) : nat := match e with ESwizzle inds _ => length inds | _ => 1 end.
Definition no_slots {A} (x : A) : nat := 0.
Definition one_slot {A} (x : A) : nat := 1.

Section Resolve.
(** The functions of the module, and the function ([relative]) the expression stands in. *)
Context (fs : list func) (fi : nat).

(** ast/mod.rs 2876-2880 *)
Definition call_returns (i : Z) : bool :=
  let z := (i + Z.of_nat fi)%Z in
  if (z <? 0)%Z then false else match nth_error fs (Z.to_nat z) with Some f => fn_ret f | None => false end.

(** ast/mod.rs 719-742: the stack as it was when the closure [level] levels up was entered. *)
Definition grab_base (clos : list nat) (level : nat) : option nat :=
  match level with
  | O => None
  | S k => if length clos <? level then nth_error clos (length clos - 1) else nth_error clos k
  end.

(** ast/mod.rs 1545-1700. [clos] is [closure_stack], innermost first. *)
Fixpoint gl (clos : list nat) (st : cstack) (e : expr) {struct e} : expr * cstack :=
  let block st b := let (b', st1) := walk (gl clos) st b in (b', trunc (length st) st1) in
  match e with
  | ELink l => let (l', st1) := walk (gl clos) st l in (ELink l', trunc (length st) st1)
  | EObject kvs =>
      let (kvs', st1) := walk_trunc (fun st kv => match kv with (k, x) => let (x', st1) := gl clos st x in ((k, x'), st1) end) no_slots st kvs in
      (EObject kvs', st1)
  | EArray l => let (l', st1) := walk_trunc (gl clos) no_slots st l in (EArray l', st1)
  | EArrayFill a b =>
      let (a', st1) := gl clos st a in
      let (b', st2) := gl clos (trunc (length st) st1) b in
      (EArrayFill a' b', trunc (length st) st2)
  | EReturn x => let (x', st1) := gl clos st x in (EReturn x', trunc (length st) st1)
  | EReturnVoid | EBreak _ | EContinue _ | EVar _ | EIn _ => (e, st)
  | EBlock b => let (b', st1) := block st b in (EBlock b', st1)
  | EGo name l =>
      let (l', st1) := walk_trunc (gl clos) no_slots st l in (EGo name l', trunc (length st) st1)
  | ECall f name l =>
      let st0 := match f with FLoaded i => if call_returns i then None :: st else st | _ => st end in
      let (l', st1) := walk_trunc (gl clos) (match f with FBin _ => no_slots | _ => arg_slots end) st0 l in
      (ECall f name l', trunc (length st) st1)
  | EItem it => let (it', st1) := gl_item clos st it in (EItem it', st1)
  | EAssign op l r =>
      let (r', st1) := gl clos st r in
      let st1 := trunc (length st) st1 in
      match op, l with
      | OpAssign, EItem (Item name _ _ _ [] _) => (EAssign op l r', Some name :: st1)
      | _, _ => let (l', st2) := gl clos st1 l in (EAssign op l' r', trunc (length st) st2)
      end
  | EVec4 l => let (l', st1) := walk_trunc (gl clos) arg_slots st l in (EVec4 l', trunc (length st) st1)
  | EMat4 l => let (l', st1) := walk_trunc (gl clos) one_slot st l in (EMat4 l', trunc (length st) st1)
  | EFor label init cond step_ b =>
      let (init', st1) := gl clos st init in
      let (cond', st2) := gl clos st1 cond in
      let (step', st3) := gl clos (trunc (length st1) st2) step_ in
      let (b', st4) := block (trunc (length st1) st3) b in
      (EFor label init' cond' step' b', trunc (length st) st4)
  | EForN k label name start stop b =>
      let (start', st1) :=
        match start with
        | Some x => let (x', st1) := gl clos st x in (Some x', trunc (length st) st1)
        | None => (None, st)
        end in
      let (stop', st2) := gl clos st1 stop in
      let (b', st3) := block (Some name :: trunc (length st) st2) b in
      (EForN k label name start' stop' b', trunc (length st) st3)
  | EForIn k label name iter b =>
      let (iter', st1) := gl clos st iter in
      let (b', st2) := block (Some name :: trunc (length st) st1) b in
      (EForIn k label name iter' b', trunc (length st) st2)
  | EIf c tb conds blocks eb =>
      let (c', st1) := gl clos st c in
      let (tb', st2) := block (trunc (length st) st1) tb in
      let (conds', st3) := walk_trunc (gl clos) no_slots (trunc (length st) st2) conds in
      let (blocks', st4) := walk_trunc block no_slots st3 blocks in
      match eb with
      | Some b => let (b', st5) := block st4 b in (EIf c' tb' conds' blocks' (Some b'), trunc (length st) st5)
      | None => (EIf c' tb' conds' blocks' None, st4)
      end
  | ETry x => let (x', st1) := gl clos st x in (ETry x', st1)
  | ETryExpr x => let (x', st1) := gl clos st x in (ETryExpr x', st1)
  | ESwizzle inds x => let (x', st1) := gl clos st x in (ESwizzle inds x', st1)
  | EClosure c => let (c', st1) := gl_clo clos st c in (EClosure c', st1)
  | ECallClosure it l =>
      let (it', st1) := gl_item clos st it in
      let (l', st2) := walk_trunc (gl clos) arg_slots (Some "return" :: st1) l in
      (ECallClosure it' l', trunc (length st) st2)
  | EGrab level x =>
      match grab_base clos level with
      | None => (e, st)
      | Some base => let (x', _) := gl clos (trunc base st) x in (EGrab level x', st)
      end
  end
(** ast/mod.rs 2451-2474 *)
with gl_item (clos : list nat) (st : cstack) (it : item) {struct it} : item * cstack :=
  match it with
  | Item name sid cur tf ids tids =>
      let (ids', st1) :=
        (fix go st l :=
           match l with
           | [] => ([], st)
           | i :: l =>
               let (i', st1) := gl_idx clos st i in
               let (l', st2) := go (match i with IdExpr _ => None :: st1 | _ => st1 end) l in (i' :: l', st2)
           end) st ids in
      (Item name (match position 0 name st with Some k => Some k | None => sid end) cur tf ids' tids, trunc (length st) st1)
  end
(** ast/mod.rs 2291-2310 *)
with gl_idx (clos : list nat) (st : cstack) (i : idx) {struct i} : idx * cstack :=
  match i with
  | IdExpr x => let (x', st1) := gl clos st x in (IdExpr x', trunc (length st) st1)
  | _ => (i, st)
  end
(** ast/mod.rs 630-655: the names of a closure stay on the stack. *)
with gl_clo (clos : list nat) (st : cstack) (c : closure) {struct c} : closure * cstack :=
  match c with
  | Closure args currents body =>
      let st0 := rev (map Some ("return" :: args ++ currents)) ++ st in
      let (body', st1) := gl (length st :: clos) st0 body in
      (Closure args currents body', st1)
  end.
End Resolve.

(** ast/mod.rs 519-540. The flag [looked_up] keeps it from being done twice. *)
Definition gl_fun (fs : list func) (fi : nat) (f : func) : func :=
  let st := rev (map Some ((if fn_ret f then ["return"] else []) ++ fn_args f ++ fn_currents f)) in
  Func (fn_name f) (fn_args f) (fn_lazy f) (fn_currents f) (fst (walk (gl fs fi []) st (fn_block f))) (fn_ret f).
(** ast/mod.rs 39-62 [convert]: all functions of a module. *)
Fixpoint gl_funs (fs : list func) (i : nat) (l : list func) : list func :=
  match l with [] => [] | f :: l => gl_fun fs i f :: gl_funs fs (S i) l end.
Definition gl_modl (m : modl) : modl := Modl (gl_funs (m_funs m) 0 (m_funs m)) (m_ext m).
Definition gl_env (E : env) : env :=
  Env (e_look E) (map gl_modl (e_mods E)) (e_void E) (e_ret E) (e_bin E) (e_un E) (e_lazy E) (e_alloc E) (e_frem E)
    (e_fpow E) (e_grem E) (e_gpow E) (e_matmul E).
