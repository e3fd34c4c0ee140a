(** * Loading a converted file: what its calls refer to.

    Model of /repo/src/ast/mod.rs 21-62 [convert] after the functions have been read, for a module that has
    external functions only: the functions are registered and [get_locals] sets what each call refers to. The slot
    numbers of variables, which the same walk sets, are those of ResolveModel.v. Calls through an alias (2849-2870) are left out: they
    have other names ([a::f]) than functions. *)
From Coq Require Import String List ZArith Bool Arith.
From Verif Require Import Float64 TypeModel Syntax InterpModel AstModel.
Import ListNotations.
Local Open Scope string_scope.
Local Open Scope nat_scope.
Local Open Scope list_scope.

Section Calls.
Context (m : modl) (fi : nat).
(** ast/mod.rs 1545-1700 and 2834-2912 ([f_index], without alias); [in] is set by AstModel.v, [go] looks up its function when it is
    run (runtime/mod.rs 963-966) *)
Fixpoint find_calls (e : expr) : expr :=
  match e with
  | ELink l => ELink (map find_calls l)
  | EObject kvs => EObject (map (fun kv => match kv with (k, x) => (k, find_calls x) end) kvs)
  | EArray l => EArray (map find_calls l)
  | EArrayFill a b => EArrayFill (find_calls a) (find_calls b)
  | EReturn x => EReturn (find_calls x)
  | EReturnVoid | EBreak _ | EContinue _ | EVar _ | EIn _ => e
  | EBlock l => EBlock (map find_calls l)
  | EGo n l => EGo n (map find_calls l)
  | ECall _ n l => ECall (find_function m n fi) n (map find_calls l)
  | EItem it => EItem (find_calls_item it)
  | EAssign op l r => EAssign op (find_calls l) (find_calls r)
  | EVec4 l => EVec4 (map find_calls l)
  | EMat4 l => EMat4 (map find_calls l)
  | EFor lb i c s b => EFor lb (find_calls i) (find_calls c) (find_calls s) (map find_calls b)
  | EForN k lb x a z b => EForN k lb x (option_map find_calls a) (find_calls z) (map find_calls b)
  | EForIn k lb x it b => EForIn k lb x (find_calls it) (map find_calls b)
  | EIf c tb cs bs eb => EIf (find_calls c) (map find_calls tb) (map find_calls cs) (map (map find_calls) bs) (option_map (map find_calls) eb)
  | ETry x => ETry (find_calls x)
  | ESwizzle l x => ESwizzle l (find_calls x)
  | EClosure (Closure args currents b) => EClosure (Closure args currents (find_calls b))
  | ECallClosure it l => ECallClosure (find_calls_item it) (map find_calls l)
  | EGrab l x => EGrab l (find_calls x)
  | ETryExpr x => ETryExpr (find_calls x)
  end
(** 2451-2474 *)
with find_calls_item (it : item) : item :=
  match it with Item x sid c t ids ti => Item x sid c t (map find_calls_idx ids) ti end
(** 2291-2310 *)
with find_calls_idx (i : idx) : idx :=
  match i with IdExpr x => IdExpr (find_calls x) | i => i end.
End Calls.

(** 515-517 *)
Definition returns (t : ty) : bool := match t with TVoid => false | _ => true end.
(** module.rs 787-789 [register]: the function as it was read *)
Definition registered (fn : function_) : func :=
  Func (h_name fn) (map r_name (h_args fn)) (h_lazy fn) (map fst (h_currents fn)) (h_block fn) (returns (h_ret fn)).
(** 519-540 *)
Definition with_calls (m : modl) (fi : nat) (f : func) : func :=
  Func (fn_name f) (fn_args f) (fn_lazy f) (fn_currents f) (map (find_calls m fi) (fn_block f)) (fn_ret f).
(** 54-60 *)
Fixpoint with_calls_from (m : modl) (i : nat) (l : list func) : list func :=
  match l with [] => [] | f :: l => with_calls m i f :: with_calls_from m (S i) l end.
(** 21-62 *)
Definition load (ext : list (string * callee)) (f : file) : modl :=
  let m := Modl (map registered (d_fns f)) ext in Modl (with_calls_from m 0 (m_funs m)) ext.
(** a program of one module *)
Definition with_file (E : env) (ext : list (string * callee)) (f : file) : env :=
  Env (e_look E) [load ext f] (e_void E) (e_ret E) (e_bin E) (e_un E) (e_lazy E) (e_alloc E) (e_frem E) (e_fpow E) (e_grem E) (e_gpow E) (e_matmul E).
