(** * Conditions on loaded functions that are no matter of names.

    Those of [scoped] (ResolveSpec.v) without the scopes: a program that has them, and whose variables and calls are
    known ([visible], VisibleSpec.v), is well-scoped. *)
From Coq Require Import String List ZArith Bool Arith.
From Verif Require Import PrintModel Float64 LifetimeModel NodesModel NodesSpec Syntax InterpModel WfSpec ResolveSpec.
Import ListNotations.
Local Open Scope string_scope.
Local Open Scope nat_scope.
Local Open Scope list_scope.

(** All are [f], and all but the last are [tidy]. *)
Definition seq_all (f : expr -> Prop) : list expr -> Prop :=
  fix go l := match l with [] => True | e :: l => f e /\ (l = [] \/ ResolveSpec.tidy e = true) /\ go l end.
Section Shaped.
Context (E : env) (md fi : nat).
(** [ret]: the variable [return] can be used. There are no grabs. *)
Fixpoint shaped (ret : bool) (e : expr) {struct e} : Prop :=
  match e with
  | ELink l => seq_all (shaped ret) l /\ all_ok (fun e => adds_current e = []) l
  | EBlock l => seq_all (shaped ret) l
  | EObject kvs => all_ok (fun kv => match kv with (_, x) => shaped ret x end) kvs
  | EArray l | EGo _ l => all_ok (shaped ret) l
  | EArrayFill a b => shaped ret a /\ shaped ret b
  | EReturn x | ETry x | ETryExpr x | ESwizzle _ x => shaped ret x
  | EReturnVoid | EBreak _ | EContinue _ => True
  | EIn f => known E md fi f
  | ECall f _ l =>
      all_ok (shaped ret) l /\
      match f with FLoaded _ => all_ok (arg_ok E md fi) l | _ => all_ok (fun e => is_swizzle e = false) l end
  | EItem it => shaped_item ret it
  | EAssign OpAssign (EItem (Item _ _ _ _ [] _)) r => shaped ret r
  | EAssign _ l r => shaped ret l /\ shaped ret r
  | EVec4 l => all_ok (shaped ret) l /\ all_ok (arg_ok E md fi) l /\ fills 0 l = true
  | EMat4 l => all_ok (shaped ret) l /\ all_ok (fun e => valued E md fi e = true) l /\ widths l = 4
  | EFor _ i c s b =>
      shaped ret i /\ ResolveSpec.tidy i = true /\ shaped ret c /\ shaped ret s /\ seq_all (shaped ret) b /\
      adds_current i = [] /\ adds_current s = [] /\ adds s = []
  | EForN _ _ _ a z b => match a with Some x => shaped ret x | None => True end /\ shaped ret z /\ seq_all (shaped ret) b
  | EForIn _ _ _ it b => shaped ret it /\ seq_all (shaped ret) b
  | EIf c tb cs bs eb =>
      shaped ret c /\ seq_all (shaped ret) tb /\ all_ok (shaped ret) cs /\ all_ok (seq_all (shaped ret)) bs /\
      match eb with Some b => seq_all (shaped ret) b | None => True end
  | EVar v => literal v
  | EClosure (Closure args currents b) => shaped true b /\ disjoint_names currents args
  | ECallClosure it l => shaped_item ret it /\ all_ok (shaped false) l /\ all_ok (arg_ok E md fi) l
  | EGrab _ _ => False
  end
with shaped_item (ret : bool) (it : item) {struct it} : Prop :=
  match it with
  | Item x _ _ _ ids _ => (x = "return" -> ret = true) /\ all_ok (shaped_idx ret) ids
  end
with shaped_idx (ret : bool) (i : idx) {struct i} : Prop :=
  match i with IdExpr e => shaped ret e | _ => True end.
(** no lazy invariants, and current objects with other names than the arguments *)
Definition shaped_fun (f : func) : Prop :=
  fn_lazy f = [] /\ seq_all (shaped (fn_ret f)) (fn_block f) /\ disjoint_names (fn_currents f) (fn_args f).
End Shaped.
(** the checkers are told about external functions that are there, with the right number of arguments *)
Definition told (K : outside) (ext : list (string * callee)) (arity : string -> nat) : Prop :=
  forall x lts, o_fun K x = Some lts ->
  match find_ext x ext FNone with
  | FNone | FLoaded _ => False
  | FUn _ => length lts = 1
  | FBin _ => length lts = 2
  | FVoid g | FRet g | FLazy g => arity g = length lts
  end.
(** What the grammar gives ([C64_built]): swizzles have at most four places, the body of a link loop is a link, and there are no loops
    over a list that sum or multiply vectors. Nothing is said about grabs. *)
Fixpoint built (e : expr) {struct e} : Prop :=
  match e with
  | ELink l | EBlock l | EArray l | EGo _ l | ECall _ _ l | EVec4 l | EMat4 l => all_ok built l
  | EObject kvs => all_ok (fun kv => match kv with (_, x) => built x end) kvs
  | EArrayFill a b => built a /\ built b
  | EReturn x | ETry x | ETryExpr x => built x
  | ESwizzle inds x => built x /\ Forall (fun i => i < 4) inds
  | EReturnVoid | EBreak _ | EContinue _ | EIn _ | EVar _ | EGrab _ _ => True
  | EItem it => built_item it
  | EAssign _ l r => built l /\ built r
  | EFor _ i c s b => built i /\ built c /\ built s /\ all_ok built b
  | EForN k _ _ a z b => match a with Some x => built x | None => True end /\ built z /\ all_ok built b /\ (k = KLink -> link_body b)
  | EForIn k _ _ it b => built it /\ all_ok built b /\ k <> KSumVec4 /\ k <> KProdVec4 /\ (k = KLink -> link_body_in b)
  | EIf c tb cs bs eb =>
      built c /\ all_ok built tb /\ all_ok built cs /\ all_ok (all_ok built) bs /\ match eb with Some b => all_ok built b | None => True end
  | EClosure (Closure _ _ b) => built b
  | ECallClosure it l => built_item it /\ all_ok built l
  end
with built_item (it : item) {struct it} : Prop := match it with Item _ _ _ _ ids _ => all_ok built_idx ids end
with built_idx (i : idx) {struct i} : Prop := match i with IdExpr e => built e | _ => True end.
