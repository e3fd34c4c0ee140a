(** * Well-scoped source programs.

    Like [wf] of [WfSpec.v], but for programs whose variables carry no slot numbers yet: every
    variable is declared in the scope it is used in. The other conditions are those of [wf]. Each
    one that is no matter of scoping has a counterexample in [P_Resolve.v] or [P_Balance.v]. *)
From Coq Require Import String List ZArith Bool Arith.
From Verif Require Import Float64 Syntax InterpModel WfSpec.
Import ListNotations.
Local Open Scope string_scope.
Local Open Scope nat_scope.
Local Open Scope list_scope.

(** Expressions that may stand before others in a block: no closure literal or swizzle as a statement
    of its own, no [try] directly around one of these or around a declaration. *)
Fixpoint tidy (e : expr) : bool :=
  match e with
  | EClosure _ | ESwizzle _ _ => false
  | ETry x | ETryExpr x => tidy x && match adds x with [] => true | _ => false end
  | _ => true
  end.
Definition seq_ok (f : scope -> expr -> Prop) : scope -> list expr -> Prop :=
  fix go cs l :=
    match l with
    | [] => True
    | e :: l => f cs e /\ (l = [] \/ tidy e = true) /\ go (adds e ++ cs) l
    end.

(** The scope without the variable [return]. *)
Definition hide (cs : scope) : scope :=
  map (fun o => match o with Some x => if String.eqb x "return" then None else Some x | None => None end) cs.

Section Scoped.
Context (E : env) (arity : string -> nat).

(** The values a source program can contain: no closures. *)
Fixpoint literal (v : value) : Prop :=
  match v with
  | VBool _ sec | VF64 _ sec => match sec with Some l => all_ok literal l | None => True end
  | VArray l => all_ok literal l
  | VObject kvs => all_ok (fun kv => match kv with (_, x) => literal x end) kvs
  | VSome x | VOk x | VErr x _ => literal x
  | VClosure _ _ _ => False
  | _ => True
  end.

Fixpoint scoped (md fi : nat) (outer : list scope) (cs : scope) (e : expr) {struct e} : Prop :=
  let w := scoped md fi outer in
  match e with
  | ELink l => seq_ok w cs l /\ all_ok (fun e => adds_current e = []) l
  | EBlock l => seq_ok w cs l
  | EObject kvs => all_ok (fun kv => match kv with (_, x) => w cs x end) kvs
  | EArray l => all_ok (w cs) l
  | EArrayFill a b => w cs a /\ w cs b
  | EReturn x | ETry x | ETryExpr x => w cs x
  | ESwizzle inds x => w cs x /\ Forall (fun i => i < 4) inds
  | EReturnVoid | EBreak _ | EContinue _ => True
  | EIn f => known E md fi f
  | EGo _ l => all_ok (w cs) l
  | ECall f _ l =>
      match f with
      | FNone => False
      | FBin _ => all_ok (w cs) l /\ 2 <= length l
      | FUn _ => match l with [x] => w cs x | _ => False end
      | FVoid g | FRet g | FLazy g => arity g = length l /\ thread_ok w temps cs l
      | FLoaded i =>
          match target E md fi i with
          | None => False
          | Some g => thread_ok w temps (if fn_ret g then None :: cs else cs) l /\ widths l = length (fn_args g)
          end /\
          all_ok (arg_ok E md fi) l
      end
  | EItem it => scoped_item md fi outer cs it
  | EAssign OpAssign (EItem (Item _ _ _ _ [] _)) r => w cs r
  | EAssign _ l r => w cs l /\ w cs r
  | EVec4 l => thread_ok w temps cs l /\ all_ok (arg_ok E md fi) l /\ fills 0 l = true
  | EMat4 l => thread_ok w temps cs l /\ all_ok (fun e => valued E md fi e = true) l /\ widths l = 4
  | EFor _ init cond st b =>
      w cs init /\ tidy init = true /\ w (adds init ++ cs) cond /\ w (adds init ++ cs) st /\
      seq_ok w (adds init ++ cs) b /\
      adds_current init = [] /\ adds_current st = [] /\ adds st = []
  | EForN k _ name start stop b =>
      match start with Some x => w cs x | None => True end /\ w cs stop /\
      seq_ok w (Some name :: cs) b /\ (k = KLink -> link_body b)
  | EForIn k _ name iter b =>
      w cs iter /\ seq_ok w (Some name :: cs) b /\
      k <> KSumVec4 /\ k <> KProdVec4 /\ (k = KLink -> link_body_in b)
  | EIf c tb cs' bs eb =>
      w cs c /\ seq_ok w cs tb /\ all_ok (w cs) cs' /\ all_ok (seq_ok w cs) bs /\
      match eb with Some b => seq_ok w cs b | None => True end
  | EVar v => literal v
  | EClosure c => scoped_clo md fi (cs :: outer) c
  (** The variable [return] may not be used among the arguments. *)
  | ECallClosure it l =>
      scoped_item md fi outer cs it /\ thread_ok w temps (None :: hide cs) l /\ all_ok (arg_ok E md fi) l
  (** No second [grab] in what is grabbed, unless it belongs to a closure in there. *)
  | EGrab l x =>
      match l with
      | O => True
      | S k => match nth_error outer k with Some cs' => scoped md fi [] cs' x | None => False end
      end
  end
with scoped_item (md fi : nat) (outer : list scope) (cs : scope) (it : item) {struct it} : Prop :=
  match it with
  | Item name sid _ _ ids _ =>
      (exists k, find_var name cs = Some k) /\ ids_ok (scoped_idx md fi outer) cs ids
  end
with scoped_idx (md fi : nat) (outer : list scope) (cs : scope) (i : idx) {struct i} : Prop :=
  match i with IdExpr e => scoped md fi outer cs e | _ => True end
with scoped_clo (md fi : nat) (outer : list scope) (c : closure) {struct c} : Prop :=
  match c with
  | Closure args currents body =>
      scoped md fi outer (entry true args currents) body /\ disjoint_names currents args
  end.

Definition scoped_fun (md fi : nat) (f : func) : Prop :=
  fn_lazy f = [] /\
  seq_ok (scoped md fi []) (entry (fn_ret f) (fn_args f) (fn_currents f)) (fn_block f) /\
  disjoint_names (fn_currents f) (fn_args f).
Definition scoped_mods : Prop :=
  forall md m fi f, nth_error (e_mods E) md = Some m -> nth_error (m_funs m) fi = Some f -> scoped_fun md fi f.
End Scoped.
#[global] Arguments scoped : simpl never.
#[global] Arguments scoped_item : simpl never.
#[global] Arguments scoped_idx : simpl never.
#[global] Arguments scoped_clo : simpl never.
