(** * Well-formed programs and states.

    The conditions under which evaluation keeps the stacks balanced, and (with [chk]) under which
    compile-time slot numbers agree with run-time look-up by name. Written without reference to
    the evaluator: only syntax, the function tables and the arities of external functions. *)
From Coq Require Import String List ZArith Bool Arith.
From Verif Require Import Float64 Syntax InterpModel.
Import ListNotations.
Local Open Scope string_scope.
Local Open Scope nat_scope.
Local Open Scope list_scope.

(** The variables of the current function, newest first; [None] is an unnamed temporary. *)
Definition scope := list (option string).

(** 1 + distance from the top to the newest variable called [x]. *)
Fixpoint find_var (x : string) (cs : scope) : option nat :=
  match cs with
  | [] => None
  | Some y :: cs =>
      if String.eqb y x then Some 1 else match find_var x cs with Some k => Some (S k) | None => None end
  | None :: cs => match find_var x cs with Some k => Some (S k) | None => None end
  end.

(** What an expression adds to the scope of the expressions after it. *)
Definition adds (e : expr) : scope :=
  match e with
  | EAssign OpAssign (EItem (Item name _ _ _ [] _)) _ => [Some name]
  | ESwizzle inds _ => repeat None (length inds)
  | _ => []
  end.
(** The current object it declares. *)
Definition adds_current (e : expr) : list string :=
  match e with
  | EAssign OpAssign (EItem (Item name _ true _ [] _)) _ => [name]
  | _ => []
  end.
Definition is_swizzle (e : expr) : bool := match e with ESwizzle _ _ => true | _ => false end.
(** Stack slots an argument takes. *)
Definition width (e : expr) : nat := match e with ESwizzle inds _ => length inds | _ => 1 end.
Definition widths (es : list expr) : nat := fold_right (fun e n => width e + n) 0 es.
Definition temps (e : expr) : scope := repeat None (width e).

(** The arguments of a [vec4] are evaluated until more than three values are there; [k] so far. *)
Fixpoint fills (k : nat) (args : list expr) : bool :=
  match args with
  | [] => false
  | e :: args => let k' := k + width e in if k' <? 4 then fills k' args else Nat.eqb k' 4
  end.

(** The scope of a function body. *)
Definition entry (returns : bool) (args currents : list string) : scope :=
  rev (map Some ((if returns then ["return"] else []) ++ args ++ currents)).
Definition disjoint_names (currents args : list string) : Prop :=
  forall x, In x currents -> ~ In x ("return" :: args).

Definition all_ok {A} (f : A -> Prop) : list A -> Prop :=
  fix go l := match l with [] => True | x :: l => f x /\ go l end.
(** Each expression sees what the ones before it [add]. *)
Definition thread_ok (f : scope -> expr -> Prop) (add : expr -> scope) : scope -> list expr -> Prop :=
  fix go cs l := match l with [] => True | e :: l => f cs e /\ go (add e ++ cs) l end.
Definition ids_ok (f : scope -> idx -> Prop) : scope -> list idx -> Prop :=
  fix go cs l :=
    match l with
    | [] => True
    | i :: l => f cs i /\ go (match i with IdExpr _ => None :: cs | _ => cs end) l
    end.
Definition lastb {A} (f : A -> bool) : list A -> bool :=
  fix go l := match l with [] => false | [x] => f x | _ :: l => go l end.

(** The panics of the interpreter that stand for broken bookkeeping: no call, no value on the stack, no slot
    number, no such function, another call than expected, parts of an expression that are missing. *)
Definition bookkeeping : list string :=
  [clash; "CSIE"; "TINVOTS"; "overflow"; "static_stack_id"; "did not call"; "calling"; "no such function"; "operand";
   "component"; "link body is not link"; "no such loop"].

Section Wf.
Context (chk : bool) (E : env) (arity : string -> nat).

(** The function a relative index means inside function [fi] of module [md]. *)
Definition target (md fi : nat) (i : Z) : option func :=
  let z := (i + Z.of_nat fi)%Z in
  if (z <? 0)%Z then None
  else match nth_error (e_mods E) md with
       | Some m => nth_error (m_funs m) (Z.to_nat z)
       | None => None
       end.

(** Expressions that give a value whenever evaluation goes on after them. *)
Fixpoint valued (md fi : nat) (e : expr) : bool :=
  match e with
  | EAssign _ _ _ | EFor _ _ _ _ _ | ESwizzle _ _ => false
  | EForN k _ _ _ _ _ => match k with KFor => false | _ => true end
  | EForIn k _ _ _ _ => match k with KLink => true | _ => false end
  | EBlock b => lastb (valued md fi) b
  | EIf _ tb _ bs eb =>
      lastb (valued md fi) tb && forallb (lastb (valued md fi)) bs &&
      match eb with Some b => lastb (valued md fi) b | None => false end
  | ECall (FVoid _) _ _ => false
  | ECall (FLoaded i) _ _ => match target md fi i with Some f => fn_ret f | None => true end
  | _ => true
  end.

Definition arg_ok (md fi : nat) (e : expr) : Prop := is_swizzle e = true \/ valued md fi e = true.

(** The function of [in f], if it is a loaded one. *)
Definition known (md fi : nat) (f : callee) : Prop :=
  match f with FLoaded i => target md fi i <> None | _ => True end.
(** The body of a link loop is a link, or another link loop of the same kind. *)
Definition link_body (b : list expr) : Prop :=
  match b with ELink _ :: _ | EForN KLink _ _ _ _ _ :: _ => True | _ => False end.
Definition link_body_in (b : list expr) : Prop :=
  match b with ELink _ :: _ | EForIn KLink _ _ _ _ :: _ => True | _ => False end.

(** [outer]: the scopes around the enclosing closures, innermost first. Current objects may not be
    declared directly inside [link { .. }] or the header of a C-style loop: nothing takes them off
    again when the link is left by [break], or when the loop ends. *)
Fixpoint wf (md fi : nat) (outer : list scope) (cs : scope) (e : expr) {struct e} : Prop :=
  let w := wf md fi outer in
  match e with
  | ELink l => thread_ok w adds cs l /\ all_ok (fun e => adds_current e = []) l
  | EBlock l => thread_ok w adds cs l
  | EObject kvs => all_ok (fun kv => match kv with (_, x) => w cs x end) kvs
  | EArray l => all_ok (w cs) l
  | EArrayFill a b => w cs a /\ w cs b
  | EReturn x | ETry x | ETryExpr x => w cs x
  | ESwizzle inds x => w cs x /\ (chk = true -> Forall (fun i => i < 4) inds)
  | EReturnVoid | EBreak _ | EContinue _ => True
  | EIn f => chk = true -> known md fi f
  | EGo _ l => all_ok (w cs) l
  | ECall f _ l =>
      match f with
      | FNone => all_ok (w cs) l
      | FBin _ => all_ok (w cs) l /\ (chk = true -> 2 <= length l)
      | FUn _ => all_ok (w cs) l /\ (chk = true -> 1 <= length l)
      | FVoid g | FRet g | FLazy g => arity g = length l /\ thread_ok w temps cs l
      | FLoaded i =>
          thread_ok w temps
            (match target md fi i with Some g => if fn_ret g then None :: cs else cs | None => cs end) l /\
          (chk = true -> all_ok (arg_ok md fi) l /\
             exists g, target md fi i = Some g /\ widths l = length (fn_args g))
      end
  | EItem it => wf_item md fi outer cs it
  | EAssign OpAssign (EItem (Item _ _ _ _ [] _)) r => w cs r
  | EAssign _ l r => w cs l /\ w cs r
  | EVec4 l => thread_ok w temps cs l /\ all_ok (arg_ok md fi) l /\ fills 0 l = true
  | EMat4 l => thread_ok w temps cs l /\ all_ok (arg_ok md fi) l /\ widths l = 4
  | EFor _ init cond st b =>
      w cs init /\ w (adds init ++ cs) cond /\ w (adds init ++ cs) st /\
      thread_ok w adds (adds init ++ cs) b /\
      adds_current init = [] /\ adds_current st = [] /\ (chk = true -> adds st = [])
  | EForN k _ name start stop b =>
      match start with Some x => w cs x | None => True end /\ w cs stop /\
      thread_ok w adds (Some name :: cs) b /\
      (chk = true -> k = KLink -> link_body b)
  | EForIn k _ name iter b =>
      w cs iter /\ thread_ok w adds (Some name :: cs) b /\
      (chk = true -> k <> KSumVec4 /\ k <> KProdVec4 /\ (k = KLink -> link_body_in b))
  | EIf c tb cs' bs eb =>
      w cs c /\ thread_ok w adds cs tb /\ all_ok (w cs) cs' /\ all_ok (thread_ok w adds cs) bs /\
      match eb with Some b => thread_ok w adds cs b | None => True end
  | EVar v => wf_v v
  | EClosure c => wf_clo md fi (cs :: outer) c
  | ECallClosure it l =>
      wf_item md fi outer cs it /\ thread_ok w temps (None :: cs) l /\
      (chk = true -> all_ok (arg_ok md fi) l)
  | EGrab l x =>
      match l with
      | O => True
      | S k => match nth_error outer k with Some cs' => wf md fi (skipn l outer) cs' x | None => True end
      end
  end
with wf_item (md fi : nat) (outer : list scope) (cs : scope) (it : item) {struct it} : Prop :=
  match it with
  | Item name sid _ _ ids _ =>
      (chk = true -> exists k, find_var name cs = Some k /\ sid = Some k) /\
      ids_ok (wf_idx md fi outer) cs ids
  end
with wf_idx (md fi : nat) (outer : list scope) (cs : scope) (i : idx) {struct i} : Prop :=
  match i with IdExpr e => wf md fi outer cs e | _ => True end
with wf_clo (md fi : nat) (outer : list scope) (c : closure) {struct c} : Prop :=
  match c with
  | Closure args currents body =>
      wf md fi outer (entry true args currents) body /\ (chk = true -> disjoint_names currents args)
  end
with wf_v (v : value) {struct v} : Prop :=
  match v with
  | VBool _ sec | VF64 _ sec => match sec with Some l => all_ok wf_v l | None => True end
  | VArray l => all_ok wf_v l
  | VObject kvs => all_ok (fun kv => match kv with (_, x) => wf_v x end) kvs
  | VSome x | VOk x | VErr x _ => wf_v x
  | VClosure c md rel => wf_clo md rel [] c /\ (chk = true -> nth_error (e_mods E) md <> None)
  | _ => True
  end.

(** Loaded functions: no lazy invariants (an early exit leaves the return slot and the earlier
    arguments on the stack, see [P_Balance.v]), a well-formed body. *)
Definition wf_fun (md fi : nat) (f : func) : Prop :=
  fn_lazy f = [] /\
  thread_ok (wf md fi []) adds (entry (fn_ret f) (fn_args f) (fn_currents f)) (fn_block f) /\
  (chk = true -> disjoint_names (fn_currents f) (fn_args f)).
Definition wf_mods : Prop :=
  forall md m fi f, nth_error (e_mods E) md = Some m -> nth_error (m_funs m) fi = Some f -> wf_fun md fi f.

(** All values a runtime can get hold of. *)
Definition wf_state (s : rt) : Prop :=
  Forall wf_v (r_stack s) /\ Forall (Forall wf_v) (w_queues (r_world s)).

(** [s'] keeps everything [s] has on its four stacks (the values themselves may change). *)
Definition above (s s' : rt) : Prop :=
  r_mod s' = r_mod s /\ (exists l, r_calls s' = l ++ r_calls s) /\
  length (r_stack s) <= length (r_stack s') /\
  (exists l, r_locals s' = l ++ r_locals s) /\ (exists l, r_currents s' = l ++ r_currents s).

(** What is expected of external functions: they take their arguments off the stack, put no
    local variable, current object or call on the stacks, and make no ill-formed closures.
    If they fail, they have taken no more than their arguments. Lazy invariants concern the
    first argument only (lib.rs 82-88). The labels of [bookkeeping] are not theirs. *)
Definition quiet (w : string) : Prop := chk = true -> ~ In w bookkeeping.
Definition ext_ok : Prop :=
  (forall f s, wf_state s -> arity f <= length (r_stack s) ->
     match e_void E f s with
     | Ok _ s' => wf_state s' /\ r_mod s' = r_mod s /\ r_calls s' = r_calls s /\
                  length (r_stack s') + arity f = length (r_stack s) /\
                  r_locals s' = r_locals s /\ r_currents s' = r_currents s
     | Err _ s' => wf_state s' /\ above (set_stack (firstn (length (r_stack s) - arity f) (r_stack s)) s) s'
     | Panic w => quiet w
     | OOF => True
     end) /\
  (forall f s, wf_state s -> arity f <= length (r_stack s) ->
     match e_ret E f s with
     | Ok v s' => wf_v v /\ wf_state s' /\ r_mod s' = r_mod s /\ r_calls s' = r_calls s /\
                  length (r_stack s') + arity f = length (r_stack s) /\
                  r_locals s' = r_locals s /\ r_currents s' = r_currents s
     | Err _ s' => wf_state s' /\ above (set_stack (firstn (length (r_stack s) - arity f) (r_stack s)) s) s'
     | Panic w => quiet w
     | OOF => True
     end) /\
  (forall f a b, wf_v a -> wf_v b -> match e_bin E f a b with POk v => wf_v v | PPanic w => quiet w | PErr _ => True end) /\
  (forall f a, wf_v a -> match e_un E f a with POk v => wf_v v | PPanic w => quiet w | PErr _ => True end) /\
  (forall f i ls, nth_error (e_lazy E f) (S i) = Some ls -> ls = []).

(** Names as found at run time: position of each variable of the scope that starts at [base]. *)
Fixpoint frame_locals (base : nat) (cs : scope) : list (string * nat) :=
  match cs with
  | [] => []
  | Some x :: cs => (x, base + length cs) :: frame_locals base cs
  | None :: cs => frame_locals base cs
  end.
(** The run-time frame of the current call holds exactly the variables of [cs]. *)
Definition frame_ok (cs : scope) (s : rt) : Prop :=
  exists c rest base,
    r_calls s = c :: rest /\ c_local c <= length (r_locals s) /\
    length (r_stack s) = base + length cs /\
    forall x, assoc x (firstn (length (r_locals s) - c_local c) (r_locals s)) = assoc x (frame_locals base cs).

Definition top_of (s : rt) : nat := match r_calls s with [] => 0 | c :: _ => c_index c end.
(** The state in which an expression of scope [cs] of function [fi] of module [md] is run. *)
Definition ready (md fi : nat) (cs : scope) (s : rt) : Prop :=
  wf_state s /\ r_mod s = md /\ top_of s = fi /\ (chk = true -> frame_ok cs s /\ nth_error (e_mods E) md <> None).
End Wf.

#[global] Arguments wf : simpl never.
#[global] Arguments wf_item : simpl never.
#[global] Arguments wf_idx : simpl never.
#[global] Arguments wf_clo : simpl never.
#[global] Arguments wf_v : simpl never.
