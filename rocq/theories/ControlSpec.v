(** * What control flow should do: break and continue, if, lazy arguments, [?].

    Written in terms of the syntax, of results of evaluating sub-expressions, and of nothing else
    of the evaluator. *)
From Coq Require Import String List ZArith Bool Arith.
From Verif Require Import Float64 Syntax InterpModel.
Import ListNotations.
Local Open Scope string_scope.
Local Open Scope nat_scope.
Local Open Scope list_scope.

(** Does a [break]/[continue] concern the loop with this label? Without a label it concerns every
    loop, with a label only the loops that carry it. *)
Definition acts_on (label : option string) (fl : flow) : Prop :=
  match fl with
  | FBreak None | FContinueLoop None => True
  | FBreak (Some x) | FContinueLoop (Some x) => label = Some x
  | FContinue | FReturn => False
  end.

(** [can_exit fl e]: a [break]/[continue] [fl] can leave [e], that is [e] contains it outside of
    all loops it concerns, and only blocks, branches, [link] and [try] are in between. *)
Fixpoint can_exit (fl : flow) (e : expr) {struct e} : Prop :=
  let any := fix any (l : list expr) : Prop := match l with [] => False | x :: l => can_exit fl x \/ any l end in
  match e with
  | EBreak l => fl = FBreak l
  | EContinue l => fl = FContinueLoop l
  | EBlock b => any b
  | ELink l => any l
  | EIf _ tb _ bs eb =>
      any tb \/ (fix anyb (l : list (list expr)) : Prop := match l with [] => False | b :: l => any b \/ anyb l end) bs \/
      match eb with Some b => any b | None => False end
  | ETryExpr x => can_exit fl x
  | EFor label _ _ _ b => ~ acts_on label fl /\ any b
  | EForN _ label _ _ _ b => ~ acts_on label fl /\ any b
  | EForIn _ label _ _ b => ~ acts_on label fl /\ any b
  | _ => False
  end.

(** The value a result denotes: a reference stands for the stack slot. *)
Definition denotes (s : rt) (x v : value) : Prop :=
  match x with VRef i => nth_error (r_stack s) i = Some v | _ => v = x end.

(** Running an if chain, given how conditions and blocks run. *)
Inductive if_run (cond : expr -> rt -> outcome res) (blk : list expr -> rt -> outcome res)
  : list (expr * list expr) -> option (list expr) -> rt -> outcome res -> Prop :=
| If_none : forall s, if_run cond blk [] None s (Ok (None, FContinue) s)
| If_else : forall b s, if_run cond blk [] (Some b) s (blk b s)
| If_true : forall c b rest eb s x sec s1,
    cond c s = Ok (Some x, FContinue) s1 -> denotes s1 x (VBool true sec) ->
    if_run cond blk ((c, b) :: rest) eb s (blk b s1)
| If_false : forall c b rest eb s x sec s1 o,
    cond c s = Ok (Some x, FContinue) s1 -> denotes s1 x (VBool false sec) ->
    if_run cond blk rest eb s1 o ->
    if_run cond blk ((c, b) :: rest) eb s o.

(** The other ways an if chain can end: a condition that fails, leaves the function, or is no boolean. *)
Inductive if_cond_fails (cond : expr -> rt -> outcome res) : list (expr * list expr) -> rt -> outcome res -> Prop :=
| Ic_leave : forall c b rest s x s1,
    cond c s = Ok (x, FReturn) s1 -> if_cond_fails cond ((c, b) :: rest) s (Ok (x, FReturn) s1)
| Ic_err : forall c b rest s m s1, cond c s = Err m s1 -> if_cond_fails cond ((c, b) :: rest) s (Err m s1)
| Ic_panic : forall c b rest s w, cond c s = Panic w -> if_cond_fails cond ((c, b) :: rest) s (Panic w)
| Ic_oof : forall c b rest s, cond c s = OOF -> if_cond_fails cond ((c, b) :: rest) s OOF
| Ic_flow : forall c b rest s x fl s1 m,
    cond c s = Ok (x, fl) s1 -> fl <> FReturn -> (x = None \/ fl <> FContinue) ->
    if_cond_fails cond ((c, b) :: rest) s (Err m s1)
| Ic_type : forall c b rest s x v s1 m,
    cond c s = Ok (Some x, FContinue) s1 -> denotes s1 x v -> (forall t sec, v <> VBool t sec) ->
    if_cond_fails cond ((c, b) :: rest) s (Err m s1)
| Ic_dangling : forall c b rest s x s1 w,
    cond c s = Ok (Some x, FContinue) s1 -> (forall v, ~ denotes s1 x v) ->
    if_cond_fails cond ((c, b) :: rest) s (Panic w)
| Ic_next : forall c b rest s x sec s1 o,
    cond c s = Ok (Some x, FContinue) s1 -> denotes s1 x (VBool false sec) ->
    if_cond_fails cond rest s1 o -> if_cond_fails cond ((c, b) :: rest) s o.

(** What an early exit gives for an argument [x] that denotes [v]. *)
Inductive exit_one : lazy -> value -> value -> value -> Prop :=
| Eo_same : forall c x v, veq v c = true -> exit_one (LzVar c) x v x
| Eo_ok : forall x y, exit_one LzOk x (VOk y) y
| Eo_err : forall x m tr, exit_one LzErr x (VErr m tr) m
| Eo_some : forall x y, exit_one LzSome x (VSome y) y.
(** The first invariant that matches decides. *)
Inductive exit_value : list lazy -> value -> value -> value -> Prop :=
| Ev_here : forall l ls x v y, exit_one l x v y -> exit_value (l :: ls) x v y
| Ev_later : forall l ls x v y,
    (forall z, ~ exit_one l x v z) -> exit_value ls x v y -> exit_value (l :: ls) x v y.

Definition pushed (x : value) (s : rt) : rt :=
  RT (r_mod s) (r_stack s ++ [x]) (r_calls s) (r_locals s) (r_currents s) (r_world s).
(** Evaluating arguments from number [i] on ends early with [y]: no argument after it is run. *)
Inductive args_exit (run : expr -> rt -> outcome res) (inv : list (list lazy)) : nat -> list expr -> rt -> value -> rt -> Prop :=
| Ax_exit : forall i e rest s x v y s1 ls,
    run e s = Ok (Some x, FContinue) s1 -> nth_error inv i = Some ls -> denotes s1 x v -> exit_value ls x v y ->
    args_exit run inv i (e :: rest) s y s1
| Ax_next : forall i e rest s x v s1 y s2,
    run e s = Ok (Some x, FContinue) s1 ->
    denotes s1 x v -> (forall ls z, nth_error inv i = Some ls -> ~ exit_value ls x v z) ->
    args_exit run inv (S i) rest (pushed x s1) y s2 ->
    args_exit run inv i (e :: rest) s y s2.

(** What [?] does with a value: go on with a payload, or leave with an error. *)
Inductive try_value : value -> value -> Prop :=
| Tv_ok : forall y, try_value (VOk y) y
| Tv_some : forall y, try_value (VSome y) y
| Tv_why : forall sec, try_value (VBool true (Some sec)) (VBool true (Some sec))
| Tv_where : forall x sec, fis_nan x = false -> try_value (VF64 x (Some sec)) (VF64 x (Some sec)).
