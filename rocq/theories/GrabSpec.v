(** * What creating a closure should do with [grab]. *)
From Coq Require Import String List ZArith Bool Arith.
From Verif Require Import Float64 Syntax.
Import ListNotations.
Local Open Scope nat_scope.
Local Open Scope list_scope.

(** The expressions grabbed at level [lv], in the order of the text. Each closure on the way adds one
    to the level. A grab of another level is left alone with all it contains. *)
Fixpoint grabs (lv : nat) (e : expr) {struct e} : list expr :=
  match e with
  | EGrab l x => if Nat.eqb l lv then [x] else []
  | EReturnVoid | EBreak _ | EContinue _ | EVar _ | EIn _ => []
  | EReturn x | ETry x | ESwizzle _ x | ETryExpr x => grabs lv x
  | EClosure c => grabs_closure lv c
  | EItem it => grabs_item lv it
  | EBlock l | EGo _ l | ECall _ _ l | ELink l | EArray l | EVec4 l | EMat4 l => flat_map (grabs lv) l
  | EObject l => flat_map (fun kx => match kx with (_, x) => grabs lv x end) l
  | EAssign _ a b | EArrayFill a b => grabs lv a ++ grabs lv b
  | EIf c tb cs bs eb =>
      grabs lv c ++ flat_map (grabs lv) tb ++ flat_map (grabs lv) cs ++
      flat_map (fun b => flat_map (grabs lv) b) bs ++
      match eb with Some b => flat_map (grabs lv) b | None => [] end
  | ECallClosure it l => grabs_item lv it ++ flat_map (grabs lv) l
  | EForN _ _ _ a b l => match a with Some a => grabs lv a | None => [] end ++ grabs lv b ++ flat_map (grabs lv) l
  | EForIn _ _ _ a l => grabs lv a ++ flat_map (grabs lv) l
  | EFor _ a b c l => grabs lv a ++ grabs lv b ++ grabs lv c ++ flat_map (grabs lv) l
  end
with grabs_item (lv : nat) (it : item) {struct it} : list expr :=
  match it with Item _ _ _ _ ids _ => flat_map (grabs_idx lv) ids end
with grabs_idx (lv : nat) (i : idx) {struct i} : list expr := match i with IdExpr e => grabs lv e | _ => [] end
with grabs_closure (lv : nat) (c : closure) {struct c} : list expr := match c with Closure _ _ b => grabs (S lv) b end.

(** Taking values one by one. *)
Definition draw {A B} (p : list value -> A * list value) (q : A -> list value -> B * list value) (ws : list value) : B * list value :=
  match p ws with (a, ws) => q a ws end.
Definition done {A} (a : A) (ws : list value) : A * list value := (a, ws).
Definition draws {A B} (f : A -> list value -> B * list value) : list A -> list value -> list B * list value :=
  fix go l := match l with [] => done [] | x :: l => draw (f x) (fun y => draw (go l) (fun l => done (y :: l))) end.
Definition drawo {A B} (f : A -> list value -> B * list value) (o : option A) : list value -> option B * list value :=
  match o with None => done None | Some x => draw (f x) (fun y => done (Some y)) end.

(** The expression with the grabs of level [lv] replaced, in order, by the values [ws], and the values left. *)
Fixpoint put (lv : nat) (e : expr) {struct e} : list value -> expr * list value :=
  match e with
  | EGrab l x => if Nat.eqb l lv then fun ws => match ws with w :: ws => (EVar w, ws) | [] => (e, []) end else done e
  | EReturnVoid | EBreak _ | EContinue _ | EVar _ | EIn _ => done e
  | EReturn x => draw (put lv x) (fun x => done (EReturn x))
  | ETry x => draw (put lv x) (fun x => done (ETry x))
  | ESwizzle i x => draw (put lv x) (fun x => done (ESwizzle i x))
  | ETryExpr x => draw (put lv x) (fun x => done (ETryExpr x))
  | EClosure c => draw (put_closure lv c) (fun c => done (EClosure c))
  | EItem it => draw (put_item lv it) (fun it => done (EItem it))
  | EBlock l => draw (draws (put lv) l) (fun l => done (EBlock l))
  | EGo n l => draw (draws (put lv) l) (fun l => done (EGo n l))
  | ECall f n l => draw (draws (put lv) l) (fun l => done (ECall f n l))
  | ELink l => draw (draws (put lv) l) (fun l => done (ELink l))
  | EArray l => draw (draws (put lv) l) (fun l => done (EArray l))
  | EVec4 l => draw (draws (put lv) l) (fun l => done (EVec4 l))
  | EMat4 l => draw (draws (put lv) l) (fun l => done (EMat4 l))
  | EObject l =>
      draw (draws (fun kx => match kx with (k, x) => draw (put lv x) (fun x => done (k, x)) end) l) (fun l => done (EObject l))
  | EAssign op a b => draw (put lv a) (fun a => draw (put lv b) (fun b => done (EAssign op a b)))
  | EArrayFill a b => draw (put lv a) (fun a => draw (put lv b) (fun b => done (EArrayFill a b)))
  | EIf c tb cs bs eb =>
      draw (put lv c) (fun c => draw (draws (put lv) tb) (fun tb => draw (draws (put lv) cs) (fun cs =>
      draw (draws (draws (put lv)) bs) (fun bs => draw (drawo (draws (put lv)) eb) (fun eb => done (EIf c tb cs bs eb))))))
  | ECallClosure it l => draw (put_item lv it) (fun it => draw (draws (put lv) l) (fun l => done (ECallClosure it l)))
  | EForN k lb n a b l =>
      draw (drawo (put lv) a) (fun a => draw (put lv b) (fun b => draw (draws (put lv) l) (fun l => done (EForN k lb n a b l))))
  | EForIn k lb n a l => draw (put lv a) (fun a => draw (draws (put lv) l) (fun l => done (EForIn k lb n a l)))
  | EFor lb a b c l =>
      draw (put lv a) (fun a => draw (put lv b) (fun b => draw (put lv c) (fun c => draw (draws (put lv) l) (fun l => done (EFor lb a b c l)))))
  end
with put_item (lv : nat) (it : item) {struct it} : list value -> item * list value :=
  match it with Item n sid cur tf ids tids => draw (draws (put_idx lv) ids) (fun ids => done (Item n sid cur tf ids tids)) end
with put_idx (lv : nat) (i : idx) {struct i} : list value -> idx * list value :=
  match i with IdExpr e => draw (put lv e) (fun e => done (IdExpr e)) | _ => done i end
with put_closure (lv : nat) (c : closure) {struct c} : list value -> closure * list value :=
  match c with Closure a cu b => draw (put (S lv) b) (fun b => done (Closure a cu b)) end.
