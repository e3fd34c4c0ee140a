(** * What counting loops should do.

    A loop is described by the list of its passes: for each the number the loop variable had, what
    the body gave, and the state after the body. Only the result of running the body is used. *)
From Coq Require Import String List ZArith Bool Arith.
From Verif Require Import Float64 Syntax InterpModel ControlSpec.
Import ListNotations.
Local Open Scope string_scope.
Local Open Scope nat_scope.
Local Open Scope list_scope.

(** [p_ind]: what identifies the pass in secrets, if anything. *)
Record pass := Pass { p_ind : option value; p_val : option value; p_flow : flow; p_after : rt }.

Definition halts (halt : value -> Prop) (s : rt) (x : value) : Prop := exists v, denotes s x v /\ halt v.

Definition runs (m : rt -> outcome res) (s : rt) (r : res) (s1 : rt) : Prop := m s = Ok r s1.

Section Passes.
(** The body, the values that end the loop at once, the label; when another pass begins and when
    the loop is over; what identifies a pass, from the states before and after the body; how the
    next pass is prepared, if there is one. *)
Context (body : rt -> res -> rt -> Prop) (halt : value -> Prop) (label : option string)
  (more over : rt -> Prop) (pos : rt -> rt -> option value) (next : rt -> option rt -> Prop).

(** [iterates s log fl s']: from [s] the passes [log] are run; the loop ends in [s'] normally
    ([FContinue]) or with a [break]/[continue] for a loop further out. *)
Inductive iterates : rt -> list pass -> flow -> rt -> Prop :=
| It_over : forall s, over s -> iterates s [] FContinue s
| It_next : forall s r s1 s2 log fl s',
    more s -> body s (r, FContinue) s1 -> (forall v, r = Some v -> ~ halts halt s1 v) ->
    next s1 (Some s2) -> iterates s2 log fl s' ->
    iterates s (Pass (pos s s1) r FContinue s1 :: log) fl s'
| It_last : forall s r s1,
    more s -> body s (r, FContinue) s1 -> (forall v, r = Some v -> ~ halts halt s1 v) ->
    next s1 None -> iterates s [Pass (pos s s1) r FContinue s1] FContinue s1
| It_halt : forall s v s1,
    more s -> body s (Some v, FContinue) s1 -> halts halt s1 v ->
    iterates s [Pass (pos s s1) (Some v) FContinue s1] FContinue s1
| It_continue : forall s r l s1 s2 log fl s',
    more s -> body s (r, FContinueLoop l) s1 -> acts_on label (FContinueLoop l) ->
    next s1 (Some s2) -> iterates s2 log fl s' ->
    iterates s (Pass (pos s s1) r (FContinueLoop l) s1 :: log) fl s'
| It_continue_last : forall s r l s1,
    more s -> body s (r, FContinueLoop l) s1 -> acts_on label (FContinueLoop l) ->
    next s1 None -> iterates s [Pass (pos s s1) r (FContinueLoop l) s1] FContinue s1
| It_break : forall s r l s1,
    more s -> body s (r, FBreak l) s1 -> acts_on label (FBreak l) ->
    iterates s [Pass (pos s s1) r (FBreak l) s1] FContinue s1
| It_outer : forall s r fl s1,
    more s -> body s (r, fl) s1 -> fl <> FContinue -> fl <> FReturn -> ~ acts_on label fl ->
    iterates s [Pass (pos s s1) r fl s1] fl s1.
End Passes.

(** ** Counting loops

    [st], [lc]: the heights of the value and local stacks inside the loop; the loop variable is the
    top value. *)
Section Counting.
Context (st lc : nat) (stop : f64).
Definition counter (s : rt) : option f64 :=
  match nth_error (r_stack s) (st - 1) with Some (VF64 x _) => Some x | _ => None end.
Definition count_more (s : rt) : Prop := exists x, counter s = Some x /\ flt x stop = true.
Definition count_over (s : rt) : Prop := exists x, counter s = Some x /\ flt x stop = false.
Definition count_pos (s s1 : rt) : option value := option_map (fun x => VF64 x None) (counter s).
(** The loop variable is one larger and the locals of the body are gone. *)
Definition count_next_pass (s1 : rt) (o : option rt) : Prop :=
  exists x sec, nth_error (r_stack s1) (st - 1) = Some (VF64 x sec) /\
    o = Some (RT (r_mod s1) (firstn st (list_set (st - 1) (VF64 (fadd x f1) sec) (r_stack s1)))
            (r_calls s1) (skipn (length (r_locals s1) - lc) (r_locals s1)) (r_currents s1) (r_world s1)).
End Counting.

(** ** Loops over a channel *)
Section Receiving.
Context (st lc ch : nat).
(** The first message of channel [ch] is taken. *)
Definition taken (s : rt) (m : value) (s1 : rt) : Prop :=
  exists q, nth_error (w_queues (r_world s)) ch = Some (m :: q) /\
    s1 = RT (r_mod s) (r_stack s) (r_calls s) (r_locals s) (r_currents s)
            (World (list_set ch q (w_queues (r_world s))) (w_senders (r_world s)) (w_threads (r_world s))).
Definition empty_queue (s : rt) : Prop := forall m q, nth_error (w_queues (r_world s)) ch <> Some (m :: q).
Definition in_next_pass (s1 : rt) (o : option rt) : Prop :=
  match o with
  | Some s2 => exists m s, taken s1 m s /\ st - 1 < length (r_stack s1) /\
      s2 = RT (r_mod s) (firstn st (list_set (st - 1) m (r_stack s))) (r_calls s)
              (skipn (length (r_locals s) - lc) (r_locals s)) (r_currents s) (r_world s)
  | None => empty_queue s1
  end.
Definition in_pos (s s1 : rt) : option value := nth_error (r_stack s1) (st - 1).
End Receiving.

(** ** What a loop gives *)

(** Only passes that were completed count; [skip]: and gave a value. *)
Definition counted (skip : bool) (p : pass) : bool :=
  match p_flow p with
  | FContinue => match p_val p with None => negb skip | Some _ => true end
  | _ => false
  end.

(** What the completed passes gave: [(position, number, secret)], and the same for booleans and
    vectors. *)
Inductive gave_num : pass -> option value * f64 * option (list value) -> Prop :=
| Gn : forall i x s y sec, denotes s x (VF64 y sec) -> gave_num (Pass i (Some x) FContinue s) (i, y, sec).
Inductive gave_bool : pass -> option value * bool * option (list value) -> Prop :=
| Gb : forall i x s y sec, denotes s x (VBool y sec) -> gave_bool (Pass i (Some x) FContinue s) (i, y, sec).
Inductive gave_vec : pass -> vec4 -> Prop :=
| Gv : forall i x s y, denotes s x (VVec4 y) -> gave_vec (Pass i (Some x) FContinue s) y.
Inductive gave_raw : pass -> value -> Prop :=
| Gr : forall i x s, gave_raw (Pass i (Some x) FContinue s) x.
Definition gives {B} (skip : bool) (g : pass -> B -> Prop) (log : list pass) (l : list B) : Prop :=
  Forall2 g (filter (counted skip) log) l.

Definition number {A C} (e : A * f64 * C) : f64 := snd (fst e).
(** The path to a value: its own secret, then the position in this loop. *)
Definition path (sec : option (list value)) (i : value) : option (list value) :=
  Some (match sec with Some p => p | None => [] end ++ [i]).

(** [before a b]: [a] beats [b]. The best non-NaN number, the first time it occurs, with its path.
    If there is none: NaN. *)
Definition best (before : f64 -> f64 -> bool) (l : list (option value * f64 * option (list value)))
  (m : f64) (sec : option (list value)) : Prop :=
  if forallb (fun e => fis_nan (number e)) l then
    m = fnan /\ match rev l with [] => sec = None | (i, _, sc) :: _ => exists p, i = Some p /\ sec = path sc p end
  else
    exists l1 i sc l2, l = l1 ++ (Some i, m, sc) :: l2 /\ fis_nan m = false /\ sec = path sc i /\
      (forall e, In e l -> before (number e) m = false) /\
      (forall e, In e l1 -> fis_nan (number e) = false -> before m (number e) = true).
(** The first pass that gave [want]. *)
Definition first_hit (want : bool) (l : list (option value * bool * option (list value))) (r : bool)
  (sec : option (list value)) : Prop :=
  if forallb (fun e => negb (Bool.eqb (snd (fst e)) want)) l then r = negb want /\ sec = None
  else
    r = want /\
    exists l1 i sc l2, l = l1 ++ (Some i, want, sc) :: l2 /\ sec = path sc i /\
      (forall e, In e l1 -> snd (fst e) = negb want).

(** The value of each kind of loop, from its passes. [skip]: sums and products ignore passes
    without a value. *)
Inductive loop_value (skip : bool) : loopk -> list pass -> option value -> Prop :=
| Lv_for : forall log, loop_value skip KFor log None
| Lv_sum : forall log l, gives skip gave_num log l ->
    loop_value skip KSum log (Some (VF64 (fold_left fadd (map number l) (f_of_Z 0)) None))
| Lv_prod : forall log l, gives skip gave_num log l ->
    loop_value skip KProd log (Some (VF64 (fold_left fmul (map number l) (f_of_Z 1)) None))
| Lv_sumv : forall log l, gives false gave_vec log l ->
    loop_value skip KSumVec4 log (Some (VVec4 (fold_left (vmap2 gadd) l (V4 (g_of_Z 0) (g_of_Z 0) (g_of_Z 0) (g_of_Z 0)))))
| Lv_prodv : forall log l, gives false gave_vec log l ->
    loop_value skip KProdVec4 log (Some (VVec4 (fold_left (vmap2 gmul) l (V4 (g_of_Z 1) (g_of_Z 1) (g_of_Z 1) (g_of_Z 1)))))
| Lv_min : forall log l m sec, gives false gave_num log l -> best flt l m sec ->
    loop_value skip KMin log (Some (VF64 m sec))
| Lv_max : forall log l m sec, gives false gave_num log l -> best (fun a b => flt b a) l m sec ->
    loop_value skip KMax log (Some (VF64 m sec))
| Lv_any : forall log l r sec, gives false gave_bool log l -> first_hit true l r sec ->
    loop_value skip KAny log (Some (VBool r sec))
| Lv_all : forall log l r sec, gives false gave_bool log l -> first_hit false l r sec ->
    loop_value skip KAll log (Some (VBool r sec))
| Lv_sift : forall log l, gives false gave_raw log l -> loop_value skip KSift log (Some (VArray l)).
(** Which values end a loop at once. *)
Definition halt_of (k : loopk) (v : value) : Prop :=
  match k with
  | KAny => exists sec, v = VBool true sec
  | KAll => exists sec, v = VBool false sec
  | _ => False
  end.

(** A range expression gives a number. *)
Definition gives_num (run : expr -> rt -> outcome res) (e : expr) (s : rt) (z : f64) (s1 : rt) : Prop :=
  exists x sec, run e s = Ok (Some x, FContinue) s1 /\ denotes s1 x (VF64 z sec).
Definition range (run : expr -> rt -> outcome res) (start : option expr) (stop : expr) (s : rt)
  (a z : f64) (s1 : rt) : Prop :=
  match start with
  | None => a = f_of_Z 0 /\ gives_num run stop s z s1
  | Some e => exists s0, gives_num run e s a s0 /\ gives_num run stop s0 z s1
  end.
(** The loop variable is declared. *)
Definition started (name : string) (a : value) (s : rt) : rt :=
  RT (r_mod s) (r_stack s ++ [a]) (r_calls s) ((name, length (r_stack s)) :: r_locals s)
     (r_currents s) (r_world s).
(** Everything declared since [s] is gone again. *)
Definition back_to (s s1 : rt) : rt :=
  RT (r_mod s1) (firstn (length (r_stack s)) (r_stack s1)) (r_calls s1)
     (skipn (length (r_locals s1) - length (r_locals s)) (r_locals s1)) (r_currents s1) (r_world s1).

(** The numbers a loop over [x, stop) should visit. *)
Inductive counts (stop : f64) : f64 -> list f64 -> Prop :=
| Co_end : forall x, flt x stop = false -> counts stop x []
| Co_next : forall x l, flt x stop = true -> counts stop (fadd x f1) l -> counts stop x (x :: l).

(** A prefix of that. *)
Inductive counts_upto (stop : f64) : f64 -> list f64 -> Prop :=
| Cu_end : forall x, counts_upto stop x []
| Cu_next : forall x l, flt x stop = true -> counts_upto stop (fadd x f1) l -> counts_upto stop x (x :: l).

(** ** Link loops *)

(** What a value adds to a link. *)
Definition elems (v : value) : option (list lelem) :=
  match v with
  | VBool b _ => Some [LBool b]
  | VF64 x _ => Some [LF64 x]
  | VStr s => Some [LStr s]
  | VLink l => Some l
  | _ => None
  end.
(** The items of a link body are run in order up to the first [break]/[continue]. *)
Inductive items_run (run : expr -> rt -> outcome res) : list expr -> rt -> list lelem -> flow -> rt -> Prop :=
| Ir_nil : forall s, items_run run [] s [] FContinue s
| Ir_value : forall e es s x s1 v l l2 fl s2, run e s = Ok (Some x, FContinue) s1 -> denotes s1 x v ->
    elems v = Some l -> items_run run es s1 l2 fl s2 -> items_run run (e :: es) s (l ++ l2) fl s2
| Ir_none : forall e es s s1 l fl s2, run e s = Ok (None, FContinue) s1 -> items_run run es s1 l fl s2 ->
    items_run run (e :: es) s l fl s2
| Ir_leave : forall e es s x fl s1, run e s = Ok (x, fl) s1 -> fl <> FContinue -> fl <> FReturn ->
    items_run run (e :: es) s [] fl s1.
(** Everything the passes collected. *)
Definition link_of (log : list pass) : list lelem :=
  concat (map (fun p => match p_val p with Some (VLink l) => l | _ => [] end) log).

(** One pass of a link loop whose body is [e]: a link, or another link loop. *)
Fixpoint link_pass (run : expr -> rt -> outcome res) (e : expr) (s : rt) (r : res) (s' : rt) {struct e} : Prop :=
  match e with
  | ELink items => exists l fl, r = (Some (VLink l), fl) /\ items_run run items s l fl s'
  | EForN KLink label name start stop b =>
      exists x z s1 log fl s2,
        r = (Some (VLink (link_of log)), fl) /\ range run start stop s x z s1 /\
        let st := S (length (r_stack s1)) in let lc := S (length (r_locals s1)) in
        iterates (match b with e2 :: _ => link_pass run e2 | [] => fun _ _ _ => False end) (fun _ => False) label (count_more st z) (count_over st z) (count_pos st)
          (count_next_pass st lc) (started name (VF64 x None) s1) log fl s2 /\ s' = back_to s s2
  | EForIn KLink label name iter b =>
      exists x s0 ch, run iter s = Ok (Some x, FContinue) s0 /\ denotes s0 x (VIn ch) /\
        ((empty_queue ch s0 /\ r = (Some (VLink []), FContinue) /\ s' = s0) \/
         exists m s1 log fl s2,
           r = (Some (VLink (link_of log)), fl) /\ taken ch s0 m s1 /\
           let st := S (length (r_stack s1)) in let lc := S (length (r_locals s1)) in
           iterates (match b with e2 :: _ => link_pass run e2 | [] => fun _ _ _ => False end) (fun _ => False) label (fun _ => True) (fun _ => False) (in_pos st)
             (in_next_pass st lc ch) (started name m s1) log fl s2 /\ s' = back_to s s2)
  | _ => False
  end.

(** The passes of [for init; cond; step { .. }], with the [break]/[continue] each ended with. After a
    pass that ran to its end what it declared is dropped; after [continue] it is not. *)
Inductive cfor (run : expr -> rt -> outcome res) (blk : rt -> outcome res) (label : option string) (st lc : nat) (cond step : expr)
  : rt -> list flow -> flow -> rt -> Prop :=
| Cf_over : forall s sec s1, run cond s = Ok (Some (VBool false sec), FContinue) s1 ->
    cfor run blk label st lc cond step s [] FContinue s1
| Cf_next : forall s sec s1 r s2 s3 log fl s', run cond s = Ok (Some (VBool true sec), FContinue) s1 ->
    blk s1 = Ok (r, FContinue) s2 -> run step s2 = Ok (None, FContinue) s3 ->
    cfor run blk label st lc cond step
      (RT (r_mod s3) (firstn st (r_stack s3)) (r_calls s3)
          (skipn (length (r_locals s3) - lc) (r_locals s3)) (r_currents s3) (r_world s3)) log fl s' ->
    cfor run blk label st lc cond step s (FContinue :: log) fl s'
| Cf_continue : forall s sec s1 r l s2 s3 log fl s', run cond s = Ok (Some (VBool true sec), FContinue) s1 ->
    blk s1 = Ok (r, FContinueLoop l) s2 -> acts_on label (FContinueLoop l) -> run step s2 = Ok (None, FContinue) s3 ->
    cfor run blk label st lc cond step s3 log fl s' ->
    cfor run blk label st lc cond step s (FContinueLoop l :: log) fl s'
| Cf_break : forall s sec s1 r l s2, run cond s = Ok (Some (VBool true sec), FContinue) s1 ->
    blk s1 = Ok (r, FBreak l) s2 -> acts_on label (FBreak l) ->
    cfor run blk label st lc cond step s [FBreak l] FContinue s2
| Cf_outer : forall s sec s1 r fl s2, run cond s = Ok (Some (VBool true sec), FContinue) s1 ->
    blk s1 = Ok (r, fl) s2 -> fl <> FContinue -> fl <> FReturn -> ~ acts_on label fl ->
    cfor run blk label st lc cond step s [fl] fl s2.
