(** * The lifetime and mutability checks of a linked file.

    Model of /repo/src/lifetime/mod.rs 744-1142, the part of [check_core] between the linking passes (NodesModel.v, [linked])
    and the type checker: argument names and their lifetimes, assigned and returned values, ends of blocks, arguments of
    calls, [go], constraints of functions, and [mut]. [lifetime] and [compare_lifetimes] are those of LifetimeModel.v.
    Definitions only.

    Simplifications:
    - the lists of places to check (mod.rs 203-329) are not stored: each pass goes through all nodes in order and takes those
      that the list would have. What the lists read is not changed by linking, and the panics of building them are in [linked];
    - error messages are labels with the node whose source they are at;
    - the threading feature is on. *)
From Coq Require Import String List Bool Arith ZArith.
From Verif Require Import Syntax Float64 TypeModel LifetimeModel PrintModel NodesModel.
Import ListNotations.
Local Open Scope string_scope.
Local Open Scope nat_scope.
Local Open Scope list_scope.

(** what [lifetime] and [compare_lifetimes] read of a node (lifetime/node.rs 11-48) *)
Definition as_node (n : fnode) : node :=
  Node (f_kind n) (x_names (f_data n)) (x_lifetime (f_data n)) (f_parent n) (f_children n) (f_decl n) (f_lts n) (x_op (f_data n)).
Definition as_nodes (g : fgraph) : list node := map as_node g.

Inductive xerr := X_signature (e : aerr) | X_lifetime (e : cerr) | X_void | X_go | X_reference | X_mut.
Inductive xres (A : Type) := XOk (a : A) | XErr (e : xerr) (at_ : nat) | XPanic | XOof.
Arguments XOk {A}. Arguments XErr {A}. Arguments XPanic {A}. Arguments XOof {A}.
Definition xbind {A B} (x : xres A) (f : A -> xres B) : xres B :=
  match x with XOk a => f a | XErr e i => XErr e i | XPanic => XPanic | XOof => XOof end.
Declare Scope lives_scope.
Notation "'do' x <- a ; b" := (xbind a (fun x => b)) (at level 200, x pattern, a at level 100, b at level 200) : lives_scope.
Local Open Scope lives_scope.
Definition xat {A} (l : list A) (i : nat) : xres A := match nth_error l i with Some n => XOk n | None => XPanic end.
(** [find_kind] and [count_kind] of NodesModel.v give no errors *)
Definition xnres {A} (r : nres A) : xres A := match r with NOk a => XOk a | NErr _ _ | NPanic => XPanic | NOof => XOof end.
Fixpoint xeach (f : nat -> xres unit) (l : list nat) : xres unit :=
  match l with [] => XOk tt | i :: l => do _ <- f i; xeach f l end.

Section Checks.
Variables (fuel : nat) (g : fgraph) (m : arg_names).

(** [nodes[i].lifetime(nodes, &arg_names)] *)
Definition life (i : nat) : xres lres :=
  do n <- xat g i;
  match node_lifetime fuel (as_nodes g) m (as_node n) with LPanic => XPanic | LOof => XOof | r => XOk r end.
(** [compare_lifetimes(l, r, nodes).map_err(|err| nodes[i].source.wrap(err))] *)
Definition compare_at (l r : lres) (i : nat) : xres unit :=
  match compare_lifetimes l r (as_nodes g) with COk => XOk tt | CErr e => XErr (X_lifetime e) i | CPanicked => XPanic end.
(** is the value of [i] good for a place with the lifetime [l]? *)
Definition good_for (l : lifetime) (i : nat) : xres unit := do r <- life i; compare_at (LOk l) r i.

(** 322-328, 282-289: the item on the left of the assignment [n] *)
Definition left_item (n : fnode) : xres nat :=
  do l <- xat (f_children n) 0; do ln <- xat g l; xat (f_children ln) 0.

(** mod.rs 820-830 (the list: 315-329) *)
Definition check_set (a : nat) : xres unit :=
  do n <- xat g a;
  match x_op (f_data n) with
  | Some OpSet =>
      do i <- left_item n;
      do r <- xat (f_children n) 1;
      do ll <- life i; do lr <- life r; compare_at ll lr r
  | _ => XOk tt
  end.
(** 277-281, 301-305: is it [:=] with something on the left? *)
Definition is_let (n : fnode) : xres bool :=
  match x_op (f_data n), f_children n with
  | Some OpAssign, l :: _ => do ln <- xat g l; XOk (match f_children ln with [] => false | _ => true end)
  | _, _ => XOk false
  end.
(** mod.rs 833-839 (the list: 272-292) *)
Definition check_let (a : nat) : xres unit :=
  do n <- xat g a;
  do b <- is_let n;
  if b then
    do i <- left_item n;
    do it <- xat g i;
    if f_item_ids it then XOk tt else do r <- xat (f_children n) 1; good_for (Local i) r
  else XOk tt.
(** mod.rs 842-850 (the list: 295-312) *)
Definition check_put (a : nat) : xres unit :=
  do n <- xat g a;
  do b <- is_let n;
  if b then
    do i <- left_item n;
    do it <- xat g i;
    if f_item_ids it then
      match f_decl it with
      | Some j => do r <- xat (f_children n) 1; good_for (Local j) r
      | None => XOk tt
      end
    else XOk tt
  else XOk tt.
(** mod.rs 853-858 (the list: 221-226) *)
Definition check_return (i : nat) : xres unit :=
  do n <- xat g i;
  if is_kind (f_kind n) K_Return then do r <- xat (f_children n) 0; good_for (Return []) r else XOk tt.
(** 232-242 *)
Definition is_math (n : fnode) : xres bool :=
  if is_kind (f_kind n) K_Expr then
    match f_parent n with
    | Some p => do pn <- xat g p; XOk (is_kind (f_kind pn) K_Fn || is_kind (f_kind pn) K_Closure)
    | None => XOk true
    end
  else XOk false.
(** mod.rs 861-865 (the list: 229-244) *)
Definition check_math (i : nat) : xres unit :=
  do n <- xat g i; do b <- is_math n; if b then good_for (Return []) i else XOk tt.

(** the [Arg] children of a function *)
Definition fn_args (n : fnode) : list nat :=
  filter (fun c => match nth_error g c with Some m => is_kind (f_kind m) K_Arg | None => false end) (f_children n).
(** mod.rs 869-887 *)
Definition check_void (f : nat) : xres unit :=
  do n <- xat g f;
  if is_kind (f_kind n) K_Fn then
    match x_ty (f_data n) with
    | Some TVoid =>
        xeach (fun j => do a <- xat g j;
                        match x_lifetime (f_data a) with
                        | Some l => if (l =? "return")%string then match f_name a with None => XPanic | Some _ => XErr X_void j end else XOk tt
                        | None => XOk tt
                        end) (fn_args n)
    | _ => XOk tt
    end
  else XOk tt.

(** kind.rs 245-249 *)
Definition is_block (k : kind) : bool := match k with K_Block | K_ElseIfBlock | K_TrueBlock | K_ElseBlock => true | _ => false end.
(** 250-267 *)
Definition is_end (i : nat) (n : fnode) : xres bool :=
  do b <- match is_kind (f_kind n) K_Expr, f_children n with
          | true, [c] => do cn <- xat g c; XOk (has_lifetime (as_node cn))
          | _, _ => XOk true
          end;
  if b then
    match f_parent n with
    | Some p =>
        do pn <- xat g p;
        if is_block (f_kind pn) then
          match f_children pn with [] => XPanic | c :: l => XOk (last l c =? i) end
        else XOk false
    | None => XOk false
    end
  else XOk false.
(** mod.rs 890-897 (the list: 247-270) *)
Definition check_end (i : nat) : xres unit :=
  do n <- xat g i;
  do b <- is_end i n;
  if b then match f_parent n with Some p => good_for (Local p) i | None => XPanic end else XOk tt.

(** mod.rs 900-913 *)
Definition check_call (c : nat) : xres unit :=
  do n <- xat g c;
  if is_kind (f_kind n) K_Call then
    xeach (fun a => do an <- xat g a; if is_kind (f_kind an) K_CallArg then good_for (Local c) a else XOk tt) (f_children n)
  else XOk tt.

(** the children of a node with their places among the children *)
Definition numbered (l : list nat) : list (nat * nat) := combine (seq 0 (length l)) l.
Fixpoint xeach2 {A B} (f : A -> B -> xres unit) (l : list (A * B)) : xres unit :=
  match l with [] => XOk tt | (a, b) :: l => do _ <- f a b; xeach2 f l end.
(** [nodes[call.children[i]].source] *)
Definition fail_at (n : fnode) (i : nat) (e : xerr) : xres unit := do c <- xat (f_children n) i; do _ <- xat g c; XErr e c.
(** the [Arg] children of a function with their places among the children (mod.rs 932-936, 1019-1024) *)
Definition numbered_args (n : fnode) : list (nat * nat) :=
  filter (fun x => match nth_error g (snd x) with Some m => is_kind (f_kind m) K_Arg | None => false end) (numbered (f_children n)).
(** mod.rs 916-964 *)
Definition check_go (c : nat) : xres unit :=
  do n <- xat g c;
  if is_kind (f_kind n) K_Call then
    match f_parent n with
    | None => XOk tt
    | Some p =>
        do pn <- xat g p;
        if is_kind (f_kind pn) K_Go then
          match f_decl n with
          | Some d =>
              do f <- xat g d;
              xeach2 (fun i a => do an <- xat g a;
                        match x_lifetime (f_data an) with Some _ => fail_at n i X_go | None => XOk tt end) (numbered_args f)
          | None =>
              let given := filter (fun a => match nth_error g a with Some an => is_kind (f_kind an) K_CallArg | None => false end) (f_children n) in
              xeach2 (fun x _ => match snd x with LtDefault => XOk tt | _ => fail_at n (fst x) X_go end)
                (combine (combine (seq 0 (length (f_lts n))) (f_lts n)) given)
          end
        else XOk tt
    end
  else XOk tt.

(** mod.rs 969-990 [map_arg_call_arg_index] *)
Fixpoint call_arg_from (cs : list nat) (i j new : nat) : xres nat :=
  match cs with
  | [] => XOk new
  | ch :: cs =>
      do n <- xat g ch;
      do sw <- xnres (find_kind g K_Swizzle (f_children n));
      do w <- match sw with
              | Some s => do sn <- xat g s; xnres (count_kind g is_sw_kind (f_children sn))
              | None => XOk 1
              end;
      if i <? j + w then XOk new else call_arg_from cs i (j + w) (S new)
  end.
Definition call_arg_index (n : fnode) (i : nat) : xres nat := call_arg_from (f_children n) i 0 0.
(** the loop of mod.rs 995-1011 and the test after it *)
Fixpoint reaches_item (k : nat) (i : nat) : xres bool :=
  match k with
  | 0 => XOof
  | S k =>
      do n <- xat g i;
      match f_kind n with
      | K_Item => XOk true
      | K_Call => XOk false
      | _ => match f_children n with [] => XOk false | c :: _ => reaches_item k c end
      end
  end.
(** mod.rs 991-1015 [is_reference] *)
Definition is_reference (n : fnode) (i : nat) : xres bool := do c <- xat (f_children n) i; reaches_item fuel c.
(** the lifetimes of two arguments of a call (mod.rs 1047-1052, 1080-1085) *)
Definition compare_args (n : fnode) (l r : nat) : xres unit :=
  do lc <- xat (f_children n) l; do rc <- xat (f_children n) r;
  do ll <- life lc; do lr <- life rc; compare_at ll lr rc.
(** mod.rs 1019-1055, for one argument [a] of the function [d] at place [i] *)
Definition check_arg (n : fnode) (d i a : nat) : xres unit :=
  do i <- call_arg_index n i;
  do an <- xat g a;
  match x_lifetime (f_data an) with
  | None => XOk tt
  | Some l =>
      do _ <- match arg_lifetime fuel a (as_node an) (as_nodes g) m with
              | LPanic => XPanic
              | LOof => XOof
              | LOk (Return _) | LOk (Argument _) => do b <- is_reference n i; if b then XOk tt else fail_at n i X_reference
              | _ => XOk tt
              end;
      if (l =? "return")%string then XOk tt
      else match arg_get m d l with
           | None => XPanic
           | Some (_, ind) => compare_args n ind i
           end
  end.
(** mod.rs 1058-1089, for one constraint *)
Definition check_lt (n : fnode) (i : nat) (l : lt) : xres unit :=
  do i <- call_arg_index n i;
  do c <- xat (f_children n) i;
  do _ <- xat g c;
  match l with
  | LtDefault => XOk tt
  | LtReturn => do b <- is_reference n i; if b then XOk tt else XErr X_reference c
  | LtArg ind => do b <- is_reference n i; if b then compare_args n ind i else XErr X_reference c
  end.
(** mod.rs 967-1091 *)
Definition check_constraints (c : nat) : xres unit :=
  do n <- xat g c;
  if is_kind (f_kind n) K_Call then
    match f_decl n with
    | Some d => do f <- xat g d; xeach2 (fun i a => check_arg n d i a) (numbered_args f)
    | None => xeach2 (check_lt n) (combine (seq 0 (length (f_lts n))) (f_lts n))
    end
  else XOk tt.

(** [nodes[decl]] is an argument or current object without [mut] *)
Definition fixed (d : nat) : xres bool :=
  do n <- xat g d; XOk ((is_kind (f_kind n) K_Arg || is_kind (f_kind n) K_Current) && negb (x_mut (f_data n))).
(** the item [i] is changed (mod.rs 1095-1103, 1130-1139) *)
Definition changes (i : nat) : xres unit :=
  do n <- xat g i;
  match f_decl n with
  | Some d => do b <- fixed d; if b then match f_name n with None => XPanic | Some _ => XErr X_mut i end else XOk tt
  | None => XOk tt
  end.
(** mod.rs 1094-1104 *)
Definition check_changed (a : nat) : xres unit :=
  do n <- xat g a;
  match x_op (f_data n) with
  | Some OpAssign | None => XOk tt
  | Some _ => do i <- left_item n; changes i
  end.
(** mod.rs 1109-1123 [reference] *)
Definition reference (i : nat) : xres (option nat) :=
  do n <- xat g i;
  if is_kind (f_kind n) K_Item then XOk (Some i) else
  match f_children n with
  | [] => XOk None
  | c :: _ => do cn <- xat g c;
              if is_kind (f_kind cn) K_Item then XOk (Some c) else
              XOk None
  end.
(** mod.rs 1107-1142 *)
Definition check_mut (c : nat) : xres unit :=
  do n <- xat g c;
  if is_kind (f_kind n) K_Call then
    xeach (fun a => do an <- xat g a;
                    if is_kind (f_kind an) K_CallArg && x_mut (f_data an) then
                      do r <- reference a;
                      match r with Some i => changes i | None => XOk tt end
                    else XOk tt) (f_children n)
  else XOk tt.

(** mod.rs 819-1142 *)
Definition check_values : xres unit :=
  let all := seq 0 (length g) in
  do _ <- xeach check_set all;
  do _ <- xeach check_let all;
  do _ <- xeach check_put all;
  do _ <- xeach check_return all;
  do _ <- xeach check_math all;
  do _ <- xeach check_void all;
  do _ <- xeach check_end all;
  do _ <- xeach check_call all;
  do _ <- xeach check_go all;
  do _ <- xeach check_constraints all;
  do _ <- xeach check_changed all;
  xeach check_mut all.
End Checks.

Definition aerr_at (e : aerr) : nat := match e with ADuplicate n | AMissing n | ACyclic n => n end.
(** mod.rs 744-1142 *)
Definition check_lives (fuel : nat) (g : fgraph) : xres unit :=
  match arg_fns fuel (as_nodes g) (of_kind g (fun k => is_kind k K_Fn)) [] with
  | AOk m => check_values fuel g m
  | AErr e => XErr (X_signature e) (aerr_at e)
  | APanic => XPanic
  | AOof => XOof
  end.
