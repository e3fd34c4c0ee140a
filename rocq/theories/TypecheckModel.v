(** * The type checker.

    Model of /repo/src/lifetime/typecheck.rs with typecheck/refine.rs, on the graph of nodes that
    lifetime/node.rs makes and lifetime/mod.rs links. Definitions only.

    Simplifications:
    - an error is its number (`#100` and so on) and the node it is reported at;
    - what the checker knows of functions outside of the file ([Prelude], [UseLookup]) is a record of
      two lookups; a call without a name is a panic also where the code would not need the name;
    - a node for an extra signature ([Kind::Ty]) must have types at all its arguments and a return
      type; otherwise the result is [TOut], outside of the model (the parser makes no such nodes);
    - the threading feature is on. *)
From Coq Require Import String List Bool Arith.
From Verif Require Import Syntax TypeModel LifetimeModel.
Import ListNotations.
Local Open Scope string_scope.
Local Open Scope nat_scope.
Local Open Scope list_scope.

(** lifetime/node.rs 11-49 [Node], the fields used here *)
Record gnode := GNode {
  g_kind : kind;
  g_names : list string;
  g_alias : option string;
  g_ty : option ty;
  g_try : bool;
  g_parent : option nat;
  g_children : list nat;
  g_decl : option nat;
  g_op : option assign_op }.
Definition graph := list gnode.

(** prelude.rs 31-44 [Dfn], the fields used here; [Prelude::functions]; [UseLookup::aliases] *)
Record dfn := Dfn { d_tys : list ty; d_ret : ty; d_ext : list sig }.
Record known := Known { k_fun : string -> option dfn; k_alias : string -> string -> option dfn }.

(** node.rs 51-57 *)
Definition g_name (n : gnode) : option string := hd_error (g_names n).
(** node.rs 172-174 *)
Definition item_ids (n : gnode) : bool := is_kind (g_kind n) K_Item && negb (length (g_children n) =? 0).
(** node.rs 176-186 *)
Definition inner_type (n : gnode) (t : ty) : ty :=
  if g_try n then match t with TOption t | TResult t => t | t => t end else t.

(** [derive(PartialEq)] of [Type] *)
Fixpoint ty_eqb (a b : ty) {struct a} : bool :=
  match a, b with
  | TUnreachable, TUnreachable | TVoid, TVoid | TAny, TAny | TBool, TBool | TF64, TF64 | TVec4, TVec4
  | TMat4, TMat4 | TStr, TStr | TLink, TLink | TObject, TObject => true
  | TArray a, TArray b | TOption a, TOption b | TResult a, TResult b | TSecret a, TSecret b
  | TThread a, TThread b | TIn a, TIn b => ty_eqb a b
  | TAdHoc n a, TAdHoc m b => (n =? m)%string && ty_eqb a b
  | TClosure l a, TClosure l' b =>
      (fix go (l l' : list ty) : bool :=
         match l, l' with
         | [], [] => true
         | x :: l, y :: l' => ty_eqb x y && go l l'
         | _, _ => false
         end) l l' && ty_eqb a b
  | _, _ => false
  end.

(** ** Results *)
Inductive tres (A : Type) := TOk (a : A) | TErr (code at_ : nat) | TPanic | TOof | TOut.
Arguments TOk {A}. Arguments TErr {A}. Arguments TPanic {A}. Arguments TOof {A}. Arguments TOut {A}.
Definition tbind {A B} (x : tres A) (f : A -> tres B) : tres B :=
  match x with TOk a => f a | TErr c i => TErr c i | TPanic => TPanic | TOof => TOof | TOut => TOut end.
Declare Scope check_scope.
Notation "'do' x <- a ; b" := (tbind a (fun x => b)) (at level 200, x pattern, a at level 100, b at level 200) : check_scope.
Local Open Scope check_scope.

(** [nodes[i]] *)
Definition get (g : graph) (i : nat) : tres gnode := match nth_error g i with Some n => TOk n | None => TPanic end.
(** [nodes[i].ty = t] *)
Definition put (g : graph) (i : nat) (t : option ty) : graph :=
  match nth_error g i with
  | Some n => LifetimeModel.set_nth g i (GNode (g_kind n) (g_names n) (g_alias n) t (g_try n) (g_parent n) (g_children n) (g_decl n) (g_op n))
  | None => g
  end.
(** node.rs 163-170 *)
Fixpoint find_child_ (g : graph) (k : kind) (l : list nat) : tres (option nat) :=
  match l with
  | [] => TOk None
  | c :: l => do n <- get g c; if is_kind (g_kind n) k then TOk (Some c) else find_child_ g k l
  end.
Definition find_child (g : graph) (n : gnode) (k : kind) : tres (option nat) := find_child_ g k (g_children n).

(** ** Propagation *)

(** What a round changes: the nodes, the new entries of the todo-list (newest first), the delayed
    errors and the flag [changed]. *)
Record st := St { s_g : graph; s_new : list nat; s_errs : list nat; s_changed : bool }.
Definition push (i : nat) (s : st) : st := St (s_g s) (i :: s_new s) (s_errs s) (s_changed s).
Definition set_ty (i : nat) (t : ty) (s : st) : st := St (put (s_g s) i (Some t)) (s_new s) (s_errs s) (s_changed s).
Definition change (s : st) : st := St (s_g s) (s_new s) (s_errs s) true.

(** 616-634: the end of the body of the loop, with [this_ty]. *)
Definition finish (i : nat) (t : option ty) (s : st) : tres st :=
  match t with
  | None => TOk (push i s)
  | Some t =>
      do n <- get (s_g s) i;
      do s <- match g_ty n, g_parent n with
              | Some old, Some p =>
                  if ty_eqb old t then TOk s
                  else do pn <- get (s_g s) p; TOk (match g_ty pn with Some _ => push p s | None => s end)
              | _, _ => TOk s
              end;
      TOk (change (set_ty i t s))
  end.

(** The number of [Sw0] to [Sw3] among the children (121-128, 139-146). *)
Definition is_sw (k : kind) : bool :=
  match k with K_Sw0 | K_Sw1 | K_Sw2 | K_Sw3 => true | _ => false end.
Fixpoint count_sw (g : graph) (l : list nat) : tres nat :=
  match l with
  | [] => TOk 0
  | c :: l => do n <- get g c; do k <- count_sw g l; TOk (if is_sw (g_kind n) then S k else k)
  end.
(** 112-134: the position of call argument [i]. *)
Fixpoint arg_position (g : graph) (i : nat) (l : list nat) : tres nat :=
  match l with
  | [] => TOk 0
  | c :: l =>
      if c =? i then TOk 0
      else
        do n <- get g c;
        do sw <- find_child g n K_Swizzle;
        do here <- match sw with Some sw => do n <- get g sw; count_sw g (g_children n) | None => TOk 1 end;
        do rest <- arg_position g i l;
        TOk (here + rest)
  end.
(** 137-155 *)
Definition arg_positions (g : graph) (i : nat) (parent child : gnode) : tres (list nat) :=
  do j <- arg_position g i (g_children parent);
  if is_kind (g_kind child) K_Swizzle then do n <- count_sw g (g_children child); TOk (seq j n) else TOk [j].

(** The function that a call or call argument goes to outside of the file: 188-194, 213-215, 252-256, 270. *)
Definition callee (K : known) (n : gnode) : tres (option dfn) :=
  match g_name n with
  | None => TPanic
  | Some x => TOk (match g_alias n with Some a => k_alias K a x | None => k_fun K x end)
  end.

(** 157-233 for one position [j]: does the type fit? *)
Definition arg_fits (K : known) (g : graph) (parent : gnode) (t : option ty) (j : nat) : tres bool :=
  if is_kind (g_kind parent) K_CallClosure then TOk true
  else match g_decl parent with
  | Some d =>
      do f <- get g d;
      match nth_error (g_children f) j with
      | None => TPanic
      | Some a =>
          do an <- get g a;
          TOk (match t, g_ty an with Some t, Some p => goes_with p t | _, _ => true end)
      end
  | None =>
      do f <- callee K parent;
      match f, t with
      | Some f, Some t => match nth_error (d_tys f) j with Some p => TOk (goes_with p t) | None => TPanic end
      | _, _ => TOk true
      end
  end.
Fixpoint all_fit (K : known) (g : graph) (parent : gnode) (t : option ty) (js : list nat) : tres bool :=
  match js with
  | [] => TOk true
  | j :: js => do b <- arg_fits K g parent t j; if b then all_fit K g parent t js else TOk false
  end.

(** 98-237 *)
Definition call_arg (K : known) (i : nat) (s : st) : tres st :=
  do n <- get (s_g s) i;
  match g_children n with
  | [] => TOk (push i s)
  | c :: _ =>
      do cn <- get (s_g s) c;
      let t := option_map (inner_type n) (g_ty cn) in
      match g_parent n with
      | None => finish i t s
      | Some p =>
          let s := St (s_g s) (s_new s) (remove Nat.eq_dec i (s_errs s)) (s_changed s) in
          do pn <- get (s_g s) p;
          do js <- arg_positions (s_g s) i pn cn;
          do b <- all_fit K (s_g s) pn t js;
          if b then finish i t s
          else TOk (push i (St (s_g s) (s_new s) (i :: s_errs s) (s_changed s)))
      end
  end.

(** refine.rs 68-72, 145-149: the types of the arguments of a call *)
Fixpoint arg_types (g : graph) (l : list nat) : tres (list (option ty)) :=
  match l with
  | [] => TOk []
  | c :: l =>
      do n <- get g c;
      if is_kind (g_kind n) K_CallArg then
        match g_children n with
        | [] => arg_types g l
        | x :: _ => do xn <- get g x; do r <- arg_types g l; TOk (g_ty xn :: r)
        end
      else arg_types g l
  end.
(** A [Kind::Ty] node as a signature: refine.rs 60-79, 107-114 *)
Fixpoint ty_args (g : graph) (l : list nat) : tres (list ty) :=
  match l with
  | [] => TOk []
  | c :: l =>
      do n <- get g c;
      if is_kind (g_kind n) K_TyArg then
        match g_ty n with None => TOut | Some t => do r <- ty_args g l; TOk (t :: r) end
      else ty_args g l
  end.
Definition sig_of (g : graph) (n : gnode) : tres sig :=
  do a <- ty_args g (g_children n);
  do r <- find_child g n K_TyRet;
  match r with
  | None => TOut
  | Some r => do rn <- get g r; match g_ty rn with None => TOut | Some t => TOk (mkSig (g_names n) a t) end
  end.
Fixpoint sigs_of (g : graph) (l : list nat) : tres (list sig) :=
  match l with
  | [] => TOk []
  | c :: l =>
      do n <- get g c;
      if is_kind (g_kind n) K_Ty then do x <- sig_of g n; do r <- sigs_of g l; TOk (x :: r) else sigs_of g l
  end.

(** 238-282: [this_ty] after refinement; then [default], when the call has no type at all yet. *)
Definition refine_call (i : nat) (n : gnode) (sigs : list sig) (default : option ty) (s : st) : tres st :=
  do args <- arg_types (s_g s) (g_children n);
  let fall := match g_ty n with None => default | Some _ => None end in
  match refine sigs args with
  | RFound t => finish i (Some t) s
  | RNothing => finish i fall s
  | RDelay => finish i fall (push i s)
  | RMismatch => TErr 230 i
  | RVarError => TErr 1500 i
  end.
Definition call (K : known) (i : nat) (s : st) : tres st :=
  do n <- get (s_g s) i;
  match g_decl n with
  | Some d =>
      do f <- get (s_g s) d;
      do sigs <- sigs_of (s_g s) (g_children f);
      refine_call i n sigs (g_ty f) s
  | None =>
      do f <- callee K n;
      match f with
      | None => finish i None s
      | Some f =>
          match d_ext f with
          | [] => finish i (Some (d_ret f)) s
          | sigs => refine_call i n sigs (Some (d_ret f)) s
          end
      end
  end.

(** 283-303 *)
Definition call_closure (i : nat) (s : st) : tres st :=
  do n <- get (s_g s) i;
  do it <- find_child (s_g s) n K_Item;
  match it with
  | None => finish i None s
  | Some it =>
      do itn <- get (s_g s) it;
      if item_ids itn then TOk (push i s)
      else match g_decl itn with
      | None => finish i None s
      | Some d =>
          do dn <- get (s_g s) d;
          match g_ty dn with
          | None => finish i None s
          | Some t => match closure_ret_ty t with Some t => finish i (Some t) s | None => TErr 250 it end
          end
      end
  end.

(** 337-343: all later nodes declared by [it] *)
Definition users (g : graph) (it : nat) : list nat :=
  filter (fun j => match nth_error g j with
                   | Some n => match g_decl n with Some d => d =? it | None => false end
                   | None => false end) (seq (S it) (length g - S it)).
(** 304-360 *)
Definition assign (i : nat) (s : st) : tres st :=
  do n <- get (s_g s) i;
  do l <- find_child (s_g s) n K_Left;
  match l with
  | None => TOk (push i s)
  | Some l =>
      do r <- find_child (s_g s) n K_Right;
      match r with
      | None => TOk (push i s)
      | Some r =>
          do ln <- get (s_g s) l;
          do rn <- get (s_g s) r;
          if item_ids rn then TOk (push i s)
          else match g_ty ln, g_ty rn with
          | None, Some t => finish i (Some TVoid) (change (set_ty l t s))
          | Some lt, Some t =>
              if goes_with t lt then
                let s := match g_children ln with
                         | [] => s
                         | it :: _ => fold_left (fun s j => push j s) (it :: users (s_g s) it) s
                         end in
                finish i (Some TVoid) (change (set_ty l t s))
              else TOk (push i s)
          | _, _ => TOk (push i s)
          end
      end
  end.

(** 368-376 *)
Definition is_index_loop (k : kind) : bool :=
  match k with
  | K_Sum | K_Min | K_Max | K_Any | K_All | K_Sift | K_Vec4UnLoop | K_ForN | K_LinkFor => true
  | _ => false
  end.
(** 361-416 *)
Definition item (i : nat) (s : st) : tres st :=
  do n <- get (s_g s) i;
  if item_ids n then TOk (push i s)
  else match g_decl n with
  | Some d =>
      do dn <- get (s_g s) d;
      if is_index_loop (g_kind dn) then
        if g_try n then TErr 300 i else finish i (Some TF64) s
      else if is_kind (g_kind dn) K_Arg then
        finish i (Some (inner_type n (match g_ty dn with Some t => t | None => TAny end))) s
      else
        match g_ty dn with
        | None => finish i None s
        | Some t =>
            let t := inner_type n t in
            match g_parent n with
            | None => finish i (Some t) s
            | Some p =>
                do pn <- get (s_g s) p;
                finish i (Some t) (if is_kind (g_kind pn) K_Left then set_ty p t s else s)
            end
        end
  | None =>
      match g_parent n with
      | None => finish i None s
      | Some p =>
          do pn <- get (s_g s) p;
          finish i (if is_kind (g_kind pn) K_Left then g_ty pn else None) s
      end
  end.

(** 453-477: the function or closure around; a loop of parents never ends (no fuel). *)
Fixpoint enclosing (n : nat) (g : graph) (p : nat) : tres (option nat) :=
  match n with
  | O => TOof
  | S n =>
      do pn <- get g p;
      match g_parent pn with
      | None => TOk None
      | Some p =>
          do pn <- get g p;
          if is_kind (g_kind pn) K_Fn || is_kind (g_kind pn) K_Closure then TOk (Some p) else enclosing n g p
      end
  end.
(** 417-481 *)
Definition pass_up (i : nat) (s : st) : tres st :=
  do n <- get (s_g s) i;
  match g_children n with
  | [] => TOk s
  | c :: _ =>
      do cn <- get (s_g s) c;
      if item_ids cn then TOk (push i s)
      else match g_ty cn with
      | None => TOk (push i s)
      | Some t =>
          if is_kind (g_kind n) K_Grab && ty_eqb t TVoid then TErr 325 i
          else if is_kind (g_kind cn) K_Return then
            do p <- enclosing (S (length (s_g s))) (s_g s) i;
            do s <- match p with
                    | None => TOk s
                    | Some p =>
                        do pn <- get (s_g s) p;
                        match g_ty pn with
                        | None => TOk (set_ty p t s)
                        | Some ft => if goes_with ft t then TOk s else TErr 350 c
                        end
                    end;
            finish i (Some TUnreachable) s
          else finish i (Some (inner_type n t)) s
      end
  end.

(** 482-506 *)
Definition compare (i : nat) (s : st) : tres st :=
  do n <- get (s_g s) i;
  do l <- find_child (s_g s) n K_Left;
  match l with
  | None => TOk (push i s)
  | Some l =>
      do ln <- get (s_g s) l;
      if item_ids ln then TOk (push i s)
      else finish i (match g_ty ln with
                     | Some TAny => Some TAny
                     | Some (TSecret _) => Some (TSecret TBool)
                     | Some _ => Some TBool
                     | None => None
                     end) s
  end.
(** 507-520 *)
Definition block (i : nat) (s : st) : tres st :=
  do n <- get (s_g s) i;
  match rev (g_children n) with
  | [] => finish i (Some TVoid) s
  | c :: _ =>
      do cn <- get (s_g s) c;
      if item_ids cn then TOk (push i s) else finish i (option_map (inner_type n) (g_ty cn)) s
  end.
(** 521-532 *)
Definition sift (i : nat) (s : st) : tres st :=
  do n <- get (s_g s) i;
  do b <- find_child (s_g s) n K_Block;
  match b with
  | None => TOk (push i s)
  | Some b => do bn <- get (s_g s) b; finish i (option_map TArray (g_ty bn)) s
  end.
(** 533-554 *)
Definition component (i : nat) (s : st) : tres st :=
  do n <- get (s_g s) i;
  match g_children n with
  | [] => TOk (push i s)
  | c :: _ =>
      do cn <- get (s_g s) c;
      if item_ids cn then TOk (push i s)
      else
        let t := option_map (inner_type n) (g_ty cn) in
        match t with
        | Some ty => if goes_with ty TF64 then finish i t s else TErr 700 i
        | None => finish i t s
        end
  end.
(** 555-572 *)
Definition if_ (i : nat) (s : st) : tres st :=
  do n <- get (s_g s) i;
  do b <- find_child (s_g s) n K_TrueBlock;
  match b with
  | None => TOk (push i s)
  | Some b =>
      do bn <- get (s_g s) b;
      match g_ty bn with None => TOk (push i s) | Some t => finish i (Some (inner_type n t)) s end
  end.
(** 581-613: the argument types ([None] when one is missing) and the last typed body; the loop stops at
    an argument without a type. *)
Fixpoint closure_parts (g : graph) (l : list nat) (tys : list ty) (ret : option ty) : tres (option (list ty) * option ty) :=
  match l with
  | [] => TOk (Some (rev tys), ret)
  | c :: l =>
      do n <- get g c;
      if is_kind (g_kind n) K_Arg then
        match g_ty n with None => TOk (None, ret) | Some t => closure_parts g l (t :: tys) ret end
      else closure_parts g l tys (if is_kind (g_kind n) K_Expr then g_ty n else ret)
  end.
Definition closure_ (i : nat) (s : st) : tres st :=
  do n <- get (s_g s) i;
  do p <- closure_parts (s_g s) (g_children n) [] None;
  finish i (match p with (Some tys, Some r) => Some (TClosure tys r) | _ => None end) s.
(** 72-81 *)
Definition go_ (i : nat) (s : st) : tres st :=
  do n <- get (s_g s) i;
  match g_children n with
  | [] => finish i None s
  | c :: _ => do cn <- get (s_g s) c; finish i (option_map TThread (g_ty cn)) s
  end.
(** 82-97 *)
Definition fn_ (i : nat) (s : st) : tres st :=
  do n <- get (s_g s) i;
  match g_ty n with
  | Some _ => TOk s
  | None =>
      do e <- find_child (s_g s) n K_Expr;
      match e with
      | None => finish i None s
      | Some e =>
          do en <- get (s_g s) e;
          match g_ty en with Some TUnreachable => TOk (push i s) | t => finish i t s end
      end
  end.
(** 573-580 *)
Definition arg_ (i : nat) (s : st) : tres st :=
  do n <- get (s_g s) i;
  match g_ty n with None => finish i (Some TAny) s | Some _ => TOk s end.

(** 66-634: one node *)
Definition visit (K : known) (i : nat) (s : st) : tres st :=
  do n <- get (s_g s) i;
  match g_kind n with
  | K_Uses | K_Start | K_End => TOk s
  | K_Go => go_ i s
  | K_Fn => fn_ i s
  | K_CallArg => call_arg K i s
  | K_Call => call K i s
  | K_CallClosure => call_closure i s
  | K_Assign => assign i s
  | K_Item => item i s
  | K_Return | K_Val | K_Expr | K_Cond | K_Left | K_Right | K_ElseIfCond | K_Grab | K_Add | K_Mul | K_Pow => pass_up i s
  | K_Compare => compare i s
  | K_Block | K_TrueBlock | K_ElseIfBlock | K_ElseBlock => block i s
  | K_Sift => sift i s
  | K_X | K_Y | K_Z | K_W | K_N => component i s
  | K_If => if_ i s
  | K_Arg => arg_ i s
  | K_Closure => closure_ i s
  | _ => finish i None s
  end.
(** 65-635: one round over the todo-list *)
Fixpoint round (K : known) (todo : list nat) (s : st) : tres st :=
  match todo with
  | [] => TOk s
  | i :: todo => do s <- visit K i s; round K todo s
  end.
(** 637-650: the old tasks go, the new ones are sorted without repetition. *)
Fixpoint sorted_insert (i : nat) (l : list nat) : list nat :=
  match l with
  | [] => [i]
  | j :: l => if i <? j then i :: j :: l else if i =? j then j :: l else j :: sorted_insert i l
  end.
Definition sort_dedup (l : list nat) : list nat := fold_right sorted_insert [] l.
(** 53-651 *)
Fixpoint propagate (K : known) (n : nat) (todo errs : list nat) (g : graph) : tres (graph * list nat) :=
  match n with
  | O => TOof
  | S n =>
      do s <- round K todo (St g [] errs false);
      if s_changed s then propagate K n (sort_dedup (s_new s)) (s_errs s) (s_g s)
      else TOk (s_g s, s_errs s)
  end.

(** ** After propagation *)

(** 792-852 [check_fn]; the result is [found_return] *)
Fixpoint check_fn (n : nat) (g : graph) (t : ty) (l : list nat) (found : bool) : tres bool :=
  match n with
  | O => TOof
  | S n =>
      match l with
      | [] => TOk found
      | c :: l =>
          do cn <- get g c;
          let below found := do found <- check_fn n g t (g_children cn) found; check_fn n g t l found in
          match g_kind cn with
          | K_Return =>
              match g_ty cn with
              | Some r => if goes_with t r then below true else TErr 1200 c
              | None => below true
              end
          | K_ReturnVoid => if goes_with t TVoid then below true else TErr 1300 c
          | K_Item =>
              if match g_name cn with Some x => (x =? "return")%string | None => false end then
                do a <- match g_parent cn with
                        | None => TOk false
                        | Some p =>
                            do pn <- get g p;
                            if is_kind (g_kind pn) K_Left then
                              match g_parent pn with
                              | None => TOk false
                              | Some q => do qn <- get g q; TOk (is_kind (g_kind qn) K_Assign)
                              end
                            else TOk false
                        end;
                if a then
                  match g_ty cn with
                  | Some r => if goes_with t r then below true else TErr 1250 c
                  | None => below true
                  end
                else below found
              else below found
          | K_Closure => check_fn n g t l found
          | _ => below found
          end
      end
  end.
(** 854-910 [check_if] *)
Fixpoint else_ifs (g : graph) (t : ty) (l : list nat) : tres unit :=
  match l with
  | [] => TOk tt
  | c :: l =>
      do cn <- get g c;
      match g_kind cn, g_ty cn with
      | K_ElseIfCond, Some ct => if goes_with TBool ct then else_ifs g t l else TErr 1500 c
      | K_ElseIfBlock, Some bt => if goes_with bt t then else_ifs g t l else TErr 1600 c
      | _, _ => else_ifs g t l
      end
  end.
Definition check_if (g : graph) (n : gnode) : tres unit :=
  do c <- find_child g n K_Cond;
  do _ <- match c with
          | None => TOk tt
          | Some c =>
              do cn <- get g c;
              match g_ty cn with
              | Some ct => if goes_with TBool ct then TOk tt else TErr 1400 c
              | None => TOk tt
              end
          end;
  match g_ty n with
  | None => TOk tt
  | Some t =>
      do _ <- else_ifs g t (g_children n);
      do e <- find_child g n K_ElseBlock;
      match e with
      | None => TOk tt
      | Some e =>
          do en <- get g e;
          match g_ty en with
          | Some et => if goes_with et t then TOk tt else TErr 1700 e
          | None => TOk tt
          end
      end
  end.
(** 757-770: the children whose results must be used *)
Fixpoint no_results (g : graph) (l : list nat) : tres unit :=
  match l with
  | [] => TOk tt
  | c :: l =>
      do cn <- get g c;
      if is_kind (g_kind cn) K_Return then no_results g l
      else match g_ty cn with
      | None | Some TVoid | Some TUnreachable => no_results g l
      | Some _ => TErr 1100 c
      end
  end.
(** 662-697 *)
Definition after_fn (fuel : nat) (g : graph) (i : nat) (n : gnode) : tres unit :=
  match g_ty n with
  | None => TErr 800 i
  | Some t =>
      do e <- find_child g n K_Expr;
      do _ <- match e with
              | None => TOk tt
              | Some e =>
                  do en <- get g e;
                  match g_ty en with
                  | Some et => if goes_with t et then TOk tt else TErr 750 e
                  | None => TOk tt
                  end
              end;
      do found <- check_fn fuel g t (g_children n) false;
      if negb found && negb (ty_eqb t TVoid) && match e with None => true | Some _ => false end
      then TErr 775 i else TOk tt
  end.
(** 698-713 *)
Definition after_go (g : graph) (i : nat) (n : gnode) : tres unit :=
  match g_children n with
  | [] => TOk tt
  | c :: _ =>
      do cn <- get g c;
      match g_decl cn with
      | None => TOk tt
      | Some d =>
          do dn <- get g d;
          match g_ty dn with None | Some TVoid => TErr 900 i | Some _ => TOk tt end
      end
  end.
(** 715-737 *)
Definition after_assign (g : graph) (i : nat) (n : gnode) : tres unit :=
  match g_op n with
  | Some OpAdd | Some OpSub =>
      do l <- find_child g n K_Left;
      match l with
      | None => TPanic
      | Some l =>
          do r <- find_child g n K_Right;
          match r with
          | None => TPanic
          | Some r =>
              do ln <- get g l;
              do rn <- get g r;
              match g_ty ln, g_ty rn with
              | Some lt, Some rt => if add_assign lt rt then TOk tt else TErr 1000 i
              | _, _ => TOk tt
              end
          end
      end
  | _ => TOk tt
  end.
(** 738-771 *)
Definition after_block (g : graph) (n : gnode) : tres unit :=
  match g_children n with
  | [] => TOk tt
  | _ =>
      match g_parent n with
      | None => no_results g (removelast (g_children n))
      | Some p =>
          do pn <- get g p;
          if is_kind (g_kind pn) K_Fn then
            match g_ty pn with
            | Some TVoid => no_results g (g_children n)
            | None => TOk tt
            | Some _ => no_results g (removelast (g_children n))
            end
          else no_results g (removelast (g_children n))
      end
  end.
(** 772-784 *)
Definition after_swizzle (g : graph) (n : gnode) : tres unit :=
  do e <- find_child g n K_Expr;
  match e with
  | None => TOk tt
  | Some e =>
      do en <- get g e;
      match g_ty en with
      | None => TOk tt
      | Some t => if goes_with (inner_type en t) TVec4 then TOk tt else TErr 1200 e
      end
  end.
Definition after (fuel : nat) (g : graph) (i : nat) : tres unit :=
  do n <- get g i;
  match g_kind n with
  | K_Fn => after_fn fuel g i n
  | K_Go => after_go g i n
  | K_If => check_if g n
  | K_Assign => after_assign g i n
  | K_Block => after_block g n
  | K_Swizzle => after_swizzle g n
  | _ => TOk tt
  end.
Fixpoint after_all (fuel : nat) (g : graph) (l : list nat) : tres unit :=
  match l with
  | [] => TOk tt
  | i :: l => do _ <- after fuel g i; after_all fuel g l
  end.

(** 46-789 [run]. [rounds] bounds the rounds, [fuel] the search for returns. *)
Definition typecheck (K : known) (rounds fuel : nat) (g : graph) : tres graph :=
  do r <- propagate K rounds (seq 0 (length g)) [] g;
  match snd r with
  | e :: _ => TErr 100 e
  | [] => do _ <- after_all fuel (fst r) (seq 0 (length g)); TOk (fst r)
  end.
