(** * Independent specification of the lifetime and mutability checks of a linked file.

    Which variables the value of an expression may refer to, how long they live, which places values are put into, and what
    is wrong with a file. The order of lifetimes ([outlives], [partial_cmp]) is that of C29; what a good signature is, is said
    in LifetimeSpec.v. *)
From Coq Require Import String List Bool Arith ZArith.
From Verif Require Import Syntax Float64 TypeModel LifetimeModel LifetimeSpec PrintModel NodesModel NodesSpec LivesModel.
Import ListNotations.
Local Open Scope string_scope.
Local Open Scope nat_scope.
Local Open Scope list_scope.

(** ** How long a variable lives *)

(** a reference is to a variable, or it is the variable [return] *)
Inductive origin := OVar (d : nat) | OReturn.
(** [a] is the argument [x] of the function [p] *)
Definition arg_named (g : fgraph) (p : nat) (x : string) (a : nat) : Prop :=
  exists n, nth_error g p = Some n /\ f_kind n = K_Fn /\ In a (parts g K_Arg n) /\ has_name g a x.
(** the arguments that the lifetime of the argument [a] leads to, and whether it leads to ['return] *)
Inductive leads (g : fgraph) : nat -> bool -> list nat -> Prop :=
| Le_end a n : nth_error g a = Some n -> x_lifetime (f_data n) = None -> leads g a false [a]
| Le_return a n : nth_error g a = Some n -> x_lifetime (f_data n) = Some "return" -> leads g a true [a]
| Le_step a n x p a' b l : nth_error g a = Some n -> x_lifetime (f_data n) = Some x -> x <> "return" -> f_parent n = Some p ->
    arg_named g p x a' -> leads g a' b l -> leads g a b (a :: l).
Inductive span (g : fgraph) : origin -> lifetime -> Prop :=
| Sp_arg d n b l : nth_error g d = Some n -> f_kind n = K_Arg -> leads g d b l -> span g (OVar d) (if b then Return l else Argument l)
| Sp_current d n : nth_error g d = Some n -> f_kind n = K_Current -> span g (OVar d) (Current d)
| Sp_local d n : nth_error g d = Some n -> f_kind n <> K_Arg -> f_kind n <> K_Current -> span g (OVar d) (Local d)
| Sp_return : span g OReturn (Return []).

(** ** What a value may refer to *)

(** kinds of expressions whose values have no references *)
Definition no_references (n : fnode) : Prop :=
  In (f_kind n) [K_Pow; K_Sum; K_SumIn; K_Prod; K_ProdIn; K_SumVec4; K_Min; K_MinIn; K_Max; K_MaxIn; K_Any; K_AnyIn; K_All; K_AllIn;
                 K_Vec4; K_Mat4; K_Vec4UnLoop; K_Swizzle; K_Assign; K_For; K_ForN; K_ForIn; K_Link; K_LinkFor; K_LinkIn; K_Closure;
                 K_CallClosure; K_Grab; K_TryExpr; K_Norm; K_In] \/
  (In (f_kind n) [K_Add; K_Mul; K_Compare] /\ length (f_children n) <> 1).
(** parts that decide what is done but are not in the value *)
Definition aside (k : kind) : Prop :=
  In k [K_Iter; K_Start; K_End; K_Arg; K_Current; K_Compare; K_Cond; K_ElseIfCond; K_N].
(** the constraint leads to the result *)
Inductive lt_leads (l : list lt) : lt -> Prop :=
| Ll_return : lt_leads l LtReturn
| Ll_arg x y : nth_error l x = Some y -> lt_leads l y -> lt_leads l (LtArg x).
(** the references of the part [c] may be in the value of the expression [n] *)
Inductive keeps (g : fgraph) (n : fnode) (c : nat) : Prop :=
| Ke_part cn : In c (f_children n) -> nth_error g c = Some cn -> f_kind cn <> K_CallArg -> ~ aside (f_kind cn) -> keeps g n c
| Ke_outside : In c (parts g K_CallArg n) -> f_decl n = None -> keeps g n c
| Ke_function k f fn : nth_error (parts g K_CallArg n) k = Some c -> f_decl n = Some f -> nth_error g f = Some fn ->
    (forall a, nth_error (parts g K_Arg fn) k = Some a -> exists l, leads g a true l) -> keeps g n c.
(** a function from outside without a constraint on its result *)
Definition copies (n : fnode) : Prop :=
  f_kind n = K_Call /\ f_decl n = None /\ f_lts n <> [] /\ forall l, In l (f_lts n) -> ~ lt_leads (f_lts n) l.
Inductive refers_to (g : fgraph) : nat -> origin -> Prop :=
| Rf_item i n d : nth_error g i = Some n -> f_kind n = K_Item -> f_decl n = Some d -> refers_to g i (OVar d)
| Rf_return i n : nth_error g i = Some n -> f_kind n = K_Item -> f_decl n = None -> f_name n = Some "return" -> refers_to g i OReturn
| Rf_part i n c o : nth_error g i = Some n -> f_kind n <> K_Item -> ~ no_references n -> ~ copies n ->
    keeps g n c -> refers_to g c o -> refers_to g i o.
(** the lifetimes of what the value of [i] may refer to *)
Definition spans (g : fgraph) (i : nat) (l : lifetime) : Prop := exists o, refers_to g i o /\ span g o l.

(** ** When a value may be put into a place *)
Definition comparable (S : lifetime -> Prop) : Prop := forall a b, S a -> S b -> partial_cmp a b <> None.
Definition is_local (l : lifetime) : Prop := exists i, l = Local i.
(** [L]: lifetimes of the place, [R]: lifetimes of what the value may refer to. One of them (the checker takes the longest) must
    outlive the place; they must be comparable unless the place is a local variable. *)
Definition long_enough (L R : lifetime -> Prop) : Prop :=
  comparable L /\ (comparable R \/ ((exists l, L l) /\ forall l, L l -> is_local l)) /\
  ((forall l, ~ L l) \/ (forall r, ~ R r) \/ exists r, R r /\ forall l, L l -> outlives r l).

(** ** Places *)

(** [i] is on the left and [r] on the right of the assignment [n] *)
Definition assigns (g : fgraph) (n : fnode) (o : assign_op) (i r : nat) : Prop :=
  x_op (f_data n) = Some o /\ exists l ln, nth_error (f_children n) 0 = Some l /\ nth_error g l = Some ln /\
    nth_error (f_children ln) 0 = Some i /\ nth_error (f_children n) 1 = Some r.
(** [a.b], [a[i]] *)
Definition within (n : fnode) : Prop := f_kind n = K_Item /\ f_children n <> [].
(** the statement [i] is the last one of the block [p] *)
Definition ends_block (g : fgraph) (p i : nat) : Prop :=
  exists pn l, nth_error g p = Some pn /\ In (f_kind pn) [K_Block; K_ElseIfBlock; K_TrueBlock; K_ElseBlock] /\ f_children pn = l ++ [i].
(** [ch] is given for the argument [k] of the function that the call [n] is linked to *)
Definition given (n : fnode) (k ch : nat) : Prop := nth_error (f_children n) k = Some ch.
(** the argument [k] of the function that is called must outlive the argument [k'] *)
Inductive must_outlive (g : fgraph) (n : fnode) : nat -> nat -> Prop :=
| Mo_function f fn k a an x k' a' : f_decl n = Some f -> nth_error g f = Some fn -> nth_error (parts g K_Arg fn) k = Some a ->
    nth_error g a = Some an -> x_lifetime (f_data an) = Some x -> x <> "return" ->
    nth_error (parts g K_Arg fn) k' = Some a' -> has_name g a' x -> must_outlive g n k k'
| Mo_outside k k' : f_decl n = None -> nth_error (f_lts n) k = Some (LtArg k') -> must_outlive g n k k'.
(** the value [r] is put into a place with the lifetimes [L] *)
Inductive place (g : fgraph) : nat -> (lifetime -> Prop) -> Prop :=
| Pl_set a n i r : nth_error g a = Some n -> assigns g n OpSet i r -> place g r (spans g i)
| Pl_let a n i it r : nth_error g a = Some n -> assigns g n OpAssign i r -> nth_error g i = Some it -> ~ within it -> place g r (eq (Local i))
| Pl_put a n i it j r : nth_error g a = Some n -> assigns g n OpAssign i r -> nth_error g i = Some it -> within it -> f_decl it = Some j ->
    place g r (eq (Local j))
| Pl_return i n r : nth_error g i = Some n -> f_kind n = K_Return -> nth_error (f_children n) 0 = Some r -> place g r (eq (Return []))
| Pl_math i n : nth_error g i = Some n -> f_kind n = K_Expr ->
    (forall p pn, f_parent n = Some p -> nth_error g p = Some pn -> f_kind pn = K_Fn \/ f_kind pn = K_Closure) -> place g i (eq (Return []))
| Pl_end p i n : nth_error g i = Some n -> ends_block g p i ->
    (forall c cn, f_kind n = K_Expr -> f_children n = [c] -> nth_error g c = Some cn -> ~ no_references cn) -> place g i (eq (Local p))
| Pl_arg c n a : nth_error g c = Some n -> f_kind n = K_Call -> In a (parts g K_CallArg n) -> place g a (eq (Local c))
| Pl_outlives c n k k' ch ch' : nth_error g c = Some n -> f_kind n = K_Call -> must_outlive g n k k' -> given n k ch -> given n k' ch' ->
    place g ch (spans g ch').

(** ** Other rules *)

(** the argument [k] of the function that is called has a lifetime *)
Inductive constrained (g : fgraph) (n : fnode) : nat -> Prop :=
| Co_function f fn k a an : f_decl n = Some f -> nth_error g f = Some fn -> nth_error (parts g K_Arg fn) k = Some a ->
    nth_error g a = Some an -> x_lifetime (f_data an) <> None -> constrained g n k
| Co_outside k l : f_decl n = None -> nth_error (f_lts n) k = Some l -> l <> LtDefault -> constrained g n k.
(** the first thing in the expression is a variable *)
Inductive starts_with_item (g : fgraph) : nat -> Prop :=
| Si_item i n : nth_error g i = Some n -> f_kind n = K_Item -> starts_with_item g i
| Si_part i n c l : nth_error g i = Some n -> f_kind n <> K_Call -> f_kind n <> K_Item -> f_children n = c :: l -> starts_with_item g c -> starts_with_item g i.
(** the item [i] is an argument or a current object without [mut] *)
Definition immutable (g : fgraph) (i : nat) : Prop :=
  exists n d dn, nth_error g i = Some n /\ f_decl n = Some d /\ nth_error g d = Some dn /\ (f_kind dn = K_Arg \/ f_kind dn = K_Current) /\
    x_mut (f_data dn) = false.
(** the item [i] is changed: it is on the left of an assignment other than [:=], or given to a function as [mut i] *)
Inductive changed (g : fgraph) (i : nat) : Prop :=
| Ch_assign a n o l ln : nth_error g a = Some n -> x_op (f_data n) = Some o -> o <> OpAssign -> nth_error (f_children n) 0 = Some l ->
    nth_error g l = Some ln -> nth_error (f_children ln) 0 = Some i -> changed g i
| Ch_given c n a an m : nth_error g c = Some n -> f_kind n = K_Call -> In a (parts g K_CallArg n) -> nth_error g a = Some an ->
    x_mut (f_data an) = true -> nth_error (f_children an) 0 = Some i -> nth_error g i = Some m -> f_kind m = K_Item -> changed g i.

(** ** What is wrong with a file *)
Definition bad_signature (g : fgraph) : Prop :=
  exists f fn args s, nth_error g f = Some fn /\ f_kind fn = K_Fn /\ fn_sig (as_nodes g) f args s /\
    ~ (good_lifetimes s /\ forall i, (forall k x, k <= i -> nth_error s k <> Some (x, Some "return")) -> ~ reaches_cycle s i).
Inductive unsafe (g : fgraph) : xerr -> nat -> Prop :=
| Us_signature e : bad_signature g -> unsafe g (X_signature e) (aerr_at e)
| Us_value e r L : place g r L -> ~ long_enough L (spans g r) -> unsafe g (X_lifetime e) r
| Us_void f fn a an : nth_error g f = Some fn -> f_kind fn = K_Fn -> x_ty (f_data fn) = Some TVoid -> In a (parts g K_Arg fn) ->
    nth_error g a = Some an -> x_lifetime (f_data an) = Some "return" -> unsafe g X_void a
| Us_go c n p pn k ch : nth_error g c = Some n -> f_kind n = K_Call -> f_parent n = Some p -> nth_error g p = Some pn -> f_kind pn = K_Go ->
    constrained g n k -> given n k ch -> unsafe g X_go ch
| Us_reference c n k ch : nth_error g c = Some n -> f_kind n = K_Call -> constrained g n k -> given n k ch -> ~ starts_with_item g ch ->
    unsafe g X_reference ch
| Us_mut i : changed g i -> immutable g i -> unsafe g X_mut i.

(** a value that is put somewhere reads [return], or a closure has parameters *)
Definition untold (g : fgraph) : Prop :=
  (exists r L, place g r L /\ refers_to g r OReturn) \/
  (exists a n p pn, nth_error g a = Some n /\ f_kind n = K_Arg /\ f_parent n = Some p /\ nth_error g p = Some pn /\ f_kind pn <> K_Fn).
(** the lifetime of every argument leads to an end (no hidden cycle), and so do the constraints of functions from outside *)
Inductive lt_ends (l : list lt) : lt -> Prop :=
| Ee_return : lt_ends l LtReturn
| Ee_default : lt_ends l LtDefault
| Ee_arg x y : nth_error l x = Some y -> lt_ends l y -> lt_ends l (LtArg x).
Definition all_end (g : fgraph) : Prop :=
  (forall a n, nth_error g a = Some n -> f_kind n = K_Arg -> exists b l, leads g a b l) /\
  (forall c n l, nth_error g c = Some n -> f_kind n = K_Call -> f_decl n = None -> In l (f_lts n) -> lt_ends (f_lts n) l).

(** ** What the grammar and the linking passes give *)
Definition odd (k : kind) : Prop :=
  In k [K_Ns; K_Uses; K_Use; K_Fn; K_ItemExtra; K_Init; K_Step; K_Id; K_Not; K_Neg; K_X; K_Y; K_Z; K_W; K_EX; K_EY; K_EZ; K_EW; K_Type;
        K_Arr; K_Opt; K_Res; K_RetType; K_Sw0; K_Sw1; K_Sw2; K_Sw3; K_ClosureType; K_ClArg; K_ClRet; K_Ty; K_TyArg; K_TyRet].
Record lives_fit (g : fgraph) : Prop := {
  lf_tree : tree_ok g;
  lf_order : in_order g;
  lf_item : forall i n, nth_error g i = Some n -> f_kind n = K_Item ->
    match f_decl n with Some d => exists dn, nth_error g d = Some dn /\ f_name dn <> None | None => f_children n = [] \/ f_name n = Some "return" end;
  lf_decl : forall i n d, nth_error g i = Some n -> f_decl n = Some d -> f_kind n = K_Item \/ f_kind n = K_Call;
  lf_named : forall i n, nth_error g i = Some n -> In (f_kind n) [K_Fn; K_Arg; K_Item] -> f_name n <> None;
  lf_fn : forall i n, nth_error g i = Some n -> f_kind n = K_Fn -> exists r, f_children n = parts g K_Arg n ++ r;
  lf_distinct : arguments_differ g;
  lf_arg : forall a n p pn, nth_error g a = Some n -> x_lifetime (f_data n) <> None -> f_parent n = Some p -> nth_error g p = Some pn ->
    f_kind n = K_Arg -> f_kind pn = K_Fn;
  lf_arg_parent : forall a n, nth_error g a = Some n -> f_kind n = K_Arg -> f_parent n <> None;
  lf_assign : forall i n o, nth_error g i = Some n -> x_op (f_data n) = Some o -> f_kind n = K_Assign /\ exists i' r, assigns g n o i' r;
  lf_left : forall i n l ln, nth_error g i = Some n -> f_kind n = K_Assign -> nth_error (f_children n) 0 = Some l -> nth_error g l = Some ln -> f_kind ln = K_Left;
  lf_return : forall i n, nth_error g i = Some n -> f_kind n = K_Return -> f_children n <> [];
  lf_call : forall c n, nth_error g c = Some n -> f_kind n = K_Call -> parts g K_CallArg n = f_children n;
  lf_callarg : forall i n c, nth_error g i = Some n -> In c (parts g K_CallArg n) -> f_kind n = K_Call \/ f_kind n = K_CallClosure;
  lf_kinds : forall i n c cn, nth_error g i = Some n -> In c (f_children n) -> nth_error g c = Some cn -> odd (f_kind cn) ->
    In (f_kind n) [K_Fn; K_Item; K_Ty; K_Ns; K_Uses; K_Use; K_For; K_Vec4; K_Mat4; K_Swizzle; K_ItemExtra];
  lf_target : forall c n f, nth_error g c = Some n -> f_kind n = K_Call -> f_decl n = Some f ->
    exists fn, nth_error g f = Some fn /\ f_kind fn = K_Fn /\ length (parts g K_Arg fn) = values g n;
  lf_outside : forall c n, nth_error g c = Some n -> f_kind n = K_Call -> f_decl n = None -> length (f_lts n) = values g n /\
    forall k k', nth_error (f_lts n) k = Some (LtArg k') -> k' < length (f_lts n);
  lf_single : forall c n k, nth_error g c = Some n -> f_kind n = K_Call -> constrained g n k -> forall a, In a (f_children n) -> width g a = 1 }.

(** ** The same for the trees of a file *)
Definition odd_kinds : list kind :=
  [K_Ns; K_Uses; K_Use; K_Fn; K_ItemExtra; K_Init; K_Step; K_Id; K_Not; K_Neg; K_X; K_Y; K_Z; K_W; K_EX; K_EY; K_EZ; K_EW; K_Type;
   K_Arr; K_Opt; K_Res; K_RetType; K_Sw0; K_Sw1; K_Sw2; K_Sw3; K_ClosureType; K_ClArg; K_ClRet; K_Ty; K_TyArg; K_TyRet].
Definition one_of (l : list kind) (t : ntree) : bool := existsb (is_kind (t_kind t)) l.
(** only arguments of functions have lifetimes, something is on both sides of an assignment and there is something after
    [return]; calls have no alias, and no swizzles are given to functions *)
Definition lively (t : ntree) : bool :=
  let d := t_data t in
  let ts := t_children t in
  (of_ K_Fn t || forallb (fun c => negb (of_ K_Arg c) || match x_lifetime (t_data c) with None => true | Some _ => false end) ts) &&
  (match x_op d with None => true | Some _ => of_ K_Assign t && match ts with NT _ (_ :: _) :: _ :: _ => true | _ => false end end) &&
  (match t_kind t with
   | K_Assign => match ts with l :: _ => of_ K_Left l | [] => true end
   | K_Return => match ts with [] => false | _ => true end
   | K_Call => match x_alias d with None => true | Some _ => false end &&
               forallb (fun c => of_ K_CallArg c && forallb (fun s => negb (of_ K_Swizzle s)) (t_children c)) ts
   | _ => true
   end) &&
  (of_ K_Call t || of_ K_CallClosure t || forallb (fun c => negb (of_ K_CallArg c)) ts) &&
  (one_of [K_Fn; K_Item; K_Ty; K_Ns; K_Uses; K_Use; K_For; K_Vec4; K_Mat4; K_Swizzle; K_ItemExtra] t || forallb (fun c => negb (one_of odd_kinds c)) ts).
Definition lively_file (ts : list ntree) : Prop :=
  forall t, In t ts -> every lively (without_operators t) = true /\ of_ K_Arg (without_operators t) = false.
(** constraints of functions from outside are between their arguments *)
Definition good_outside (K : outside) : Prop :=
  forall x l k k', o_fun K x = Some l -> nth_error l k = Some (LtArg k') -> k' < length l.
