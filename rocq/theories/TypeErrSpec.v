(** * Independent specification of the errors of the type checker.

    How types may be found at all, one node after the other ([gives], with the rules of
    [TypecheckSpec.v]), and for each error what is wrong in the file. Nothing here refers to the
    algorithm of [TypecheckModel.v]; the syntax of graphs, [put] (a node gets a type), the
    compatibility of types ([goes_with], [add_assign]) and the choice of a signature ([refine]) are
    shared. *)
From Coq Require Import String List Bool Arith.
From Verif Require Import Syntax TypeModel LifetimeModel TypecheckModel TypecheckSpec.
Import ListNotations.
Local Open Scope string_scope.
Local Open Scope nat_scope.
Local Open Scope list_scope.

(** [p] is the nearest function or closure around [i] *)
Inductive around (g : graph) : nat -> nat -> Prop :=
| Ar_here i n p pn : is_node g i n -> g_parent n = Some p -> is_node g p pn -> g_kind pn = K_Fn \/ g_kind pn = K_Closure ->
    around g i p
| Ar_above i n q qn p : is_node g i n -> g_parent n = Some q -> is_node g q qn -> g_kind qn <> K_Fn -> g_kind qn <> K_Closure ->
    around g q p -> around g i p.
(** the only child of [n] is [c], with type [t] *)
Definition from_child (g : graph) (n : gnode) (c : nat) (cn : gnode) (t : ty) : Prop :=
  hd_error (g_children n) = Some c /\ is_node g c cn /\ ~ keyed cn /\ g_ty cn = Some t.
(** [n] is a variable that [d] declares *)
Definition use_of (g : graph) (n : gnode) (d : nat) (dn : gnode) : Prop :=
  g_kind n = K_Item /\ g_children n = [] /\ g_decl n = Some d /\ is_node g d dn.
(** the sides of an assignment; the type of the right side goes with a type that the left side has already *)
Definition assigns (g : graph) (n : gnode) (l : nat) (t : ty) : Prop :=
  exists r rn, first_of g n K_Left l /\ first_of g n K_Right r /\ is_node g r rn /\ ~ keyed rn /\ g_ty rn = Some t /\
    match ty_at g l with Some u => goes_with t u = true | None => True end.

(** ** Finding types *)
Inductive gives (K : known) (g : graph) : nat -> ty -> Prop :=
| G_rule i t : derives K g i t -> gives K g i t
| G_fallback i n l t : is_node g i n -> g_kind n = K_Call -> g_ty n = None -> choices K g n l -> plain_result K g n t -> gives K g i t
| G_closure_call i n it itn d t r : is_node g i n -> g_kind n = K_CallClosure -> first_of g n K_Item it -> is_node g it itn ->
    ~ keyed itn -> g_decl itn = Some d -> ty_at g d = Some t -> closure_ret_ty t = Some r -> gives K g i r
| G_left_pass i n c cn t : is_node g i n -> g_kind n = K_Left -> from_child g n c cn t -> g_kind cn <> K_Return -> gives K g i (behind n t)
| G_left_return i n c cn t : is_node g i n -> g_kind n = K_Left -> from_child g n c cn t -> g_kind cn = K_Return -> gives K g i TUnreachable
| G_assignment i n l t : is_node g i n -> g_kind n = K_Assign -> assigns g n l t -> gives K g i TVoid
| G_assigned i n l t : is_node g i n -> g_kind n = K_Assign -> assigns g n l t -> gives K g l t
| G_use i n d dn t p : is_node g i n -> use_of g n d dn -> ~ counting (g_kind dn) -> g_kind dn <> K_Arg -> g_ty dn = Some t ->
    g_parent n = Some p -> kind_at g p K_Left -> gives K g p (behind n t)
| G_result i n c cn t p : is_node g i n -> from_child g n c cn t -> g_kind cn = K_Return -> around g i p -> ty_at g p = None -> gives K g p t
| G_compare i n l ln t : is_node g i n -> g_kind n = K_Compare -> first_of g n K_Left l -> is_node g l ln -> ~ keyed ln -> g_ty ln = Some t ->
    gives K g i (match t with TAny => TAny | TSecret _ => TSecret TBool | _ => TBool end)
| G_fn i n e t : is_node g i n -> g_kind n = K_Fn -> g_ty n = None -> first_of g n K_Expr e -> ty_at g e = Some t -> t <> TUnreachable ->
    gives K g i t
| G_param i n : is_node g i n -> g_kind n = K_Arg -> g_ty n = None -> gives K g i TAny
| G_closure i n ts pre e post r : is_node g i n -> g_kind n = K_Closure ->
    Forall2 (fun c t => ty_at g c = Some t)
            (filter (fun c => match nth_error g c with Some m => is_kind (g_kind m) K_Arg | None => false end) (g_children n)) ts ->
    g_children n = pre ++ e :: post -> kind_at g e K_Expr -> (forall d, In d post -> ~ kind_at g d K_Expr) -> ty_at g e = Some r ->
    gives K g i (TClosure ts r).
(** some nodes get types that the graph gives *)
Definition step (K : known) (g h : graph) : Prop :=
  exists ws, (forall i t, In (i, t) ws -> gives K g i t) /\ h = fold_left (fun g w => put g (fst w) (Some (snd w))) ws g.
Inductive inferred (K : known) (g : graph) : graph -> Prop :=
| I_start : inferred K g g
| I_step h h' : inferred K g h -> step K h h' -> inferred K g h'.

(** ** What is wrong *)

(** found while types are still being found *)
Inductive clash (K : known) (g : graph) : nat -> nat -> Prop :=
| X_choice i n l ts : is_node g i n -> g_kind n = K_Call -> choices K g n l -> args_are g n ts -> refine l ts = RMismatch -> clash K g 230 i
| X_variable i n l ts : is_node g i n -> g_kind n = K_Call -> choices K g n l -> args_are g n ts -> refine l ts = RVarError -> clash K g 1500 i
| X_closure i n it itn d t : is_node g i n -> g_kind n = K_CallClosure -> first_of g n K_Item it -> is_node g it itn ->
    ~ keyed itn -> g_decl itn = Some d -> ty_at g d = Some t -> closure_ret_ty t = None -> clash K g 250 it
| X_index i n d dn : is_node g i n -> use_of g n d dn -> counting (g_kind dn) -> g_try n = true -> clash K g 300 i
| X_grab i n c cn : is_node g i n -> g_kind n = K_Grab -> from_child g n c cn TVoid -> clash K g 325 i
| X_return i n c cn t p u : is_node g i n -> from_child g n c cn t -> g_kind cn = K_Return -> around g i p -> ty_at g p = Some u ->
    goes_with u t = false -> clash K g 350 c
| X_number i n c cn t : is_node g i n -> number_place (g_kind n) -> from_child g n c cn t -> goes_with (behind n t) TF64 = false -> clash K g 700 i.

(** parameter [j] of the function that the call [n] goes to has type [p] *)
Definition param_is (K : known) (g : graph) (n : gnode) (j : nat) (p : ty) : Prop :=
  (exists d f a, g_decl n = Some d /\ is_node g d f /\ nth_error (g_children f) j = Some a /\ ty_at g a = Some p) \/
  (exists f, target K n f /\ nth_error (d_tys f) j = Some p).
(** argument [i] of a call does not go with a parameter that it supplies *)
Definition misfit (K : known) (g : graph) (i : nat) : Prop :=
  exists n q qn x t j p, is_node g i n /\ g_kind n = K_CallArg /\ g_parent n = Some q /\ is_node g q qn /\ g_kind qn = K_Call /\
    g_children n = [x] /\ ty_at g x = Some t /\ supplies g qn i j /\ param_is K g qn j p /\ goes_with p (behind n t) = false.

(** found when no more types can be found *)
Inductive at_odds (g : graph) : nat -> nat -> Prop :=
| O_body i n t e u : is_node g i n -> g_kind n = K_Fn -> g_ty n = Some t -> first_of g n K_Expr e -> ty_at g e = Some u ->
    goes_with t u = false -> at_odds g 750 e
| O_no_result i n t : is_node g i n -> g_kind n = K_Fn -> g_ty n = Some t -> t <> TVoid ->
    (forall c, In c (g_children n) -> ~ kind_at g c K_Expr) -> (forall c, within g i c -> ~ return_statement g c) -> at_odds g 775 i
| O_untyped i n : is_node g i n -> g_kind n = K_Fn -> g_ty n = None -> at_odds g 800 i
| O_return i n t c r : is_node g i n -> g_kind n = K_Fn -> g_ty n = Some t -> within g i c -> kind_at g c K_Return -> returns g c r ->
    goes_with t r = false -> at_odds g 1200 c
| O_assigned_return i n t c r : is_node g i n -> g_kind n = K_Fn -> g_ty n = Some t -> within g i c -> assigned_return g c -> returns g c r ->
    goes_with t r = false -> at_odds g 1250 c
| O_return_nothing i n t c : is_node g i n -> g_kind n = K_Fn -> g_ty n = Some t -> within g i c -> kind_at g c K_ReturnVoid ->
    goes_with t TVoid = false -> at_odds g 1300 c
| O_go i n c cn d : is_node g i n -> g_kind n = K_Go -> hd_error (g_children n) = Some c -> is_node g c cn -> g_decl cn = Some d ->
    ty_at g d = None \/ ty_at g d = Some TVoid -> at_odds g 900 i
| O_add i n l r t u : is_node g i n -> g_kind n = K_Assign -> g_op n = Some OpAdd \/ g_op n = Some OpSub ->
    first_of g n K_Left l -> first_of g n K_Right r -> ty_at g l = Some t -> ty_at g r = Some u -> add_assign t u = false -> at_odds g 1000 i
| O_result i n c t : is_node g i n -> g_kind n = K_Block -> In c (statements g n) -> ~ kind_at g c K_Return -> ty_at g c = Some t ->
    t <> TVoid -> t <> TUnreachable -> at_odds g 1100 c
| O_swizzle i n e en t : is_node g i n -> g_kind n = K_Swizzle -> first_of g n K_Expr e -> is_node g e en -> g_ty en = Some t ->
    goes_with (behind en t) TVec4 = false -> at_odds g 1200 e
| O_condition i n c t : is_node g i n -> g_kind n = K_If -> first_of g n K_Cond c -> ty_at g c = Some t -> goes_with TBool t = false ->
    at_odds g 1400 c
| O_else_if_condition i n c t : is_node g i n -> g_kind n = K_If -> In c (g_children n) -> kind_at g c K_ElseIfCond -> ty_at g c = Some t ->
    goes_with TBool t = false -> at_odds g 1500 c
| O_else_if i n c t u : is_node g i n -> g_kind n = K_If -> g_ty n = Some t -> In c (g_children n) -> kind_at g c K_ElseIfBlock ->
    ty_at g c = Some u -> goes_with u t = false -> at_odds g 1600 c
| O_else i n c t u : is_node g i n -> g_kind n = K_If -> g_ty n = Some t -> first_of g n K_ElseBlock c -> ty_at g c = Some u ->
    goes_with u t = false -> at_odds g 1700 c.

(** no rule gives another type, and what has a rule has its type by that rule *)
Definition settled (K : known) (g h : graph) : Prop :=
  (forall i t, derives K h i t -> ty_at h i = Some t) /\
  (forall i n t, is_node h i n -> ruled n -> ty_at g i = None -> ~ choosing K h i -> ty_at h i = Some t -> derives K h i t).
(** arguments are arguments of calls *)
Definition args_in_calls (g : graph) : Prop :=
  forall i n p, is_node g i n -> g_kind n = K_CallArg -> g_parent n = Some p -> kind_at g p K_Call \/ kind_at g p K_CallClosure.
