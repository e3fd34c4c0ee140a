(** * Independent specification for the type checker.

    The typing rules of the language as a relation between the types of neighbouring nodes. Nothing
    here refers to the algorithm of [TypecheckModel.v]; the syntax of graphs, the compatibility of
    types ([goes_with], C26) and the choice of a signature ([refine], C28) are shared. *)
From Coq Require Import String List Bool Arith.
From Verif Require Import Syntax TypeModel LifetimeModel TypecheckModel.
Import ListNotations.
Local Open Scope string_scope.
Local Open Scope nat_scope.
Local Open Scope list_scope.

Definition is_node (g : graph) (i : nat) (n : gnode) : Prop := nth_error g i = Some n.
Definition ty_at (g : graph) (i : nat) : option ty := match nth_error g i with Some n => g_ty n | None => None end.
Definition kind_at (g : graph) (i : nat) (k : kind) : Prop := exists n, is_node g i n /\ g_kind n = k.

(** the first child of kind [k] *)
Definition first_of (g : graph) (n : gnode) (k : kind) (c : nat) : Prop :=
  exists pre post, g_children n = pre ++ c :: post /\ kind_at g c k /\ forall d, In d pre -> ~ kind_at g d k.

(** a variable with keys ([x.y], [x[i]]): its type is not known *)
Definition keyed (n : gnode) : Prop := g_kind n = K_Item /\ g_children n <> [].

(** the type behind [?] *)
Definition behind (n : gnode) (t : ty) : ty :=
  match g_try n, t with true, TOption u | true, TResult u => u | _, _ => t end.

(** nodes that have the type of their only child *)
Definition passing (k : kind) : Prop :=
  In k [K_Return; K_Val; K_Expr; K_Cond; K_Right; K_ElseIfCond; K_Grab; K_Add; K_Mul; K_Pow].
Definition blocky (k : kind) : Prop := In k [K_Block; K_TrueBlock; K_ElseIfBlock; K_ElseBlock].
Definition number_place (k : kind) : Prop := In k [K_X; K_Y; K_Z; K_W; K_N].
(** loops over numbers *)
Definition counting (k : kind) : Prop :=
  In k [K_Sum; K_Min; K_Max; K_Any; K_All; K_Sift; K_Vec4UnLoop; K_ForN; K_LinkFor].

(** ** Calls *)

(** the function outside of the file that a call goes to *)
Definition target (K : known) (n : gnode) (f : dfn) : Prop :=
  g_decl n = None /\ exists x, g_name n = Some x /\
  match g_alias n with Some a => k_alias K a x = Some f | None => k_fun K x = Some f end.

(** the types of the arguments: those of the expressions in the call arguments *)
Definition args_are (g : graph) (n : gnode) (ts : list (option ty)) : Prop :=
  Forall2 (fun c t => exists cn x, is_node g c cn /\ g_kind cn = K_CallArg /\ g_children cn = [x] /\ t = ty_at g x)
          (g_children n) ts.
(** the extra signatures of a function of the file *)
Inductive sig_node (g : graph) (n : gnode) : sig -> Prop :=
| Sig_node args r rt :
    Forall2 (fun c t => kind_at g c K_TyArg /\ ty_at g c = Some t)
            (filter (fun c => match nth_error g c with Some m => is_kind (g_kind m) K_TyArg | None => false end) (g_children n)) args ->
    first_of g n K_TyRet r -> ty_at g r = Some rt ->
    sig_node g n (mkSig (g_names n) args rt).
Definition sigs_are (g : graph) (f : gnode) (l : list sig) : Prop :=
  Forall2 (fun c s => exists m, is_node g c m /\ sig_node g m s)
          (filter (fun c => match nth_error g c with Some m => is_kind (g_kind m) K_Ty | None => false end) (g_children f)) l.
(** the signatures a call has to choose from *)
Definition choices (K : known) (g : graph) (n : gnode) (l : list sig) : Prop :=
  (exists d f, g_decl n = Some d /\ is_node g d f /\ sigs_are g f l) \/ (exists f, target K n f /\ l = d_ext f).
(** the type of the result without extra signatures *)
Definition plain_result (K : known) (g : graph) (n : gnode) (t : ty) : Prop :=
  (exists d, g_decl n = Some d /\ ty_at g d = Some t) \/ (exists f, target K n f /\ t = d_ret f).

(** how many parameters a call argument supplies: a swizzle supplies one for each component *)
Definition spread (g : graph) (c w : nat) : Prop :=
  exists cn x, is_node g c cn /\ g_children cn = [x] /\
    ((exists xn, is_node g x xn /\ g_kind xn = K_Swizzle /\
       w = length (filter (fun d => match nth_error g d with
                                    | Some m => match g_kind m with K_Sw0 | K_Sw1 | K_Sw2 | K_Sw3 => true | _ => false end
                                    | None => false end) (g_children xn))) \/
     (~ kind_at g x K_Swizzle /\ w = 1)).
(** argument [c] of the call supplies parameter [j] *)
Definition supplies (g : graph) (n : gnode) (c j : nat) : Prop :=
  exists pre post ws w, g_children n = pre ++ c :: post /\ Forall2 (spread g) pre ws /\ spread g c w /\
    list_sum ws <= j < list_sum ws + w.

(** ** The rules *)
Inductive derives (K : known) (g : graph) : nat -> ty -> Prop :=
| D_pass i n c cn t : is_node g i n -> passing (g_kind n) -> hd_error (g_children n) = Some c ->
    is_node g c cn -> ~ keyed cn -> g_ty cn = Some t -> g_kind cn <> K_Return -> derives K g i (behind n t)
| D_return i n c cn t : is_node g i n -> passing (g_kind n) -> hd_error (g_children n) = Some c ->
    is_node g c cn -> g_ty cn = Some t -> g_kind cn = K_Return -> derives K g i TUnreachable
| D_empty i n : is_node g i n -> blocky (g_kind n) -> g_children n = [] -> derives K g i TVoid
| D_block i n l c cn t : is_node g i n -> blocky (g_kind n) -> g_children n = l ++ [c] ->
    is_node g c cn -> ~ keyed cn -> g_ty cn = Some t -> derives K g i (behind n t)
| D_sift i n c t : is_node g i n -> g_kind n = K_Sift -> first_of g n K_Block c -> ty_at g c = Some t ->
    derives K g i (TArray t)
| D_number i n c cn t : is_node g i n -> number_place (g_kind n) -> hd_error (g_children n) = Some c ->
    is_node g c cn -> ~ keyed cn -> g_ty cn = Some t -> goes_with (behind n t) TF64 = true -> derives K g i (behind n t)
| D_if i n c t : is_node g i n -> g_kind n = K_If -> first_of g n K_TrueBlock c -> ty_at g c = Some t ->
    derives K g i (behind n t)
| D_go i n c t : is_node g i n -> g_kind n = K_Go -> hd_error (g_children n) = Some c -> ty_at g c = Some t ->
    derives K g i (TThread t)
| D_index i n d dn : is_node g i n -> g_kind n = K_Item -> g_children n = [] -> g_decl n = Some d ->
    is_node g d dn -> counting (g_kind dn) -> g_try n = false -> derives K g i TF64
| D_param i n d dn : is_node g i n -> g_kind n = K_Item -> g_children n = [] -> g_decl n = Some d ->
    is_node g d dn -> g_kind dn = K_Arg ->
    derives K g i (behind n (match g_ty dn with Some t => t | None => TAny end))
| D_variable i n d dn t : is_node g i n -> g_kind n = K_Item -> g_children n = [] -> g_decl n = Some d ->
    is_node g d dn -> ~ counting (g_kind dn) -> g_kind dn <> K_Arg -> g_ty dn = Some t -> derives K g i (behind n t)
| D_declared i n l t : is_node g i n -> g_kind n = K_Item -> g_children n = [] -> g_decl n = None ->
    g_parent n = Some l -> kind_at g l K_Left -> ty_at g l = Some t -> derives K g i t
| D_arg i n c cn t : is_node g i n -> g_kind n = K_CallArg -> hd_error (g_children n) = Some c ->
    is_node g c cn -> g_ty cn = Some t -> derives K g i (behind n t)
| D_call i n t : is_node g i n -> g_kind n = K_Call -> choices K g n [] -> plain_result K g n t -> derives K g i t
| D_chosen i n sigs ts t : is_node g i n -> g_kind n = K_Call -> choices K g n sigs -> sigs <> [] ->
    args_are g n ts -> refine sigs ts = RFound t -> derives K g i t.

(** nodes that have a rule *)
Definition ruled (n : gnode) : Prop :=
  (passing (g_kind n) /\ g_children n <> []) \/ blocky (g_kind n) \/ number_place (g_kind n) \/
  In (g_kind n) [K_Sift; K_If; K_Go; K_Item; K_CallArg; K_Call].
(** a call that has to choose a signature *)
Definition choosing (K : known) (g : graph) (i : nat) : Prop :=
  exists n l, is_node g i n /\ g_kind n = K_Call /\ choices K g n l /\ l <> [].

(** ** Graphs that the parser makes *)

(** the item [d] is the left side of the declaration [a], [l] the node between *)
Definition declares (g : graph) (a l d : nat) : Prop :=
  exists an ln dn, is_node g a an /\ g_kind an = K_Assign /\ first_of g an K_Left l /\
    is_node g l ln /\ g_kind ln = K_Left /\ g_children ln = [d] /\ g_try ln = false /\ g_parent ln = Some a /\
    is_node g d dn /\ g_kind dn = K_Item /\ g_children dn = [] /\ g_decl dn = None /\ g_try dn = false /\ g_parent dn = Some l.

(** whatever arguments a signature is chosen for, they also go with the declared parameters *)
Definition fitting (sigs : list sig) (params : list ty) : Prop :=
  forall ts t j a p, refine sigs ts = RFound t -> nth_error ts j = Some (Some a) -> nth_error params j = Some p ->
    goes_with p a = true.
(** the declared parameters of the function that a call goes to; a parameter without a type takes anything *)
Definition params_are (K : known) (g : graph) (n : gnode) (ps : list ty) : Prop :=
  (exists d f, g_decl n = Some d /\ is_node g d f /\
     Forall2 (fun c p => p = match ty_at g c with Some t => t | None => TAny end)
             (filter (fun c => match nth_error g c with Some m => is_kind (g_kind m) K_Arg | None => false end) (g_children f)) ps) \/
  (exists f, target K n f /\ ps = d_tys f).

(** kinds of nodes that introduce variables and whose type never changes *)
Definition binder (k : kind) : Prop :=
  counting k \/ In k [K_Arg; K_Current; K_Prod; K_SumVec4; K_ProdVec4; K_ForIn; K_SumIn; K_ProdIn; K_MinIn; K_MaxIn;
                      K_AnyIn; K_AllIn; K_SiftIn; K_LinkIn].

Record well_formed (K : known) (g : graph) : Prop := {
  wf_tree : forall i n, is_node g i n -> NoDup (g_children n) /\
    forall c, In c (g_children n) -> exists cn, is_node g c cn /\ g_parent cn = Some i;
  wf_parent : forall i n p, is_node g i n -> g_parent n = Some p ->
    p < i /\ exists pn, is_node g p pn /\ In i (g_children pn);
  wf_left : forall i n, is_node g i n -> g_kind n = K_Left ->
    (forall p, g_parent n = Some p -> kind_at g p K_Assign) /\ length (g_children n) <= 1 /\ g_try n = false;
  wf_item : forall i n, is_node g i n -> g_kind n = K_Item -> g_ty n = None /\ forall d, g_decl n = Some d ->
    (exists k, kind_at g d k /\ binder k) \/ (d < i /\ exists a l, declares g a l d);
  wf_fn : forall i n, is_node g i n -> g_kind n = K_Fn -> exists args rest, g_children n = args ++ rest /\
    (forall c, In c args -> kind_at g c K_Arg) /\ (forall c, In c rest -> ~ kind_at g c K_Arg);
  wf_call : forall i n, is_node g i n -> g_kind n = K_Call ->
    g_ty n = None /\
    (forall d, g_decl n = Some d -> exists f, is_node g d f /\ g_kind f = K_Fn /\
       forall c j, supplies g n c j -> exists a, nth_error (g_children f) j = Some a /\ kind_at g a K_Arg) /\
    (forall c, In c (g_children n) -> exists cn x, is_node g c cn /\ g_kind cn = K_CallArg /\ g_try cn = false /\ g_children cn = [x]);
  wf_fit : forall i n sigs ps, is_node g i n -> g_kind n = K_Call -> choices K g n sigs -> sigs <> [] ->
    params_are K g n ps -> fitting sigs ps /\ length (g_children n) <= length ps /\
    (forall c cn x, In c (g_children n) -> is_node g c cn -> In x (g_children cn) -> ~ kind_at g x K_Swizzle) }.

(** ** Returns *)

(** [c] is in the function or block [i], not in a closure there *)
Inductive within (g : graph) : nat -> nat -> Prop :=
| In_child i n c : is_node g i n -> In c (g_children n) -> within g i c
| In_deeper i n m c : is_node g i n -> In m (g_children n) -> ~ kind_at g m K_Closure -> within g m c -> within g i c.
(** [return = x] *)
Definition assigned_return (g : graph) (c : nat) : Prop :=
  exists n l ln a, is_node g c n /\ g_kind n = K_Item /\ g_name n = Some "return" /\ g_parent n = Some l /\
    is_node g l ln /\ g_kind ln = K_Left /\ g_parent ln = Some a /\ kind_at g a K_Assign.
(** [c] leaves the function with a value of type [t] *)
Inductive returns (g : graph) (c : nat) : ty -> Prop :=
| R_value t : kind_at g c K_Return -> ty_at g c = Some t -> returns g c t
| R_nothing : kind_at g c K_ReturnVoid -> returns g c TVoid
| R_assigned t : assigned_return g c -> ty_at g c = Some t -> returns g c t.
Definition return_statement (g : graph) (c : nat) : Prop :=
  kind_at g c K_Return \/ kind_at g c K_ReturnVoid \/ assigned_return g c.

(** the children of a block whose results are not used: all but the last one, and the last one too in the body of
    a function that gives nothing *)
Definition statements (g : graph) (n : gnode) : list nat :=
  match g_parent n with
  | Some p => match nth_error g p with
              | Some pn => match g_kind pn, g_ty pn with
                           | K_Fn, Some TVoid => g_children n
                           | K_Fn, None => []
                           | _, _ => removelast (g_children n)
                           end
              | None => []
              end
  | None => removelast (g_children n)
  end.
