(** * Independent specification of the syntax tree that is run: the grammar with its meaning.

    The rules of /repo/assets/syntax.txt, as rules for the trees of meta data that the parser makes of a text, each with
    the piece of the syntax tree that it stands for. The numbers are those of the rules in that file. The algorithms of
    AstModel.v are not used; shared with it are the types of results, the constants of expressions ([precompute],
    FoldModel.v), the inferred ends of loops ([infer]) and the unrolling of loops ([vec4_un_loop], both TransformModel.v),
    and colours ([color_lit], ColorModel.v), which have specifications of their own. *)
From Coq Require Import String List Bool Arith ZArith.
From Verif Require Import PrintModel ColorModel Float64 TypeModel LifetimeModel NodesModel FoldModel TransformModel NodesSpec Syntax AstModel.
Import ListNotations.
Local Open Scope string_scope.
Local Open Scope nat_scope.
Local Open Scope list_scope.

(** ** Pieces of meta data *)
Definition str (n v : string) : stx := SValue (MString n v).
Definition flag (n : string) : stx := SValue (MBool n true).
Definition strs (n : string) (o : option string) : list stx := match o with Some v => [str n v] | None => [] end.
Definition flags (n : string) (b : bool) : list stx := if b then [flag n] else [].

(** ** Types (100, 101) *)
Definition type_words : list (string * ty) :=
  [("any", TAny); ("bool", TBool); ("f64", TF64); ("str", TStr); ("vec4", TVec4); ("mat4", TMat4); ("link", TLink);
   ("opt_any", TOption TAny); ("res_any", TResult TAny); ("sec_bool", TSecret TBool); ("sec_f64", TSecret TF64);
   ("arr_any", TArray TAny); ("obj_any", TObject); ("thr_any", TThread TAny); ("in_any", TIn TAny)].
Definition type_nodes : list (string * (ty -> ty)) :=
  [("opt", TOption); ("res", TResult); ("arr", TArray); ("thr", TThread); ("in", TIn)].
Inductive type_body : list stx -> ty -> Prop :=
| Tb_word w t : In (w, t) type_words -> type_body [flag w] t
| Tb_node w f b t : In (w, f) type_nodes -> type_body b t -> type_body [SNode w b] (f t)
| Tb_ad_hoc x : type_body [str "ad_hoc" x] (TAdHoc x TObject)
| Tb_ad_hoc_of x b t : type_body b t -> type_body [str "ad_hoc" x; SNode "ad_hoc_ty" b] (TAdHoc x t)
| Tb_closure l ts b r : type_args l ts -> type_body b r -> type_body [SNode "closure_type" (l ++ [SNode "cl_ret" b])] (TClosure ts r)
with type_args : list stx -> list ty -> Prop :=
| Ta_nil : type_args [] []
| Ta_cons b t l ts : type_body b t -> type_args l ts -> type_args (SNode "cl_arg" b :: l) (t :: ts).
(** a type in the text of a function is one piece (see NodesSpec.v) *)
Inductive type_piece (name : string) : list stx -> option ty -> Prop :=
| Tp_none : type_piece name [] None
| Tp_some b t : type_body b t -> type_piece name [SType name (flat_map tokens b)] (Some t).

(** ** Names *)

(** [f(mut,_)] if something is marked *)
Definition full_name (x : string) (l : list bool) : string := if existsb id l then marked x l else x.
(** [f(a: x, b: y)] is the function [f__a_b] *)
Definition words_name (f : string) (ws : list string) : string := (f ++ "_" ++ String.concat "" (map (fun w => "_" ++ w) ws))%string.
(** [\f(a: x, b: y)] calls the variable [f__a_b], or the property with this name; the words are lost if the last index is not a name *)
Definition words_item (ws : list string) (it : item) : item :=
  let add x := (x ++ "__" ++ String.concat "_" ws)%string in
  match it with
  | Item n sid c t ids tr =>
      match rev ids with
      | [] => Item (add n) sid c t ids tr
      | IdStr x :: r => Item n sid c t (rev r ++ [IdStr (add x)]) tr
      | _ => it
      end
  end.
Definition apply (f : string) (args : list expr) : expr := ECall FNone f args.
Definition path (alias : option string) (x : string) : string := match alias with Some a => (a ++ "::" ++ x)%string | None => x end.

(** ** Operators (28-30, 50-51, 200-208) *)
Definition symbols : list (string * binop) :=
  [("+", PrintModel.Add); ("||", PrintModel.OrElse); ("-", PrintModel.Sub); ("x", PrintModel.Cross); ("*", PrintModel.Mul);
   ("*.", PrintModel.Dot); ("&&", PrintModel.AndAlso); ("/", PrintModel.Div); ("%", PrintModel.Rem); ("^", PrintModel.Pow);
   ("==", PrintModel.Equal); ("!=", PrintModel.NotEqual); ("<=", PrintModel.LessOrEqual); ("<", PrintModel.Less);
   (">=", PrintModel.GreaterOrEqual); (">", PrintModel.Greater)].
Definition operator_functions : list (binop * string) :=
  [(PrintModel.Add, "add"); (PrintModel.Sub, "sub"); (PrintModel.Mul, "mul"); (PrintModel.Div, "div"); (PrintModel.Rem, "rem");
   (PrintModel.Pow, "pow"); (PrintModel.Dot, "dot"); (PrintModel.Cross, "cross"); (PrintModel.AndAlso, "and_also");
   (PrintModel.OrElse, "or_else"); (PrintModel.Less, "less"); (PrintModel.LessOrEqual, "less_or_equal");
   (PrintModel.Greater, "greater"); (PrintModel.GreaterOrEqual, "greater_or_equal"); (PrintModel.Equal, "equal"); (PrintModel.NotEqual, "not_equal")].
(** [a + b - c] is [sub(add(a, b), c)] *)
Inductive applied : expr -> list (binop * expr) -> expr -> Prop :=
| Ap_one e : applied e [] e
| Ap_more e o f e' l r : In (o, f) operator_functions -> applied (apply f [e; e']) l r -> applied e ((o, e') :: l) r.
Definition assignments : list (string * assign_op) :=
  [(":=", OpAssign); ("=", OpSet); ("+=", OpAdd); ("-=", OpSub); ("*=", OpMul); ("/=", OpDiv); ("%=", OpRem); ("^=", OpPow)].

(** ** Loops (39, 40, 61, 62, 70-89) *)
Definition index_loops : list (string * loopk) :=
  [("for_n", KFor); ("sum", KSum); ("prod", KProd); ("sum_vec4", KSumVec4); ("prod_vec4", KProdVec4); ("min", KMin); ("max", KMax);
   ("sift", KSift); ("any", KAny); ("all", KAll); ("link_for", KLink)].
Definition receiving_loops : list (string * loopk) :=
  [("for_in", KFor); ("sum_in", KSum); ("prod_in", KProd); ("min_in", KMin); ("max_in", KMax); ("any_in", KAny); ("all_in", KAll);
   ("sift_in", KSift); ("link_in", KLink)].
(** the end that is written, or the length of what is indexed in the body *)
Inductive ends_at (body : list expr) (x : string) : option expr -> expr -> Prop :=
| En_given e : ends_at body x (Some e) e
| En_inferred e : infer body x = Some e -> ends_at body x None e.
(** several indices are loops within each other, and the label is that of the outer loop *)
Inductive loops (k : loopk) : option string -> list (string * option expr * option expr) -> list expr -> expr -> Prop :=
| Lo_one label x a b e body : ends_at body x b e -> loops k label [(x, a, b)] body (EForN k label x a e body)
| Lo_more label x a b e i l body inner : loops k None (i :: l) body inner -> ends_at [inner] x b e ->
    loops k label ((x, a, b) :: i :: l) body (EForN k label x a e [inner]).

(** the block of a link loop is one link (35-37, 78) *)
Definition one_link (b : list stx) : Prop := exists l, b = [SNode "expr" [SNode "link" l]].

(** ** Letters of swizzles (91, 92) *)
Definition letters_ : list (string * nat) := [("x", 0); ("y", 1); ("z", 2); ("w", 3)].
Inductive letter (name : string) : stx -> nat -> Prop := Le c i : In (c, i) letters_ -> letter name (SNode name [flag c]) i.
Inductive swizzled : list stx -> list nat -> Prop :=
| Sw_two s t i j : letter "sw0" s i -> letter "sw1" t j -> swizzled [s; t] [i; j]
| Sw_three s t u i j k : letter "sw0" s i -> letter "sw1" t j -> letter "sw2" u k -> swizzled [s; t; u] [i; j; k]
| Sw_four s t u v i j k m : letter "sw0" s i -> letter "sw1" t j -> letter "sw2" u k -> letter "sw3" v m -> swizzled [s; t; u; v] [i; j; k; m].

(** ** Parts of vectors and matrices (21, 23): the first is there, and each of the others can be missing *)
Definition zero_ : expr := EVar (vf64 (f_of_Z 0)).
Definition unit_row (i : nat) : expr :=
  let c j := g_of_Z (if i =? j then 1 else 0) in EVar (VVec4 (V4 (c 0) (c 1) (c 2) (c 3))).
Definition fill_up (es : list (option expr)) (ds : list expr) : list expr :=
  map (fun p => match p with (Some e, _) => e | (None, d) => d end) (combine es ds).

(** ** The level of a grab (52): 1 if it is not written *)
Definition level_pieces (o : option f64) : list stx := match o with Some v => [SValue (MF64 "grab_level" v)] | None => [] end.
Definition level_of (o : option f64) : nat := match o with Some v => Z.to_nat (f64_to_u16 v) | None => 1 end.

(** ** Current objects (11) *)
Inductive currents_mean : list stx -> list (string * bool) -> Prop :=
| Cu_nil : currents_mean [] []
| Cu_cons m x T t l cs : type_piece "type" T t -> currents_mean l cs ->
    currents_mean (SNode "current" (flags "mut" m ++ str "name" x :: T) :: l) ((x, m) :: cs).

Section Meaning.
Context (in_of : option string -> string -> callee) (alloc : Z -> bool).

(** [expr_body b e]: the body [b] of a node of an expression stands for [e]. What is in parentheses is not a node of its own,
    so [?] can stand there several times. *)
Inductive expr_body : list stx -> expr -> Prop :=
| Eb_try b e : expr_body b e -> expr_body (b ++ [flag "try"]) (ETry e)                                          (* 63 *)
| Eb_in a x : expr_body [SNode "in" (strs "alias" a ++ [str "name" x])] (EIn (in_of a x))                       (* 54 *)
| Eb_closure args currents b xs lz cs e : args_mean args xs lz -> currents_mean currents cs -> expr_body b e ->
    expr_body [SNode "closure" (args ++ currents ++ [SNode "expr" b])] (EClosure (Closure (map r_name xs) (map fst cs) e))   (* 7 *)
| Eb_object l kvs : pairs_mean l kvs -> expr_body [SNode "object" l] (EObject kvs)                              (* 16 *)
| Eb_array l es : all_mean "array_item" l es -> expr_body [SNode "array" l] (EArray es)                         (* 17 *)
| Eb_fill b c e n : expr_body b e -> expr_body c n -> expr_body [SNode "array_fill" [SNode "fill" b; SNode "n" c]] (EArrayFill e n)   (* 18 *)
| Eb_link l es : all_mean "link_item" l es -> expr_body [SNode "link" l] (ELink es)                             (* 33 *)
| Eb_block l es : all_mean "expr" l es -> expr_body [SNode "block" l] (EBlock es)                               (* 12 *)
| Eb_for label b c d l i t s es : expr_body b i -> expr_body c t -> expr_body d s -> all_mean "expr" l es ->
    expr_body [SNode "for" (strs "label" label ++ [SNode "init" b; SNode "cond" c; SNode "step" d; SNode "block" l])] (EFor label i t s es)   (* 38 *)
| Eb_loop label l es : all_mean "expr" l es ->
    expr_body [SNode "loop" (strs "label" label ++ [SNode "block" l])] (EFor label (EBlock []) (EVar (vbool true)) (EBlock []) es)   (* 41 *)
| Eb_index name k label l is_ b es e : In (name, k) index_loops -> indices_mean l is_ -> all_mean "expr" b es -> loops k label is_ es e -> (k = KLink -> one_link b) ->
    expr_body [SNode name (strs "label" label ++ l ++ [SNode "block" b])] e                                     (* 39, 81-89, 35 *)
| Eb_receive name k label x b l it es : In (name, k) receiving_loops -> expr_body b it -> all_mean "expr" l es -> (k = KLink -> one_link l) ->
    expr_body [SNode name (strs "label" label ++ [str "name" x; SNode "iter" b; SNode "block" l])] (EForIn k label x it es)   (* 40, 71-78 *)
| Eb_if b l r r' c t cs bs eb : expr_body b c -> all_mean "expr" l t -> elses_mean r cs bs -> else_mean r' eb ->
    expr_body [SNode "if" (SNode "cond" b :: SNode "true_block" l :: r ++ r')] (EIf c t cs bs eb)               (* 44 *)
| Eb_break label : expr_body [SNode "break" (strs "label" label)] (EBreak label)                                (* 42 *)
| Eb_continue label : expr_body [SNode "continue" (strs "label" label)] (EContinue label)                       (* 43 *)
| Eb_assign b o op c l r : In (o, op) assignments -> expr_body b l -> expr_body c r ->
    expr_body [SNode "assign" [SNode "left" b; flag o; SNode "right" c]] (EAssign op l r)                       (* 48 *)
| Eb_return b e : expr_body b e -> expr_body [SNode "return" b] (EReturn e)                                     (* 13 *)
| Eb_return_void : expr_body [flag "return_void"] EReturnVoid                                                   (* 13 *)
| Eb_operators name l e es r : In name ["add"; "mul"; "compare"] -> operands_mean l e es -> applied e es r -> expr_body [SNode name l] r   (* 50, 206, 208 *)
| Eb_not b e : expr_body b e -> expr_body [SNode "not" [SNode "expr" b]] (apply "not" [e])                      (* 28 *)
| Eb_norm b e : expr_body b e -> expr_body [SNode "norm" [SNode "expr" b]] (apply "norm" [e])                   (* 30 *)
| Eb_vec4 l x es : parts_mean ["x"; "y"; "z"; "w"] l (Some x :: es) ->
    expr_body [SNode "vec4" l] (EVec4 (fill_up (Some x :: es) [zero_; zero_; zero_; zero_]))                                (* 21, 25 *)
| Eb_mat4 l x es : parts_mean ["ex"; "ey"; "ez"; "ew"] l (Some x :: es) ->
    expr_body [SNode "mat4" l] (EMat4 (fill_up (Some x :: es) [unit_row 0; unit_row 1; unit_row 2; unit_row 3]))            (* 23, 24 *)
| Eb_un_loop len n x b e : In (len, n) [("4", 4); ("3", 3); ("2", 2)] -> expr_body b e ->
    expr_body [SNode "vec4_un_loop" [flag len; str "name" x; SNode "expr" b]] (vec4_un_loop x n e)              (* 90 *)
| Eb_grab_constant level b e v : expr_body b e -> precompute alloc e = FSome v ->
    expr_body [SNode "grab" (level_pieces level ++ [SNode "expr" b])] (EVar v)                                  (* 52 *)
| Eb_grab level b e : expr_body b e -> precompute alloc e = FNone_ ->
    expr_body [SNode "grab" (level_pieces level ++ [SNode "expr" b])] (EGrab (level_of level) e)                (* 52 *)
| Eb_try_expr b e : expr_body b e -> expr_body [SNode "try_expr" [SNode "expr" b]] (ETryExpr e)                 (* 53 *)
| Eb_text x : expr_body [str "text" x] (EVar (VStr x))                                                          (* 26 *)
| Eb_num x : expr_body [SValue (MF64 "num" x)] (EVar (vf64 x))                                                  (* 20 *)
| Eb_bool v : expr_body [SValue (MBool "bool" v)] (EVar (vbool v))                                              (* 27 *)
| Eb_color x c : color_lit (code_points x) = Some c -> expr_body [str "color" x] (EVar (VVec4 c))               (* 22 *)
| Eb_item it i : item_means it i -> expr_body [it] (EItem i)                                                    (* 31 *)
| Eb_call c f args : call_means c f args -> expr_body [c] (apply f args)                                        (* 45, 46 *)
| Eb_go c f args : call_means c f args -> expr_body [SNode "go" [c]] (EGo f args)                               (* 47 *)
| Eb_call_closure it i l ms es : item_means it i -> arguments_mean l ms es ->
    expr_body [SNode "call_closure" (it :: l)] (ECallClosure i es)                                              (* 8 *)
| Eb_named_closure it i l ws ms es : item_means it i -> named_mean l ws ms es -> ws <> [] -> Forall (fun w => w <> "") ws ->
    expr_body [SNode "named_call_closure" (it :: l)] (ECallClosure (words_item ws i) es)                        (* 9 *)

(** several nodes of the same name *)
with all_mean : string -> list stx -> list expr -> Prop :=
| Al_nil n : all_mean n [] []
| Al_cons n b e l es : expr_body b e -> all_mean n l es -> all_mean n (SNode n b :: l) (e :: es)
(** key-values (19) *)
with pairs_mean : list stx -> list (string * expr) -> Prop :=
| Pa_nil : pairs_mean [] []
| Pa_cons k b e l kvs : expr_body b e -> pairs_mean l kvs -> pairs_mean (SNode "key_value" [str "key" k; SNode "val" b] :: l) ((k, e) :: kvs)
(** arguments (14): [mut x] is marked *)
with arg_body : list stx -> bool -> expr -> Prop :=
| Ab_mut it i : item_means it i -> arg_body [flag "mut"; it] true (EItem i)
| Ab_swizzle l inds b e : swizzled l inds -> expr_body b e -> arg_body [SNode "swizzle" (l ++ [SNode "expr" b])] false (ESwizzle inds e)   (* 91 *)
| Ab_expr b e : expr_body b e -> arg_body b false e
with arguments_mean : list stx -> list bool -> list expr -> Prop :=
| Ar_nil : arguments_mean [] [] []
| Ar_cons b m e l ms es : arg_body b m e -> arguments_mean l ms es -> arguments_mean (SNode "call_arg" b :: l) (m :: ms) (e :: es)
with named_mean : list stx -> list string -> list bool -> list expr -> Prop :=
| Nm_nil : named_mean [] [] [] []
| Nm_cons w b m e l ws ms es : arg_body b m e -> named_mean l ws ms es ->
    named_mean (str "word" w :: SNode "call_arg" b :: l) (w :: ws) (m :: ms) (e :: es)
with parts_mean : list string -> list stx -> list (option expr) -> Prop :=
| Pt_nil : parts_mean [] [] []
| Pt_cons n b m e ns l es : arg_body b m e -> parts_mean ns l es -> parts_mean (n :: ns) (SNode n b :: l) (Some e :: es)
| Pt_missing n ns l es : parts_mean ns l es -> parts_mean (n :: ns) l (None :: es)
(** calls (45, 46) *)
with call_means : stx -> string -> list expr -> Prop :=
| Ca_plain a x l ms es : arguments_mean l ms es -> call_means (SNode "call" (strs "alias" a ++ str "name" x :: l)) (path a (full_name x ms)) es
| Ca_named a x l ws ms es : x <> "" -> named_mean l ws ms es ->
    call_means (SNode "named_call" (strs "alias" a ++ str "word" x :: l)) (path a (full_name (words_name x ws) ms)) es
(** variables and properties (31, 32) *)
with item_means : stx -> item -> Prop :=
| It_plain c x q : item_means (SNode "item" (flags "current" c ++ str "name" x :: flags "try_item" q)) (Item x None c q [] [])
| It_extra c x q l ids tries : l <> [] -> ids_mean 0 l ids tries ->
    item_means (SNode "item" (flags "current" c ++ str "name" x :: flags "try_item" q ++ [SNode "item_extra" l])) (Item x None c q ids tries)
(** [ids_mean k l ids tries]: the first of these is number [k] *)
with ids_mean : nat -> list stx -> list idx -> list nat -> Prop :=
| Id_nil k : ids_mean k [] [] []
| Id_name k x q l ids tries : ids_mean (S k) l ids tries -> ids_mean k (str "id" x :: flags "try_id" q ++ l) (IdStr x :: ids) ((if q then [k] else []) ++ tries)
| Id_num k x q l ids tries : ids_mean (S k) l ids tries ->
    ids_mean k (SValue (MF64 "id" x) :: flags "try_id" q ++ l) (IdF64 x :: ids) ((if q then [k] else []) ++ tries)
| Id_expr k b e q l ids tries : expr_body b e -> ids_mean (S k) l ids tries ->
    ids_mean k (SNode "id" b :: flags "try_id" q ++ l) (IdExpr e :: ids) ((if q then [k] else []) ++ tries)
(** operands, and operators between them *)
with operand_means : stx -> expr -> Prop :=
| Op_neg b e : expr_body b e -> operand_means (SNode "neg" [SNode "expr" b]) (apply "neg" [e])      (* 29 *)
| Op_pow l e es r : operands_mean l e es -> applied e es r -> operand_means (SNode "pow" l) r       (* 205 *)
| Op_expr b e : expr_body b e -> operand_means (SNode "expr" b) e
with operands_mean : list stx -> expr -> list (binop * expr) -> Prop :=
| Om t e l es : operand_means t e -> rest_mean l es -> operands_mean (t :: l) e es
with rest_mean : list stx -> list (binop * expr) -> Prop :=
| Re_nil : rest_mean [] []
| Re_cons s o t e l es : In (s, o) symbols -> operand_means t e -> rest_mean l es -> rest_mean (flag s :: t :: l) ((o, e) :: es)
(** indices of loops (61): [i [a, b)], [i b] or [i] *)
with indices_mean : list stx -> list (string * option expr * option expr) -> Prop :=
| In_nil : indices_mean [] []
| In_range x b c s e l is_ : expr_body b s -> expr_body c e -> indices_mean l is_ ->
    indices_mean (str "name" x :: SNode "start" b :: SNode "end" c :: l) ((x, Some s, Some e) :: is_)
| In_end x c e l is_ : expr_body c e -> indices_mean l is_ -> indices_mean (str "name" x :: SNode "end" c :: l) ((x, None, Some e) :: is_)
| In_open x l is_ : indices_mean l is_ -> indices_mean (str "name" x :: l) ((x, None, None) :: is_)
(** [else if] and [else] *)
with elses_mean : list stx -> list expr -> list (list expr) -> Prop :=
| Es_nil : elses_mean [] [] []
| Es_cons b c l es r cs bs : expr_body b c -> all_mean "expr" l es -> elses_mean r cs bs ->
    elses_mean (SNode "else_if_cond" b :: SNode "else_if_block" l :: r) (c :: cs) (es :: bs)
with else_mean : list stx -> option (list expr) -> Prop :=
| El_none : else_mean [] None
| El_some l es : all_mean "expr" l es -> else_mean [SNode "else_block" l] (Some es)
(** arguments of functions and closures with their lazy invariants (5, 6) *)
with args_mean : list stx -> list arg -> list (list lazy) -> Prop :=
| As_none : args_mean [] [] []
| As_more m x lt T t L lz l xs lzs : type_piece "type" T t -> lazy_mean L lz -> args_mean l xs lzs ->
    args_mean (SNode "arg" (flags "mut" m ++ str "name" x :: strs "lifetime" lt ++ T ++ L) :: l)
              (Arg x lt (match t with Some t => t | None => TAny end) m :: xs) (lz :: lzs)
with lazy_mean : list stx -> list lazy -> Prop :=
| Lz_nil : lazy_mean [] []
| Lz_ok l zs : lazy_mean l zs -> lazy_mean (flag "ok(_)" :: l) (LzOk :: zs)
| Lz_err l zs : lazy_mean l zs -> lazy_mean (flag "err(_)" :: l) (LzErr :: zs)
| Lz_some l zs : lazy_mean l zs -> lazy_mean (flag "some(_)" :: l) (LzSome :: zs)
| Lz_value b e v l zs : expr_body b e -> precompute alloc e = FSome v -> lazy_mean l zs -> lazy_mean (SNode "grab" [SNode "expr" b] :: l) (LzVar v :: zs).

(** ** Functions (3, 4) *)

(** trailing arguments without lazy invariants are not listed *)
Inductive trimmed : list (list lazy) -> list (list lazy) -> Prop :=
| Tr_all l : Forall (fun x => x = []) l -> trimmed l []
| Tr_last l x r : x <> [] -> Forall (fun x => x = []) r -> trimmed (l ++ x :: r) (l ++ [x]).
(** further signatures (4, 5): the types in them are read by the checkers only *)
Inductive signature : stx -> Prop :=
| Sg vars l b t : Forall (fun s => exists b t, type_body b t /\ s = SSig "ty_arg" (flat_map tokens b)) l -> type_body b t ->
    signature (SNode "ty" (map (str "ty_var") vars ++ l ++ [SSig "ty_ret" (flat_map tokens b)])).
Definition extra_signatures (l : list stx) : Prop := Forall signature l.
Inductive function_means : stx -> function_ -> Prop :=
| Fm_block x args currents T t l tys xs lz lz' cs es : args_mean args xs lz -> currents_mean currents cs -> type_piece "ret_type" T t ->
    all_mean "expr" l es -> extra_signatures tys -> trimmed lz lz' ->
    function_means (SNode "fn" (str "name" x :: args ++ currents ++ flag "returns" :: T ++ SNode "block" l :: tys))
                   (Function_ (full_name x (map r_mut xs)) xs lz' cs es (match t with Some t => t | None => TAny end))
| Fm_void x args currents l tys xs lz lz' cs es : args_mean args xs lz -> currents_mean currents cs ->
    all_mean "expr" l es -> extra_signatures tys -> trimmed lz lz' ->
    function_means (SNode "fn" (str "name" x :: args ++ currents ++ SValue (MBool "returns" false) :: SNode "block" l :: tys))
                   (Function_ (full_name x (map r_mut xs)) xs lz' cs es TVoid)
| Fm_expr x args currents b xs lz lz' cs e : args_mean args xs lz -> currents_mean currents cs -> expr_body b e -> trimmed lz lz' ->
    function_means (SNode "fn" (str "name" x :: args ++ currents ++ [SNode "expr" b]))
                   (Function_ (full_name x (map r_mut xs)) xs lz' cs [EReturn e] TAny).

(** ** Files (0-2, 1000) *)
Inductive use_means : stx -> use_ -> Prop :=
| Us names fns a : use_means (SNode "use" (map (str "name") names ++ flat_map (fun f => str "use_fn" (fst f) :: strs "use_fn_alias" (snd f)) fns ++ [str "alias" a]))
                             (Use_ names fns a).
Inductive file_means : list stx -> file -> Prop :=
| Fi N U ns us l us' fs : (N = [] /\ ns = [] \/ N = [SNode "ns" (map (str "name") ns)]) ->
    (U = [] /\ us' = [] \/ (U = [SNode "uses" us])) -> Forall2 use_means us us' -> Forall2 function_means l fs ->
    file_means (N ++ U ++ l) (File ns us' fs).
End Meaning.
