(** * From meta data to the graph that the checkers work on.

    Model of [convert_meta_data], [rewrite_unop], [rewrite_binop] and [simplify] in
    /repo/src/lifetime/node.rs and of the first part of [check_core] in lifetime/mod.rs: rewriting
    of operators, names with mutability, linking of variables and calls to what they refer to, and
    the checks of arguments, signatures and names. Definitions only.

    Simplifications:
    - source ranges and the positions in the meta data are left out, an error is a label with the
      node it is reported at;
    - the parser of types ([Type::from_meta_data], ty.rs) is a parameter: given the name of the node
      and the tokens from its start on, it gives the number of tokens used and the type;
    - the sorting of nodes in memory (crate [tree_mem_sort], not part of the repository) is a
      parameter; what it has to do is specified in NodesSpec.v;
    - the binary search among children is a search in a list; children are sorted in the graphs it is used for;
    - what is known of functions outside of the file is a pair of lookups of lifetime constraints;
    - the threading feature is on. *)
From Coq Require Import String List Bool Arith ZArith.
From Verif Require Import Syntax Float64 TypeModel LifetimeModel PrintModel.
Import ListNotations.
Local Open Scope string_scope.
Local Open Scope nat_scope.
Local Open Scope list_scope.

(** ** Meta data and nodes *)

(** The tokens of piston_meta: start and end of a node, and named values. *)
Inductive meta :=
| MStart (name : string)
| MEnd (name : string)
| MString (name value : string)
| MBool (name : string) (value : bool)
| MF64 (name : string) (value : f64).

(** node.rs 11-48: a node without its place in the graph, ... *)
Record data := Data {
  x_kind : kind;
  x_alias : option string;
  x_names : list string;
  x_ty : option ty;
  x_mut : bool;
  x_try : bool;
  x_grab : Z;
  x_lifetime : option string;
  x_op : option assign_op;
  x_binops : list binop }.
(** ... and the node. *)
Record fnode := FNode {
  f_data : data;
  f_parent : option nat;
  f_children : list nat;
  f_decl : option nat;
  f_lts : list lt }.
Definition fgraph := list fnode.
Definition f_kind (n : fnode) : kind := x_kind (f_data n).
(** node.rs 51-57 *)
Definition f_name (n : fnode) : option string := hd_error (x_names (f_data n)).
(** node.rs 172-174 *)
Definition f_item_ids (n : fnode) : bool :=
  is_kind (f_kind n) K_Item && match f_children n with [] => false | _ => true end.

Definition with_kind (k : kind) (d : data) : data :=
  Data k (x_alias d) (x_names d) (x_ty d) (x_mut d) (x_try d) (x_grab d) (x_lifetime d) (x_op d) (x_binops d).
Definition with_alias (a : string) (d : data) : data :=
  Data (x_kind d) (Some a) (x_names d) (x_ty d) (x_mut d) (x_try d) (x_grab d) (x_lifetime d) (x_op d) (x_binops d).
Definition with_names (l : list string) (d : data) : data :=
  Data (x_kind d) (x_alias d) l (x_ty d) (x_mut d) (x_try d) (x_grab d) (x_lifetime d) (x_op d) (x_binops d).
Definition with_ty (t : ty) (d : data) : data :=
  Data (x_kind d) (x_alias d) (x_names d) (Some t) (x_mut d) (x_try d) (x_grab d) (x_lifetime d) (x_op d) (x_binops d).
Definition with_mut (b : bool) (d : data) : data :=
  Data (x_kind d) (x_alias d) (x_names d) (x_ty d) b (x_try d) (x_grab d) (x_lifetime d) (x_op d) (x_binops d).
Definition with_try (b : bool) (d : data) : data :=
  Data (x_kind d) (x_alias d) (x_names d) (x_ty d) (x_mut d) b (x_grab d) (x_lifetime d) (x_op d) (x_binops d).
Definition with_grab (z : Z) (d : data) : data :=
  Data (x_kind d) (x_alias d) (x_names d) (x_ty d) (x_mut d) (x_try d) z (x_lifetime d) (x_op d) (x_binops d).
Definition with_lifetime (x : string) (d : data) : data :=
  Data (x_kind d) (x_alias d) (x_names d) (x_ty d) (x_mut d) (x_try d) (x_grab d) (Some x) (x_op d) (x_binops d).
Definition with_op (o : assign_op) (d : data) : data :=
  Data (x_kind d) (x_alias d) (x_names d) (x_ty d) (x_mut d) (x_try d) (x_grab d) (x_lifetime d) (Some o) (x_binops d).
Definition with_binops (l : list binop) (d : data) : data :=
  Data (x_kind d) (x_alias d) (x_names d) (x_ty d) (x_mut d) (x_try d) (x_grab d) (x_lifetime d) (x_op d) l.
Definition blank (k : kind) (t : option ty) : data := Data k None [] t false false 0%Z None None [].

Definition with_data (f : data -> data) (n : fnode) : fnode :=
  FNode (f (f_data n)) (f_parent n) (f_children n) (f_decl n) (f_lts n).
Definition with_parent (p : option nat) (n : fnode) : fnode :=
  FNode (f_data n) p (f_children n) (f_decl n) (f_lts n).
Definition with_children (f : list nat -> list nat) (n : fnode) : fnode :=
  FNode (f_data n) (f_parent n) (f (f_children n)) (f_decl n) (f_lts n).
Definition with_decl (d : nat) (n : fnode) : fnode :=
  FNode (f_data n) (f_parent n) (f_children n) (Some d) (f_lts n).
Definition with_lts (l : list lt) (n : fnode) : fnode :=
  FNode (f_data n) (f_parent n) (f_children n) (f_decl n) l.

(** ** Results *)
Inductive nerr :=
| N_kind | N_grab_level
| N_grab_variable | N_grab_argument | N_declaration | N_range
| N_dup_argument | N_sig_void | N_sig_type | N_sig_count | N_dup_function
| N_alias | N_count | N_function
| N_unsorted (** not an error of the code: what it does here is not specified *).
Inductive nres (A : Type) := NOk (a : A) | NErr (e : nerr) (at_ : nat) | NPanic | NOof.
Arguments NOk {A}. Arguments NErr {A}. Arguments NPanic {A}. Arguments NOof {A}.
Definition nbind {A B} (x : nres A) (f : A -> nres B) : nres B :=
  match x with NOk a => f a | NErr e i => NErr e i | NPanic => NPanic | NOof => NOof end.
Declare Scope nodes_scope.
Notation "'do' x <- a ; b" := (nbind a (fun x => b)) (at level 200, x pattern, a at level 100, b at level 200) : nodes_scope.
Local Open Scope nodes_scope.

(** [nodes[i]] *)
Definition at_ {A} (l : list A) (i : nat) : nres A := match nth_error l i with Some n => NOk n | None => NPanic end.
(** [nodes[i]. ... = ...]; an index outside of the nodes is a panic where the node is read before *)
Definition upd (g : fgraph) (i : nat) (f : fnode -> fnode) : fgraph :=
  match nth_error g i with Some n => set_nth g i (f n) | None => g end.

(** ** kind.rs 107-214 [Kind::new] *)
Definition kind_table : list (string * kind) :=
  [("ns", K_Ns); ("uses", K_Uses); ("use", K_Use); ("fn", K_Fn); ("arg", K_Arg); ("current", K_Current);
   ("block", K_Block); ("expr", K_Expr); ("add", K_Add); ("mul", K_Mul); ("pow", K_Pow); ("val", K_Val);
   ("call", K_Call); ("call_arg", K_CallArg); ("named_call", K_Call); ("assign", K_Assign); ("left", K_Left);
   ("right", K_Right); ("item", K_Item); ("item_extra", K_ItemExtra); ("return", K_Return); ("object", K_Object);
   ("array", K_Array); ("array_item", K_ArrayItem); ("array_fill", K_ArrayFill); ("fill", K_Fill); ("n", K_N);
   ("key_value", K_KeyValue); ("for", K_For); ("for_n", K_ForN); ("for_in", K_ForIn); ("sum", K_Sum);
   ("sum_in", K_SumIn); ("sum_vec4", K_SumVec4); ("prod", K_Prod); ("prod_in", K_ProdIn);
   ("prod_vec4", K_ProdVec4); ("min", K_Min); ("min_in", K_MinIn); ("max", K_Max); ("max_in", K_MaxIn);
   ("sift", K_Sift); ("sift_in", K_SiftIn); ("start", K_Start); ("any", K_Any); ("any_in", K_AnyIn);
   ("all", K_All); ("all_in", K_AllIn); ("vec4_un_loop", K_Vec4UnLoop); ("end", K_End); ("init", K_Init);
   ("cond", K_Cond); ("iter", K_Iter); ("else_if_cond", K_ElseIfCond); ("else_if_block", K_ElseIfBlock);
   ("step", K_Step); ("compare", K_Compare); ("if", K_If); ("true_block", K_TrueBlock);
   ("else_block", K_ElseBlock); ("loop", K_Loop); ("id", K_Id); ("break", K_Break); ("continue", K_Continue);
   ("norm", K_Norm); ("not", K_Not); ("neg", K_Neg); ("vec4", K_Vec4); ("x", K_X); ("y", K_Y); ("z", K_Z);
   ("w", K_W); ("mat4", K_Mat4); ("ex", K_EX); ("ey", K_EY); ("ez", K_EZ); ("ew", K_EW); ("type", K_Type);
   ("arr", K_Arr); ("opt", K_Opt); ("res", K_Res); ("ret_type", K_RetType); ("return_void", K_ReturnVoid);
   ("go", K_Go); ("swizzle", K_Swizzle); ("sw0", K_Sw0); ("sw1", K_Sw1); ("sw2", K_Sw2); ("sw3", K_Sw3);
   ("link", K_Link); ("link_for", K_LinkFor); ("link_in", K_LinkIn); ("link_item", K_LinkItem);
   ("closure", K_Closure); ("call_closure", K_CallClosure); ("named_call_closure", K_CallClosure);
   ("closure_type", K_ClosureType); ("cl_arg", K_ClArg); ("cl_ret", K_ClRet); ("grab", K_Grab);
   ("try_expr", K_TryExpr); ("in", K_In); ("ty", K_Ty); ("ty_arg", K_TyArg); ("ty_ret", K_TyRet)].
Fixpoint assoc {A} (x : string) (l : list (string * A)) : option A :=
  match l with [] => None | (y, a) :: l => if (x =? y)%string then Some a else assoc x l end.
Definition kind_new (name : string) : option kind := assoc name kind_table.
(** kind.rs 217-251 *)
Definition is_decl_loop (k : kind) : bool :=
  match k with
  | K_ForN | K_Sum | K_Prod | K_SumVec4 | K_ProdVec4 | K_Min | K_Max | K_Sift | K_Any | K_All | K_LinkFor => true
  | _ => false
  end.
Definition is_in_loop (k : kind) : bool :=
  match k with
  | K_ForIn | K_SumIn | K_ProdIn | K_MinIn | K_MaxIn | K_AnyIn | K_AllIn | K_SiftIn | K_LinkIn => true
  | _ => false
  end.
Definition is_decl_un_loop (k : kind) : bool := is_kind k K_Vec4UnLoop.

(** ** node.rs 392-683 [convert_meta_data] *)

(** 423-455: the type that a node has from the start *)
Definition start_ty (k : kind) : option ty :=
  match k with
  | K_Array | K_ArrayFill => Some (TArray TAny)
  | K_Vec4 | K_Vec4UnLoop => Some TVec4
  | K_Mat4 => Some TMat4
  | K_EX | K_EY | K_EZ | K_EW => Some TVec4
  | K_In => Some (TIn (TArray TAny))
  | K_Object => Some TObject
  | K_Sift | K_SiftIn => Some (TArray TAny)
  | K_Sum | K_SumIn | K_Prod | K_ProdIn => Some TF64
  | K_Swizzle => Some TF64
  | K_Link | K_LinkFor => Some TLink
  | K_Any | K_AnyIn | K_All | K_AllIn => Some (TSecret TBool)
  | K_Min | K_MinIn | K_Max | K_MaxIn => Some (TSecret TF64)
  | K_For | K_ForN => Some TVoid
  | _ => None
  end.

(** 490-534 *)
Definition set_string (n v : string) (d : data) : data :=
  if (n =? "alias")%string then with_alias v d
  else if (n =? "name")%string then with_names (x_names d ++ [v]) d
  else if (n =? "word")%string then
    match x_names d with
    | [] => with_names [if is_kind (x_kind d) K_CallClosure then v else (v ++ "_")%string] d
    | x :: l => with_names ((x ++ "_" ++ v)%string :: l) d
    end
  else if (n =? "lifetime")%string then with_lifetime v d
  else if (n =? "text")%string then with_ty TStr d
  else if (n =? "color")%string then with_ty TVec4 d
  else if (n =? "ty_var")%string then with_names (x_names d ++ [v]) d
  else d.
(** 535-663 *)
Definition op_table : list (string * assign_op) :=
  [(":=", OpAssign); ("=", OpSet); ("+=", OpAdd); ("-=", OpSub); ("*=", OpMul); ("/=", OpDiv); ("%=", OpRem);
   ("^=", OpPow)].
Definition binop_table : list (string * binop) :=
  [("*.", PrintModel.Dot); ("x", PrintModel.Cross); ("*", PrintModel.Mul); ("/", PrintModel.Div); ("%", PrintModel.Rem); ("^", PrintModel.Pow);
   ("&&", PrintModel.AndAlso); ("+", PrintModel.Add); ("-", PrintModel.Sub); ("||", PrintModel.OrElse); ("<", PrintModel.Less); ("<=", PrintModel.LessOrEqual);
   (">", PrintModel.Greater); (">=", PrintModel.GreaterOrEqual); ("==", PrintModel.Equal); ("!=", PrintModel.NotEqual)].
Definition set_bool (n : string) (v : bool) (d : data) : data :=
  match assoc n op_table, assoc n binop_table with
  | Some o, _ => with_op o d
  | None, Some b => with_binops (x_binops d ++ [b]) d
  | None, None =>
      if (n =? "mut")%string then with_mut v d
      else if ((n =? "try") || (n =? "try_item"))%string%bool then with_try v d
      else if (n =? "bool")%string then with_ty TBool d
      else if (n =? "returns")%string then with_ty (if v then TAny else TVoid) d
      else if (n =? "return_void")%string then with_kind K_ReturnVoid d
      else d
  end.
(** 664-679; [val as u16] saturates *)
Definition f64_to_u16 (x : f64) : Z := Z.min (f64_to_usize x) 65535.

Definition set_f64 (n : string) (v : f64) (d : data) : nres data :=
  if (n =? "num")%string then NOk (with_ty TF64 d)
  else if (n =? "grab_level")%string then
    if flt v f1 then NErr N_grab_level 0 else NOk (with_grab (f64_to_u16 v) d)
  else NOk d.

Definition type_parser := string -> list meta -> option (nat * ty).

(** The state: the nodes, the open nodes (innermost first) and the number of tokens to skip. *)
Record cst := Cst { c_nodes : fgraph; c_open : list nat; c_skip : nat }.

(** [let i = *parents.last().unwrap(); nodes[i]. ... ] *)
Definition on_top (s : cst) (f : data -> data) : nres cst :=
  match c_open s with
  | [] => NPanic
  | i :: _ => do _ <- at_ (c_nodes s) i; NOk (Cst (upd (c_nodes s) i (with_data f)) (c_open s) (c_skip s))
  end.
Definition is_type (k : kind) : bool := is_kind k K_Type || is_kind k K_RetType.
Definition is_sig_type (k : kind) : bool := is_kind k K_TyArg || is_kind k K_TyRet.
Definition open_node (k : kind) (t : option ty) (skip : nat) (s : cst) : cst :=
  Cst (c_nodes s ++ [FNode (blank k t) (hd_error (c_open s)) [] None []]) (length (c_nodes s) :: c_open s) skip.
(** 405-680: one token; [rest] are the tokens from this one on. *)
Definition convert_one (P : type_parser) (m : meta) (rest : list meta) (s : cst) : nres cst :=
  match m with
  | MStart name =>
      match kind_new name with
      | None => NErr N_kind 0
      | Some k =>
          match (if is_type k then P name rest else None) with
          | Some (len, t) => do s <- on_top s (with_ty t); NOk (Cst (c_nodes s) (c_open s) (len - 1))
          | None =>
              if is_sig_type k then
                match P name rest with
                | Some (len, t) => NOk (open_node k (Some t) (len - 2) s)
                | None => NOk (open_node k None 0 s)
                end
              else NOk (open_node k (start_ty k) 0 s)
          end
      end
  | MEnd _ =>
      match c_open s with
      | [] => NPanic
      | i :: open =>
          do _ <- at_ (c_nodes s) i;
          match open with
          | [] => NOk (Cst (c_nodes s) [] (c_skip s))
          | p :: _ => do _ <- at_ (c_nodes s) p;
                      NOk (Cst (upd (c_nodes s) p (with_children (fun l => l ++ [i]))) open (c_skip s))
          end
      end
  | MString n v =>
      if existsb (String.eqb n) ["alias"; "name"; "word"; "lifetime"; "text"; "color"; "ty_var"]
      then on_top s (set_string n v) else NOk s
  | MBool n v =>
      if existsb (String.eqb n) (map fst op_table ++ map fst binop_table ++
                                 ["mut"; "try"; "try_item"; "bool"; "returns"; "return_void"])
      then on_top s (set_bool n v) else NOk s
  | MF64 n v =>
      if existsb (String.eqb n) ["num"; "grab_level"] then
        match c_open s with
        | [] => if (n =? "grab_level")%string && flt v f1 then NErr N_grab_level 0 else NPanic
        | i :: _ =>
            do x <- at_ (c_nodes s) i;
            do d <- set_f64 n v (f_data x);
            NOk (Cst (upd (c_nodes s) i (with_data (fun _ => d))) (c_open s) (c_skip s))
        end
      else NOk s
  end.
(** 399-404, 682 *)
Fixpoint convert_from (P : type_parser) (ms : list meta) (s : cst) : nres cst :=
  match ms with
  | [] => NOk s
  | m :: ms' =>
      match c_skip s with
      | S k => convert_from P ms' (Cst (c_nodes s) (c_open s) k)
      | 0 => do s <- convert_one P m ms s; convert_from P ms' s
      end
  end.
Definition convert (P : type_parser) (ms : list meta) : nres fgraph :=
  do s <- convert_from P ms (Cst [] [] 0); NOk (c_nodes s).

(** ** mod.rs 42-101: several operators become nested ones *)

(** 50-82 for [n] from [S k] down to 2 *)
Fixpoint nest_loop (i k : nat) (parent : option nat) (g : fgraph) : nres (fgraph * option nat) :=
  match k with
  | 0 => NOk (g, parent)
  | S k' =>
      do x <- at_ g i;
      do rt <- at_ (f_children x) (S k);
      do _ <- at_ g rt;
      do b <- at_ (x_binops (f_data x)) k;
      let id := length g in
      let g := upd g rt (with_parent (Some id)) in
      let new := FNode (with_binops [b] (blank (f_kind x) None)) parent [if k =? 1 then i else S id; rt] None [] in
      nest_loop i k' (Some id) (g ++ [new])
  end.
Fixpoint replace_first (a b : nat) (l : list nat) : list nat :=
  match l with [] => [] | x :: l => if x =? a then b :: l else x :: replace_first a b l end.
(** 43-101 *)
Definition nest_at (i : nat) (g : fgraph) : nres fgraph :=
  do x <- at_ g i;
  if length (x_binops (f_data x)) <=? 1 then NOk g
  else
    let new_child := length g in
    do (g, parent) <- nest_loop i (length (f_children x) - 2) (f_parent x) g;
    let g := upd g i (fun n => with_data (fun d => with_binops (firstn 1 (x_binops d)) d) (with_children (firstn 2) n)) in
    let g := match f_parent x with
             | Some p => upd g p (with_children (replace_first i new_child))
             | None => g
             end in
    NOk (upd g i (with_parent parent)).
(** [for i in 0..nodes.len()]: the bound is read once *)
Fixpoint each (f : nat -> fgraph -> nres fgraph) (l : list nat) (g : fgraph) : nres fgraph :=
  match l with [] => NOk g | i :: l => do g <- f i g; each f l g end.
Definition nest (g : fgraph) : nres fgraph := each nest_at (seq 0 (length g)) g.

(** ** mod.rs 103-145: operators become calls *)
Definition unop_name (k : kind) : option string :=
  match k with K_Norm => Some "norm" | K_Not => Some "not" | K_Neg => Some "neg" | _ => None end.
Definition binop_name (b : binop) : string :=
  match b with
  | PrintModel.Add => "add" | PrintModel.Sub => "sub" | PrintModel.Mul => "mul" | PrintModel.Div => "div" | PrintModel.Rem => "rem"
  | PrintModel.Pow => "pow" | PrintModel.Dot => "dot" | PrintModel.Cross => "cross" | PrintModel.AndAlso => "and_also"
  | PrintModel.OrElse => "or_else" | PrintModel.Less => "less" | PrintModel.LessOrEqual => "less_or_equal"
  | PrintModel.Greater => "greater" | PrintModel.GreaterOrEqual => "greater_or_equal"
  | PrintModel.Equal => "equal" | PrintModel.NotEqual => "not_equal"
  end.
(** node.rs 60-62, 67-69 *)
Definition to_call (name : string) (d : data) : data := with_names (x_names d ++ [name]) (with_kind K_Call d).
(** node.rs 59-64 *)
Definition rewrite_unop (i : nat) (name : string) (g : fgraph) : nres fgraph :=
  do x <- at_ g i;
  do c <- at_ (f_children x) 0;
  do _ <- at_ g c;
  NOk (upd (upd g i (with_data (to_call name))) c (with_data (with_kind K_CallArg))).
(** node.rs 66-120 *)
Definition rewrite_binop (i : nat) (name : string) (g : fgraph) : nres fgraph :=
  do x <- at_ g i;
  do l <- at_ (f_children x) 0;
  do r <- at_ (f_children x) 1;
  do _ <- at_ g l;
  do _ <- at_ g r;
  let left := length g in
  let right := S left in
  let arg c := FNode (blank K_CallArg None) (Some i) [c] None [] in
  let g := upd g i (with_data (fun d => with_binops [] (to_call name d))) ++ [arg l; arg r] in
  let g := upd g l (with_parent (Some left)) in
  let g := upd g r (with_parent (Some right)) in
  NOk (upd g i (with_children (fun cs => left :: right :: skipn 2 cs))).
(** node.rs 122-141 *)
Definition simplify (i : nat) (g : fgraph) : nres fgraph :=
  do x <- at_ g i;
  match f_parent x with
  | None => NOk g
  | Some p =>
      do c <- at_ (f_children x) 0;
      do _ <- at_ g c;
      do _ <- at_ g p;
      let g := upd g c (with_parent (Some p)) in
      let g := upd g p (with_children (map (fun y => if y =? i then c else y))) in
      NOk (upd g i (fun n => with_parent None (with_children (fun _ => []) n)))
  end.
(** 104-145 *)
Definition sugar_at (i : nat) (g : fgraph) : nres fgraph :=
  do x <- at_ g i;
  do g <- match f_children x, x_binops (f_data x) with
          | [_], _ => match unop_name (f_kind x) with Some name => rewrite_unop i name g | None => NOk g end
          | [_; _], [b] => rewrite_binop i (binop_name b) g
          | _, _ => NOk g
          end;
  do x <- at_ g i;
  match f_children x with
  | [_] => if is_kind (f_kind x) K_Add || is_kind (f_kind x) K_Mul then simplify i g else NOk g
  | _ => NOk g
  end.
Definition sugar (g : fgraph) : nres fgraph := each sugar_at (seq 0 (length g)) g.

(** ** mod.rs 150-189: mutability becomes a part of the names of functions *)
Fixpoint find_kind (g : fgraph) (k : kind) (l : list nat) : nres (option nat) :=
  match l with
  | [] => NOk None
  | c :: l => do n <- at_ g c; if is_kind (f_kind n) k then NOk (Some c) else find_kind g k l
  end.
Definition is_arg (k : kind) : bool := is_kind k K_Arg || is_kind k K_CallArg.
Fixpoint mut_args (g : fgraph) (l : list nat) : nres (list bool) :=
  match l with
  | [] => NOk []
  | c :: l => do n <- at_ g c; do r <- mut_args g l; NOk (if is_arg (f_kind n) then x_mut (f_data n) :: r else r)
  end.
Definition mut_name (x : string) (l : list bool) : string :=
  (x ++ "(" ++ String.concat "," (map (fun b : bool => if b then "mut" else "_") l) ++ ")")%string.
Definition name_at (i : nat) (g : fgraph) : nres fgraph :=
  do x <- at_ g i;
  do go <- match f_kind x with
           | K_Fn | K_Call => NOk (Some g)
           | K_CallClosure =>
               match f_name x with
               | Some word =>
                   do it <- find_kind g K_Item (f_children x);
                   match it with
                   | None => NPanic
                   | Some it =>
                       do n <- at_ g it;
                       match f_children n with
                       | [] => match x_names (f_data n) with
                               | [] => NPanic
                               | y :: l => NOk (Some (upd g it (with_data (with_names ((y ++ "__" ++ word)%string :: l)))))
                               end
                       | _ => NOk (Some g)
                       end
                   end
               | None => NOk (Some g)
               end
           | _ => NOk None
           end;
  match go with
  | None => NOk g
  | Some g =>
      do x <- at_ g i;
      do ms <- mut_args g (f_children x);
      if existsb id ms then
        match f_name x with
        | None => NPanic
        | Some y => NOk (upd g i (with_data (with_names [mut_name y ms])))
        end
      else NOk g
  end.
Definition name_all (g : fgraph) : nres fgraph := each name_at (seq 0 (length g)) g.

(** ** mod.rs 272-339, 349-483: variables are linked to their declaration *)

(** 272-292: the item on the left of [:=], if [n] is such an assignment (filter of 277-281, item of 282-289, filter of 291) *)
Definition declared_item (g : fgraph) (n : fnode) : nres (option nat) :=
  match x_op (f_data n), f_children n with
  | Some OpAssign, l :: _ =>
      do ln <- at_ g l;
      match f_children ln with
      | it :: _ => do m <- at_ g it; NOk (if f_item_ids m then None else Some it)
      | [] => NOk None
      end
  | _, _ => NOk None
  end.
Fixpoint declared_items (g : fgraph) (l : fgraph) : nres (list nat) :=
  match l with
  | [] => NOk []
  | n :: l => do d <- declared_item g n; do r <- declared_items g l; NOk (match d with Some i => i :: r | None => r end)
  end.
(** 315-329 [mutated_locals]: the items are used in a later pass; here, what is read must be there *)
Fixpoint mutated_items (g l : fgraph) : nres unit :=
  match l with
  | [] => NOk tt
  | n :: l =>
      match x_op (f_data n) with
      | Some OpAssign | None => mutated_items g l
      | Some _ => do lf <- at_ (f_children n) 0; do ln <- at_ g lf; do _ <- at_ (f_children ln) 0; mutated_items g l
      end
  end.
Definition of_kind (g : fgraph) (p : kind -> bool) : list nat :=
  map fst (filter (fun x => p (f_kind (snd x))) (combine (seq 0 (length g)) g)).
(** 331-339. The search of 336 is a binary search, which only says something about a list that is sorted. *)
Fixpoint ascending (l : list nat) : bool := match l with a :: ((b :: _) as l') => (a <=? b) && ascending l' | _ => true end.
Definition used_items (g : fgraph) : nres (list nat) :=
  do l <- declared_items g g;
  if negb (ascending l) then NErr N_unsorted 0 else
  NOk (filter (fun i => negb (existsb (Nat.eqb i) l)) (of_kind g (fun k => is_kind k K_Item))).

(** 377-381: the children before [c] *)
Fixpoint before (c : nat) (l : list nat) : nres (list nat) :=
  match l with
  | [] => NPanic
  | x :: l => if x =? c then NOk [] else do r <- before c l; NOk (x :: r)
  end.
Definition same_name (a b : option string) : bool :=
  match a, b with Some a, Some b => (a =? b)%string | None, None => true | _, _ => false end.
(** 382-407: [js] are the children before, last one first *)
Fixpoint search_before (g : fgraph) (i : nat) (x : fnode) (grab : Z) (js : list nat) : nres (option nat) :=
  match js with
  | [] => NOk None
  | j :: js =>
      do n <- at_ g j;
      match f_children n with
      | [] => search_before g i x grab js
      | a :: _ =>
          do an <- at_ g a;
          match x_op (f_data an) with
          | Some OpAssign =>
              do lf <- at_ (f_children an) 0;
              do ln <- at_ g lf;
              do it <- at_ (f_children ln) 0;
              do m <- at_ g it;
              if same_name (f_name m) (f_name x) then
                if f_item_ids m then search_before g i x grab js
                else if (0 <? grab)%Z then NErr N_grab_variable i
                else NOk (Some it)
              else search_before g i x grab js
          | _ => search_before g i x grab js
          end
      end
  end.
(** 423-439, 459-469: the argument or current object with the name *)
Fixpoint search_args (g : fgraph) (x : fnode) (js : list nat) : nres (option nat) :=
  match js with
  | [] => NOk None
  | j :: js =>
      do n <- at_ g j;
      if (is_kind (f_kind n) K_Arg || is_kind (f_kind n) K_Current) then
        match f_name n with
        | None => search_args g x js
        | Some y => match f_name x with
                    | None => NPanic
                    | Some z => if (y =? z)%string then NOk (Some j) else search_args g x js
                    end
        end
      else search_args g x js
  end.
(** 449-481 *)
Definition from_args (g : fgraph) (i : nat) (x : fnode) (parent : nat) : nres nat :=
  do p <- at_ g parent;
  if negb (is_kind (f_kind p) K_Fn || is_kind (f_kind p) K_Closure) then NPanic
  else match f_name x with
       | None => NPanic
       | Some _ => do r <- search_args g x (f_children p);
                   match r with Some j => NOk j | None => NErr N_declaration i end
       end.
(** 356-445 *)
Fixpoint search (fuel : nat) (g : fgraph) (i : nat) (x : fnode) (child parent : nat) (grab : Z) : nres nat :=
  match fuel with
  | 0 => NOof
  | S fuel =>
      do p <- at_ g parent;
      do here <- (if is_decl_loop (f_kind p) || is_decl_un_loop (f_kind p) || is_in_loop (f_kind p) then
                    match f_name x with
                    | None => NPanic
                    | Some y => NOk (existsb (String.eqb y) (x_names (f_data p)))
                    end
                  else NOk false);
      if here : bool then NOk parent
      else
        do l <- before child (f_children p);
        do r <- search_before g i x grab (rev l);
        match r with
        | Some it => NOk it
        | None =>
            match f_parent p with
            | None => from_args g i x parent
            | Some q =>
                do qn <- at_ g q;
                let grab := if is_kind (f_kind qn) K_Grab then (if x_grab (f_data qn) =? 0 then 1 else x_grab (f_data qn))%Z else grab in
                if is_kind (f_kind qn) K_Closure then
                  if (grab =? 0)%Z then from_args g i x q
                  else
                    do r <- search_args g x (f_children qn);
                    match r with
                    | Some _ => NErr N_grab_argument i
                    | None => search fuel g i x parent q (grab - 1)%Z
                    end
                else search fuel g i x parent q grab
            end
        end
  end.
(** 350-483 *)
Definition link_item (i : nat) (g : fgraph) : nres fgraph :=
  do x <- at_ g i;
  match f_name x with
  | Some "return" => NOk g
  | _ =>
      match f_parent x with
      | None => NPanic
      | Some p => do d <- search (S (length g)) g i x i p 0%Z; NOk (upd g i (with_decl d))
      end
  end.

(** ** mod.rs 341-347, 485-521: ranges that can not be inferred *)
Fixpoint under_index (fuel : nat) (g : fgraph) (ch : nat) : nres bool :=
  match fuel with
  | 0 => NOof
  | S fuel =>
      do n <- at_ g ch;
      match f_parent n with
      | None => NOk false
      | Some p =>
          do pn <- at_ g p;
          match f_kind pn with
          | K_Id => NOk true
          | K_Val | K_Expr => under_index fuel g p
          | K_Mul | K_Add => if 1 <? length (f_children pn) then NOk false else under_index fuel g p
          | _ => NOk false
          end
      end
  end.
Fixpoint used_as_index (g : fgraph) (loop : nat) (name : string) (items : list nat) : nres bool :=
  match items with
  | [] => NOk false
  | i :: items =>
      do n <- at_ g i;
      if match f_decl n with Some d => d =? loop | None => false end && same_name (f_name n) (Some name) then
        do b <- under_index (S (length g)) g i; if b : bool then NOk true else used_as_index g loop name items
      else used_as_index g loop name items
  end.
Fixpoint ranges_names (g : fgraph) (loop : nat) (items : list nat) (l : list string) : nres unit :=
  match l with
  | [] => NOk tt
  | x :: l => do b <- used_as_index g loop x items; if b : bool then ranges_names g loop items l else NErr N_range loop
  end.
Fixpoint ranges (g : fgraph) (items l : list nat) : nres unit :=
  match l with
  | [] => NOk tt
  | i :: l =>
      do n <- at_ g i;
      do e <- find_kind g K_End (f_children n);
      match e with
      | Some _ => ranges g items l
      | None => do _ <- ranges_names g i items (x_names (f_data n)); ranges g items l
      end
  end.

(** ** mod.rs 523-606: arguments and extra signatures of functions *)
Definition args_of (g : fgraph) (f : fnode) : list nat :=
  filter (fun c => match nth_error g c with Some n => is_kind (f_kind n) K_Arg | None => false end) (f_children f).
(** 524-544 *)
Fixpoint distinct_args (g : fgraph) (seen : list string) (l : list nat) : nres unit :=
  match l with
  | [] => NOk tt
  | c :: l =>
      do n <- at_ g c;
      match f_name n with
      | None => NPanic
      | Some x => if existsb (String.eqb x) seen then NErr N_dup_argument c else distinct_args g (x :: seen) l
      end
  end.
(** 567-569: [while nodes[nodes[f].children[arg]].kind != Kind::Arg { arg += 1; }] *)
Fixpoint next_arg (fuel : nat) (g : fgraph) (f : fnode) (arg : nat) : nres nat :=
  match fuel with
  | 0 => NOof
  | S fuel =>
      do c <- at_ (f_children f) arg;
      do n <- at_ g c;
      if is_kind (f_kind n) K_Arg then NOk arg else next_arg fuel g f (S arg)
  end.
(** 561-596, with the counters [count] and [arg] *)
Fixpoint sig_types (g : fgraph) (f : fnode) (n : nat) (ret : ty) (count arg : nat) (l : list nat) : nres nat :=
  match l with
  | [] => NOk count
  | c :: l =>
      do m <- at_ g c;
      match f_kind m with
      | K_TyArg =>
          if arg <? n then
            do arg <- match x_ty (f_data m) with
                      | None => NOk arg
                      | Some t =>
                          do arg <- next_arg (S (length (f_children f))) g f arg;
                          if arg <? n then
                            do c' <- at_ (f_children f) arg;
                            do an <- at_ g c';
                            match x_ty (f_data an) with
                            | Some p => if goes_with p t then NOk arg else NErr N_sig_type c
                            | None => NOk arg
                            end
                          else NOk arg
                      end;
            sig_types g f n ret (S count) (S arg) l
          else sig_types g f n ret (S count) arg l
      | K_TyRet =>
          match x_ty (f_data m) with
          | Some t => if goes_with ret t then sig_types g f n ret count arg l else NErr N_sig_type c
          | None => sig_types g f n ret count arg l
          end
      | _ => sig_types g f n ret count arg l
      end
  end.
Fixpoint sigs_fit (g : fgraph) (f : fnode) (n : nat) (ret : ty) (l : list nat) : nres unit :=
  match l with
  | [] => NOk tt
  | c :: l =>
      do m <- at_ g c;
      if is_kind (f_kind m) K_Ty then
        do count <- sig_types g f n ret 0 0 (f_children m);
        if count =? n then sigs_fit g f n ret l else NErr N_sig_count c
      else sigs_fit g f n ret l
  end.
(** 546-606 for one function *)
Definition sig_check (g : fgraph) (f : fnode) : nres unit :=
  match x_ty (f_data f) with
  | None => NOk tt
  | Some TVoid => do c <- find_kind g K_Ty (f_children f); match c with Some c => NErr N_sig_void c | None => NOk tt end
  | Some t => sigs_fit g f (length (args_of g f)) t (f_children f)
  end.
Fixpoint for_all (f : fnode -> nres unit) (g : fgraph) (l : list nat) : nres unit :=
  match l with [] => NOk tt | i :: l => do n <- at_ g i; do _ <- f n; for_all f g l end.

(** ** mod.rs 608-619: names of functions *)
Fixpoint distinct_functions (g : fgraph) (seen : list string) (l : list nat) : nres unit :=
  match l with
  | [] => NOk tt
  | i :: l =>
      do n <- at_ g i;
      match f_name n with
      | None => NPanic
      | Some x => if existsb (String.eqb x) seen then NErr N_dup_function i else distinct_functions g (x :: seen) l
      end
  end.
(** [function_lookup] and [functions] *)
Fixpoint function_named (g : fgraph) (x : string) (l : list nat) : option nat :=
  match l with
  | [] => None
  | i :: l => match nth_error g i with
              | Some n => if same_name (f_name n) (Some x) then Some i else function_named g x l
              | None => function_named g x l
              end
  end.

(** ** mod.rs 635-707: calls are linked to functions *)

(** [Prelude] and [UseLookup]: the constraints of the functions outside of the file *)
Record outside := Outside { o_fun : string -> option (list lt); o_alias : string -> string -> option (list lt) }.
(** 637-657 *)
Definition is_sw_kind (k : kind) : bool := match k with K_Sw0 | K_Sw1 | K_Sw2 | K_Sw3 => true | _ => false end.
Fixpoint count_kind (g : fgraph) (p : kind -> bool) (l : list nat) : nres nat :=
  match l with
  | [] => NOk 0
  | c :: l => do n <- at_ g c; do k <- count_kind g p l; NOk (if p (f_kind n) then S k else k)
  end.
Fixpoint count_args (g : fgraph) (l : list nat) : nres nat :=
  match l with
  | [] => NOk 0
  | c :: l =>
      do n <- at_ g c;
      if is_kind (f_kind n) K_CallArg then
        do sw <- find_kind g K_Swizzle (f_children n);
        do k <- match sw with
                | Some s => do m <- at_ g s; count_kind g is_sw_kind (f_children m)
                | None => NOk 1
                end;
        do r <- count_args g l;
        NOk (k + r)
      else count_args g l
  end.
(** 636-707 for one call; [fs] are the functions of the file *)
Definition link_call (K : outside) (fs : list nat) (c : nat) (g : fgraph) : nres fgraph :=
  do x <- at_ g c;
  do n <- count_args g (f_children x);
  match f_name x with
  | None => NPanic
  | Some name =>
      match x_alias (f_data x) with
      | Some a => match o_alias K a name with
                  | Some l => NOk (upd g c (with_lts l))
                  | None => NErr N_alias c
                  end
      | None =>
          match function_named g name fs with
          | Some f => do fn <- at_ g f;
                      if length (args_of g fn) =? n then NOk (upd g c (with_decl f)) else NErr N_count c
          | None =>
              match o_fun K name with
              | Some l => if length l =? n then NOk (upd g c (with_lts l)) else NErr N_count c
              | None => NErr N_function c
              end
          end
      end
  end.
(** 709-742 *)
Definition link_in (K : outside) (fs : list nat) (c : nat) (g : fgraph) : nres fgraph :=
  do x <- at_ g c;
  match f_name x with
  | None => NPanic
  | Some name =>
      match x_alias (f_data x) with
      | Some a => match o_alias K a name with
                  | Some l => NOk (upd g c (with_lts l))
                  | None => NErr N_alias c
                  end
      | None => match function_named g name fs, o_fun K name with
                | None, None => NErr N_function c
                | _, _ => NOk g
                end
      end
  end.

(** ** mod.rs 40-742 *)
Definition linked (K : outside) (g : fgraph) : nres fgraph :=
  do g <- name_all g;
  let fs := of_kind g (fun k => is_kind k K_Fn) in
  let calls := of_kind g (fun k => is_kind k K_Call) in
  let ins := of_kind g (fun k => is_kind k K_In) in
  let loops := of_kind g is_decl_loop in
  do _ <- mutated_items g g;
  do items <- used_items g;
  do g <- each link_item items g;
  do _ <- ranges g items loops;
  do _ <- for_all (fun f => distinct_args g [] (args_of g f)) g fs;
  do _ <- for_all (sig_check g) g fs;
  do _ <- distinct_functions g [] fs;
  do g <- each (link_call K fs) calls g;
  each (link_in K fs) ins g.
Definition front (P : type_parser) (sort : fgraph -> fgraph) (K : outside) (ms : list meta) : nres fgraph :=
  do g <- convert P ms;
  do g <- nest g;
  do g <- sugar g;
  linked K (sort g).
