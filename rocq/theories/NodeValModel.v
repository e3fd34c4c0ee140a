(** * The nodes of the checker as values of Dyon.

    Model of [to_array] (src/lifetime/mod.rs 1200-1257), of [check_str] (src/lib.rs 591-608) and of the end of
    [check__in_string_imports] (src/dyon_std/mod.rs 1347-1358, 1396-1407 for [_usetr]).

    The objects are made with [push_var] of [EmbedModel.v]. The order of the keys of an object is not that of the
    hash map. The text of the error message is a parameter. *)
From Coq Require Import String List ZArith Bool Arith.
From Verif Require Import Float64 Syntax InterpModel EmbedModel.
From Verif Require Import TypeModel LifetimeModel TypecheckModel NodesModel LivesModel TypedSpec.
From Verif Require TypeTextModel.
Import ListNotations.
Local Open Scope string_scope.
Local Open Scope nat_scope.
Local Open Scope list_scope.

(** [Debug] of [Kind] (lifetime/kind.rs 1-122, derived): the name of the variant *)
Definition kind_text (k : kind) : string :=
  match k with
  | K_Ns => "Ns" | K_Uses => "Uses" | K_Use => "Use" | K_Fn => "Fn" | K_Arg => "Arg" | K_Current => "Current"
  | K_Block => "Block" | K_Expr => "Expr" | K_Add => "Add" | K_Mul => "Mul" | K_Pow => "Pow" | K_Val => "Val"
  | K_Call => "Call" | K_CallArg => "CallArg" | K_Assign => "Assign" | K_Left => "Left" | K_Right => "Right"
  | K_Item => "Item" | K_ItemExtra => "ItemExtra" | K_Return => "Return" | K_Object => "Object" | K_Array => "Array"
  | K_ArrayItem => "ArrayItem" | K_ArrayFill => "ArrayFill" | K_Fill => "Fill" | K_N => "N"
  | K_KeyValue => "KeyValue" | K_For => "For" | K_ForN => "ForN" | K_ForIn => "ForIn" | K_Sum => "Sum"
  | K_SumIn => "SumIn" | K_SumVec4 => "SumVec4" | K_Prod => "Prod" | K_ProdIn => "ProdIn" | K_ProdVec4 => "ProdVec4"
  | K_Min => "Min" | K_MinIn => "MinIn" | K_Max => "Max" | K_MaxIn => "MaxIn" | K_Sift => "Sift"
  | K_SiftIn => "SiftIn" | K_Any => "Any" | K_AnyIn => "AnyIn" | K_All => "All" | K_AllIn => "AllIn"
  | K_Vec4UnLoop => "Vec4UnLoop" | K_Start => "Start" | K_End => "End" | K_Init => "Init" | K_Cond => "Cond"
  | K_Iter => "Iter" | K_ElseIfCond => "ElseIfCond" | K_ElseIfBlock => "ElseIfBlock" | K_Step => "Step"
  | K_Compare => "Compare" | K_If => "If" | K_TrueBlock => "TrueBlock" | K_ElseBlock => "ElseBlock"
  | K_Loop => "Loop" | K_Id => "Id" | K_Break => "Break" | K_Continue => "Continue" | K_Norm => "Norm"
  | K_Not => "Not" | K_Neg => "Neg" | K_Vec4 => "Vec4" | K_X => "X" | K_Y => "Y" | K_Z => "Z" | K_W => "W"
  | K_Mat4 => "Mat4" | K_EX => "EX" | K_EY => "EY" | K_EZ => "EZ" | K_EW => "EW" | K_Type => "Type" | K_Arr => "Arr"
  | K_Opt => "Opt" | K_Res => "Res" | K_RetType => "RetType" | K_ReturnVoid => "ReturnVoid" | K_Go => "Go"
  | K_Swizzle => "Swizzle" | K_Sw0 => "Sw0" | K_Sw1 => "Sw1" | K_Sw2 => "Sw2" | K_Sw3 => "Sw3" | K_Link => "Link"
  | K_LinkFor => "LinkFor" | K_LinkIn => "LinkIn" | K_LinkItem => "LinkItem" | K_Closure => "Closure"
  | K_CallClosure => "CallClosure" | K_ClosureType => "ClosureType" | K_ClArg => "ClArg" | K_ClRet => "ClRet"
  | K_Grab => "Grab" | K_TryExpr => "TryExpr" | K_In => "In" | K_Ty => "Ty" | K_TyArg => "TyArg" | K_TyRet => "TyRet"
  end.
(** [Debug] of [AssignOp] (ast/mod.rs 3397-3416, derived) *)
Definition op_text (o : assign_op) : string :=
  match o with
  | OpAssign => "Assign" | OpSet => "Set" | OpAdd => "Add" | OpSub => "Sub" | OpMul => "Mul" | OpDiv => "Div" | OpRem => "Rem" | OpPow => "Pow"
  end.
(** [Debug] of [Lt] (prelude.rs 12-25, derived) *)
Definition lt_text (l : lt) : string :=
  match l with LtArg i => ("Arg(" ++ TypeTextModel.decimal i ++ ")")%string | LtReturn => "Return" | LtDefault => "Default" end.

(** What the nodes of [NodesModel.v] leave out: the range in the source (node.rs 27-28) and the indices in the meta data
    (33-36). *)
Record place := Place { p_offset : Z; p_length : Z; p_start : Z; p_end : Z }.
Definition opt_rval {A} (f : A -> rval) (o : option A) : rval := match o with Some x => RSome (f x) | None => RNone end.
Definition index (i : nat) : rval := RInt (Z.of_nat i).
(** 1225-1227; [None]: [description] panics *)
Definition type_rval (o : option ty) : option rval :=
  match o with
  | None => Some RNone
  | Some t => match TypeTextModel.description t with Some d => Some (RSome (RStr d)) | None => None end
  end.
(** 1220-1252 *)
Definition node_rval (n : fnode) (p : place) : option rval :=
  let d := f_data n in
  match type_rval (x_ty d) with
  | None => None
  | Some t =>
      Some (RObj [
        ("kind", RStr (kind_text (x_kind d)));
        ("children", RList (map index (f_children n)));
        ("names", RList (map RStr (x_names d)));
        ("parent", opt_rval index (f_parent n));
        ("ty", t);
        ("alias", opt_rval RStr (x_alias d));
        ("mutable", RBool (x_mut d));
        ("try", RBool (x_try d));
        ("grab_level", RInt (x_grab d));
        ("source_offset", RInt (p_offset p));
        ("source_length", RInt (p_length p));
        ("start", RInt (p_start p));
        ("end", RInt (p_end p));
        ("lifetime", opt_rval RStr (x_lifetime d));
        ("declaration", opt_rval index (f_decl n));
        ("op", opt_rval (fun o => RStr (op_text o)) (x_op d));
        ("lts", RList (map (fun l => RStr (lt_text l)) (f_lts n)))])
  end.
(** 1219-1256 *)
Fixpoint to_array (l : list (fnode * place)) : option (list value) :=
  match l with
  | [] => Some []
  | (n, p) :: l =>
      match node_rval n p with
      | None => None
      | Some r => match to_array l with Some vs => Some (push_var r :: vs) | None => None end
      end
  end.

(** The nodes when the check of a file ends: with the types that were found, or as they were for the checks of lifetimes.
    [None]: after the other errors, nodes that are not modelled. *)
Definition retyped (g : fgraph) (h : graph) : fgraph :=
  map (fun x => match x with (n, m) =>
    let d := f_data n in
    FNode (Data (x_kind d) (x_alias d) (x_names d) (g_ty m) (x_mut d) (x_try d) (x_grab d) (x_lifetime d) (x_op d) (x_binops d))
      (f_parent n) (f_children n) (f_decl n) (f_lts n) end) (combine g h).
Definition check_nodes (P : type_parser) (sort : fgraph -> fgraph) (O : outside) (K : known) (rounds fuel : nat) (ms : list meta) : option fgraph :=
  match front P sort O ms with
  | NOk g =>
      match check_lives fuel g with
      | XOk _ => match typecheck K rounds fuel (checked g) with TOk h => Some (retyped g h) | _ => None end
      | XErr _ _ => Some g
      | _ => None
      end
  | _ => None
  end.
(** lib.rs 591-608 and dyon_std/mod.rs 1347-1358: [parsed] is whether the text can be parsed, [l] the nodes when the check ends,
    which is not asked for its result. [None]: a panic. *)
Definition check_value (message : string) (parsed : bool) (l : list (fnode * place)) : option value :=
  if parsed then match to_array l with Some vs => Some (VOk (VArray vs)) | None => None end
  else Some (VErr (VStr message) []).
