(** * Values and abstract syntax of Dyon.

    Model of [Variable] (/repo/src/lib.rs 194-233) and of the run-time part of the syntax tree
    (/repo/src/ast/mod.rs). Source ranges, file names, source texts and types are left out. *)
From Coq Require Import String List ZArith Bool.
From Verif Require Import Float64.
Import ListNotations.
Local Open Scope list_scope.

(** 4D vectors and matrices of [f32]. *)
Record vec4 := V4 { vx : f32; vy : f32; vz : f32; vw : f32 }.
Record mat4 := M4 { mx : vec4; my : vec4; mz : vec4; mw : vec4 }.

(** Elements of links; [LinkModel.v] justifies links as lists of these. *)
Inductive lelem := LBool (b : bool) | LF64 (x : f64) | LStr (s : string).

(** One step into an object or array. *)
Inductive step := SKey (k : string) | SIdx (i : nat).

(** ast/mod.rs 3399-3418 [AssignOp] *)
Inductive assign_op := OpAssign | OpSet | OpAdd | OpSub | OpMul | OpDiv | OpRem | OpPow.

(** What a call refers to: [FnIndex] (lib.rs 341-370) with function pointers replaced by names.
    The lazy invariants of an external function are looked up in the environment. *)
Inductive callee :=
| FNone
| FLoaded (rel : Z)
| FVoid (f : string) | FRet (f : string) | FLazy (f : string)
| FBin (f : string) | FUn (f : string).

(** The loops that share one syntax node [ForN]/[ForIn] (ast/mod.rs 1041-1120). *)
Inductive loopk :=
| KFor | KSum | KProd | KMin | KMax | KSift | KAny | KAll | KLink | KSumVec4 | KProdVec4.

Inductive value : Type :=
| VRef (i : nat)
| VReturn
| VBool (b : bool) (sec : option (list value))
| VF64 (x : f64) (sec : option (list value))
| VVec4 (v : vec4)
| VMat4 (m : mat4)
| VStr (s : string)
| VArray (l : list value)
(** [HashMap]: association list, keys unique. *)
| VObject (l : list (string * value))
| VLink (l : list lelem)
(** A raw pointer to a variable inside a stack slot. *)
| VUnsafeRef (root : nat) (path : list step)
(** A shared foreign object, identified by a number. *)
| VRust (id : nat)
| VNone | VSome (v : value)
| VOk (v : value)
| VErr (msg : value) (trace : list string)
(** Thread handle; [None] once the handle was taken. *)
| VThread (t : option nat)
(** Closure with its environment (module, relative function index), lib.rs 172-183. *)
| VClosure (c : closure) (md : nat) (rel : nat)
(** Receiving end of a channel. *)
| VIn (ch : nat)

with expr : Type :=
| ELink (items : list expr)
| EObject (kvs : list (string * expr))
| EArray (items : list expr)
| EArrayFill (fill n : expr)
| EReturn (e : expr)
| EReturnVoid
| EBreak (l : option string)
| EContinue (l : option string)
| EBlock (b : list expr)
| EGo (name : string) (args : list expr)
(** [Call], [CallVoid], [CallReturn], [CallBinOp], [CallUnOp], [CallLazy], [CallLoaded]. *)
| ECall (f : callee) (name : string) (args : list expr)
| EItem (it : item)
| EAssign (op : assign_op) (left right : expr)
| EVec4 (args : list expr)
| EMat4 (args : list expr)
| EFor (label : option string) (init cond step : expr) (body : list expr)
| EForN (k : loopk) (label : option string) (name : string) (start : option expr) (stop : expr)
        (body : list expr)
| EForIn (k : loopk) (label : option string) (name : string) (iter : expr) (body : list expr)
| EIf (cond : expr) (tb : list expr) (conds : list expr) (blocks : list (list expr))
      (eb : option (list expr))
| EVar (v : value)
| ETry (e : expr)
(** The two to four component numbers. *)
| ESwizzle (inds : list nat) (e : expr)
| EClosure (c : closure)
| ECallClosure (it : item) (args : list expr)
| EGrab (level : nat) (e : expr)
| ETryExpr (e : expr)
| EIn (f : callee)

(** ast/mod.rs 2313-2338: name, [static_stack_id], current, try_flag, ids, try_ids.
    The cache [stack_id] of the debug build is left out. *)
with item : Type :=
| Item (name : string) (sid : option nat) (current tryf : bool) (ids : list idx)
       (try_ids : list nat)

(** ast/mod.rs 2274-2281 [Id] *)
with idx : Type :=
| IdStr (s : string)
| IdF64 (x : f64)
| IdExpr (e : expr)

(** ast/mod.rs 545-560: argument names, names of current objects, body.
    [ret] is always [Type::Any] after parsing (600-606), so a closure always returns. *)
with closure : Type :=
| Closure (args : list string) (currents : list string) (body : expr).

(** ast/mod.rs 804-815 *)
Inductive lazy := LzVar (v : value) | LzOk | LzErr | LzSome.

(** ast/mod.rs 330-357 [Function]: argument names, lazy invariants, current objects, block,
    and whether the return type is not void. *)
Record func := Func {
  fn_name : string;
  fn_args : list string;
  fn_lazy : list (list lazy);
  fn_currents : list string;
  fn_block : list expr;
  fn_ret : bool }.

Definition vf64 (x : f64) : value := VF64 x None.
Definition vbool (b : bool) : value := VBool b None.
