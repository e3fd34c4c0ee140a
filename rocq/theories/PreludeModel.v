(** * The standard library of a new module.

    Model of /repo/src/module.rs 70-772 [Module::new]: every function with its declared lifetimes, types and lazy invariants;
    of src/prelude.rs 93-146 [Prelude::from_module]; and of those functions of src/dyon_std/mod.rs that StdModel.v does not
    have: vectors, matrices, links, numbers, texts. Definitions only.

    Simplifications:
    - trigonometry and the like, [vecmath]'s dot product, length, determinant and inverse, and [trim], [chars], [parse] of Rust
      are oracles;
    - printing and sleeping have no effect on the state;
    - not modelled ([IOther]): functions that read from outside (files, network, terminal, clock, random numbers, arguments of
      the process), that load, check, list or call functions of modules, that wait for threads or channels, and those that
      write values as text;
    - all features are on. *)
From Coq Require Import String Ascii List ZArith NArith Bool Floats.SpecFloat.
From Verif Require Import Float64 Syntax InterpModel StdModel ColorModel TypeModel LifetimeModel TypecheckModel.
Import ListNotations.
Local Open Scope string_scope.
Local Open Scope nat_scope.
Local Open Scope list_scope.

Record libm := Libm {
  l_sqrt : f64 -> f64; l_sin : f64 -> f64; l_asin : f64 -> f64; l_cos : f64 -> f64; l_acos : f64 -> f64; l_tan : f64 -> f64;
  l_atan : f64 -> f64; l_atan2 : f64 -> f64 -> f64; l_exp : f64 -> f64; l_ln : f64 -> f64; l_log2 : f64 -> f64;
  l_log10 : f64 -> f64; l_round : f64 -> f64; l_floor : f64 -> f64; l_ceil : f64 -> f64; l_pi : f64; l_tau : f64;
  l_dot : vec4 -> vec4 -> f32; l_len : vec4 -> f32; l_det : mat4 -> f32; l_inv : mat4 -> mat4;
  l_trim : string -> string; l_trim_left : string -> string; l_trim_right : string -> string;
  l_parse : string -> option f64; l_chars : string -> list string }.

(** ** Declarations *)

(** prelude.rs 31-44 [Dfn] *)
Record decl := Decl { p_lts : list lt; p_tys : list ty; p_ret : ty; p_ext : list sig; p_lazy : list (list lazy) }.
(** lib.rs 82-88 *)
Definition LAZY_UNWRAP_OR : list (list lazy) := [[LzOk; LzSome]].
Definition LAZY_AND : list (list lazy) := [[LzVar (vbool false)]].
Definition LAZY_OR : list (list lazy) := [[LzVar (vbool true)]].
Definition LAZY_NO : list (list lazy) := [].
(** prelude.rs 48-56 [Dfn::nl] *)
Definition nl (args : list ty) (ret : ty) : decl := Decl (map (fun _ => LtDefault) args) args ret [] LAZY_NO.
(** ty.rs 54-65 [Type::all_ext] *)
Definition all_ext (args : list ty) (ret : ty) : sig := mkSig ["T"] (map (TAdHoc "T") args) (TAdHoc "T" ret).

(** lib.rs [FnExt]: how the function is called *)
Inductive impl :=
| IBin (f : value -> value -> pres)
| IUn (f : value -> pres)
| IRet (f : M value)
| IVoid (f : M unit)
| IOther.
(** lib.rs [FnExternal] *)
Record entry := Entry { e_name : string; e_impl : impl; e_decl : decl }.

(** ** Functions *)

(** [rt.pop()] for one type (runtime/mod.rs 396-402, embed.rs [pop_var]) *)
Definition arg {A} (f : value -> option A) : M A :=
  v <- pop ;; x <- getv v ;; match f x with Some a => ret a | None => fail "Expected" end.
(** [rt.pop().expect(TINVOTS)] *)
Definition arg_expect {A} (f : value -> option A) : M A :=
  v <- pop ;; x <- getv v ;; match f x with Some a => ret a | None => panic "There is no value on the stack" end.
Definition as_f64 (v : value) : option f64 := match v with VF64 x _ => Some x | _ => None end.
Definition as_vec4 (v : value) : option vec4 := match v with VVec4 x => Some x | _ => None end.
Definition as_mat4 (v : value) : option mat4 := match v with VMat4 x => Some x | _ => None end.
Definition as_str (v : value) : option string := match v with VStr x => Some x | _ => None end.
Definition as_link (v : value) : option (list lelem) := match v with VLink x => Some x | _ => None end.

Section Library.
Variables (O : math) (L : libm) (n : nat).

(** dyon_std/mod.rs 298-308 *)
Definition dot (a b : value) : pres :=
  match a, b with
  | VVec4 x, VVec4 y => POk (vf64 (f64_of_f32 (l_dot L x y)))
  | VVec4 x, VF64 y _ | VF64 y _, VVec4 x =>
      let y := f32_of_f64 y in
      POk (vf64 (f64_of_f32 (gadd (gadd (gadd (gmul (vx x) y) (gmul (vy x) y)) (gmul (vz x) y)) (gmul (vw x) y))))
  | _, _ => PErr "Expected (vec4, vec4), (vec4, f64) or (f64, vec4)"
  end.
(** 309-313 *)
Definition cross : M value :=
  b <- arg as_vec4 ;; a <- arg as_vec4 ;;
  ret (VVec4 (V4 (gsub (gmul (vy a) (vz b)) (gmul (vz a) (vy b)))
                 (gsub (gmul (vz a) (vx b)) (gmul (vx a) (vz b)))
                 (gsub (gmul (vx a) (vy b)) (gmul (vy a) (vx b))) f0)).
(** 315-318 *)
Definition component (f : vec4 -> f32) : M value := v <- arg as_vec4 ;; ret (vf64 (f64_of_f32 (f v))).
(** 320-326 *)
Definition norm (v : value) : pres := match v with VVec4 v => POk (vf64 (f64_of_f32 (l_len L v))) | _ => PErr "Expected `vec4`" end.
(** 328-336, 407-415, 422-430: the index, then the other argument; [expect] on both *)
Definition indexed {A} (f : value -> option A) (k : A -> nat -> value) : M value :=
  ind <- arg_expect as_f64 ;;
  if (4 <=? f64_to_usize ind)%Z then fail "Index out of bounds" else
  x <- arg_expect f ;; ret (k x (Z.to_nat (f64_to_usize ind))).
(** the component with an index below 4 *)
Definition comp (v : vec4) (i : nat) : f32 := match i with 0 => vx v | 1 => vy v | 2 => vz v | _ => vw v end.
(** 328-336 *)
Definition s_ : M value := indexed as_vec4 (fun v i => vf64 (f64_of_f32 (comp v i))).
(** 338-339 *)
Definition det : M value := m <- arg as_mat4 ;; ret (vf64 (f64_of_f32 (l_det L m))).
Definition inv : M value := m <- arg as_mat4 ;; ret (VMat4 (l_inv L m)).
Definition g1 : f32 := g_of_Z 1.
(** 340-345 *)
Definition mov : M value :=
  v <- arg as_vec4 ;;
  ret (VMat4 (M4 (V4 g1 f0 f0 f0) (V4 f0 g1 f0 f0) (V4 f0 f0 g1 f0) (V4 (vx v) (vy v) (vz v) g1))).
(** 346-372 *)
Definition rot__axis_angle : M value :=
  ang <- arg as_f64 ;; axis <- arg as_vec4 ;;
  let x := f64_of_f32 (vx axis) in let y := f64_of_f32 (vy axis) in let z := f64_of_f32 (vz axis) in
  let cos := l_cos L ang in let sin := l_sin L ang in let inv_cos := fsub f1 cos in
  let diag a := f32_of_f64 (fadd cos (fmul (fmul a a) inv_cos)) in
  let plus a b c := f32_of_f64 (fadd (fmul (fmul a b) inv_cos) (fmul c sin)) in
  let minus a b c := f32_of_f64 (fsub (fmul (fmul a b) inv_cos) (fmul c sin)) in
  ret (VMat4 (M4 (V4 (diag x) (minus x y z) (plus x z y) f0)
                 (V4 (plus y x z) (diag y) (minus y z x) f0)
                 (V4 (minus z x y) (plus z y x) (diag z) f0)
                 (V4 f0 f0 f0 g1))).
(** 373-381 *)
Definition ortho__pos_right_up_forward : M value :=
  forward <- arg as_vec4 ;; up <- arg as_vec4 ;; right <- arg as_vec4 ;; pos <- arg as_vec4 ;;
  ret (VMat4 (M4 (V4 (vx right) (vx up) (vx forward) f0) (V4 (vy right) (vy up) (vy forward) f0)
                 (V4 (vz right) (vz up) (vz forward) f0)
                 (V4 (fneg (l_dot L right pos)) (fneg (l_dot L up pos)) (fneg (l_dot L forward pos)) g1))).
(** 382-390 *)
Definition proj__fov_near_far_ar : M value :=
  ar <- arg as_f64 ;; far <- arg as_f64 ;; near <- arg as_f64 ;; fov <- arg as_f64 ;;
  let f := fdiv f1 (l_tan L (fmul fov (l_pi L))) in
  ret (VMat4 (M4 (V4 (f32_of_f64 (fdiv f ar)) f0 f0 f0) (V4 f0 (f32_of_f64 f) f0 f0)
                 (V4 f0 f0 (f32_of_f64 (fdiv (fadd far near) (fsub near far))) (fneg g1))
                 (V4 f0 f0 (f32_of_f64 (fdiv (fmul (fmul (f_of_Z 2) far) near) (fsub near far))) f0))).
(** 391-394 *)
Definition mvp__model_view_projection : M value :=
  p <- arg as_mat4 ;; v <- arg as_mat4 ;; m <- arg as_mat4 ;; ret (VMat4 (o_matmul O (o_matmul O p v) m)).
(** 395-400 *)
Definition scale : M value :=
  v <- arg as_vec4 ;;
  ret (VMat4 (M4 (V4 (vx v) f0 f0 f0) (V4 f0 (vy v) f0 f0) (V4 f0 f0 (vz v) f0) (V4 f0 f0 f0 g1))).
(** 402-405: `m.0[k]` is a column *)
Definition row (f : vec4 -> f32) (m : mat4) : vec4 := V4 (f (mx m)) (f (my m)) (f (mz m)) (f (mw m)).
Definition row_ (f : vec4 -> f32) : M value := m <- arg as_mat4 ;; ret (VVec4 (row f m)).
(** 407-415 *)
Definition rv : M value := indexed as_mat4 (fun m i => VVec4 (row (fun c => comp c i) m)).
(** 417-420 *)
Definition col_ (f : mat4 -> vec4) : M value := m <- arg as_mat4 ;; ret (VVec4 (f m)).
(** 422-430: the whole matrix *)
Definition cv : M value := indexed as_mat4 (fun m _ => VMat4 m).
(** 564-579 *)
Definition num (f : f64 -> f64) : M value := x <- arg as_f64 ;; ret (vf64 (f x)).
Definition atan2 : M value := x <- arg as_f64 ;; y <- arg as_f64 ;; ret (vf64 (l_atan2 L y x)).
(** 581-588, without the waiting *)
Definition sleep : M unit := _ <- arg as_f64 ;; ret tt.
(** 526-562, without the printing *)
Definition print_ : M unit := _ <- pop ;; ret tt.
(** link.rs 28-45 [Variable] of an element *)
Definition elem (x : lelem) : value := match x with LBool b => vbool b | LF64 x => vf64 x | LStr s => VStr s end.
Definition opt (x : option lelem) : value := match x with Some x => VSome (elem x) | None => VNone end.
(** 590-628, with the operations of link.rs on the list of elements (see LinkSpec.v) *)
Definition head : M value := l <- arg as_link ;; ret (opt (hd_error l)).
Definition tip : M value := l <- arg as_link ;; ret (opt (hd_error (rev l))).
Definition tail : M value := l <- arg as_link ;; ret (VLink (tl l)).
Definition neck : M value := l <- arg as_link ;; ret (VLink (removelast l)).
Definition is_empty : M value := l <- arg as_link ;; ret (vbool (match l with [] => true | _ => false end)).
(** 638 *)
Definition tau : M value := ret (vf64 (l_tau L)).
(** 961-964 *)
Definition parse_number : M value := t <- arg as_str ;; ret (match l_parse L t with Some x => VSome (vf64 x) | None => VNone end).
Definition text (f : string -> string) : M value := t <- arg as_str ;; ret (VStr (f t)).
(** 988-1012 *)
Definition str__color : M value :=
  v <- arg as_vec4 ;;
  match str_color v with
  | Some t => ret (VStr (fold_right (fun c t => String (ascii_of_N c) t) "" t))
  | None => panic "index out of bounds"
  end.
(** 1014-1036 *)
Definition recolor (f : vec4 -> vec4) : M value := v <- arg as_vec4 ;; ret (VVec4 (f v)).
(** 1038-1065, with the names of runtime/mod.rs 66-82 *)
Definition kind_name (v : value) : string :=
  match v with
  | VStr _ => "string" | VF64 _ _ => "number" | VVec4 _ => "vec4" | VMat4 _ => "mat4" | VReturn => "return"
  | VBool _ _ => "boolean" | VObject _ => "object" | VArray _ => "array" | VLink _ => "link" | VRef _ => "ref"
  | VUnsafeRef _ _ => "unsafe_ref" | VRust _ => "rust_object" | VNone | VSome _ => "option" | VOk _ | VErr _ _ => "result"
  | VThread _ => "thread" | VClosure _ _ _ => "closure" | VIn _ => "in"
  end.
Definition typeof : M value := v <- pop ;; x <- getv v ;; ret (VStr (kind_name x)).
(** 1585 *)
Definition none : M value := ret VNone.
(** 1719 *)
Definition dir__angle : M value := x <- arg as_f64 ;; ret (VVec4 (V4 (f32_of_f64 (l_cos L x)) (f32_of_f64 (l_sin L x)) f0 f0)).
(** 2052-2067 *)
Definition chars : M value := t <- arg as_str ;; ret (VArray (map VStr (l_chars L t))).
(** 2083 *)
Definition is_nan : M value := x <- arg as_f64 ;; ret (vbool (fis_nan x)).

(** ** The table, module.rs 76-772 *)
Definition std : list entry := [
  Entry "less" (IBin less) (Decl [LtDefault; LtDefault] [TAny; TAny] TBool [mkSig [] [TSecret TF64; TF64] (TSecret TBool); mkSig [] [TF64; TF64] TBool; mkSig [] [TStr; TStr] TBool] LAZY_NO);
  Entry "less_or_equal" (IBin less_or_equal) (Decl [LtDefault; LtDefault] [TAny; TAny] TBool [mkSig [] [TSecret TF64; TF64] (TSecret TBool); mkSig [] [TF64; TF64] TBool; mkSig [] [TStr; TStr] TBool] LAZY_NO);
  Entry "greater" (IBin greater) (Decl [LtDefault; LtDefault] [TAny; TAny] TBool [mkSig [] [TSecret TF64; TF64] (TSecret TBool); mkSig [] [TF64; TF64] TBool; mkSig [] [TStr; TStr] TBool] LAZY_NO);
  Entry "greater_or_equal" (IBin greater_or_equal) (Decl [LtDefault; LtDefault] [TAny; TAny] TBool [mkSig [] [TSecret TF64; TF64] (TSecret TBool); mkSig [] [TF64; TF64] TBool; mkSig [] [TStr; TStr] TBool] LAZY_NO);
  Entry "equal" (IBin equal) (Decl [LtDefault; LtDefault] [TAny; TAny] TBool [mkSig [] [TSecret TF64; TF64] (TSecret TBool); mkSig [] [TF64; TF64] TBool; mkSig [] [TStr; TStr] TBool; mkSig [] [TSecret TBool; TBool] (TSecret TBool); mkSig [] [TBool; TBool] TBool; mkSig [] [TVec4; TVec4] TBool; mkSig [] [TObject; TObject] TBool; mkSig [] [TArray TAny; TArray TAny] TBool; mkSig [] [TOption TAny; TOption TAny] TBool] LAZY_NO);
  Entry "not_equal" (IBin not_equal) (Decl [LtDefault; LtDefault] [TAny; TAny] TBool [mkSig [] [TSecret TF64; TF64] (TSecret TBool); mkSig [] [TF64; TF64] TBool; mkSig [] [TStr; TStr] TBool; mkSig [] [TSecret TBool; TBool] (TSecret TBool); mkSig [] [TBool; TBool] TBool; mkSig [] [TVec4; TVec4] TBool; mkSig [] [TObject; TObject] TBool; mkSig [] [TArray TAny; TArray TAny] TBool; mkSig [] [TOption TAny; TOption TAny] TBool] LAZY_NO);
  Entry "and_also" (IRet and_also) (Decl [LtDefault; LtDefault] [TBool; TBool] TAny [mkSig [] [TSecret TBool; TBool] (TSecret TBool); mkSig [] [TBool; TBool] TBool] LAZY_AND);
  Entry "or_else" (IRet or_else) (Decl [LtDefault; LtDefault] [TBool; TBool] TAny [mkSig [] [TSecret TBool; TBool] (TSecret TBool); mkSig [] [TBool; TBool] TBool] LAZY_OR);
  Entry "add" (IBin add) (Decl [LtDefault; LtDefault] [TAny; TAny] TAny [all_ext [TF64; TF64] TF64; all_ext [TVec4; TVec4] TVec4; all_ext [TVec4; TF64] TVec4; all_ext [TF64; TVec4] TVec4; all_ext [TMat4; TMat4] TMat4; all_ext [TF64; TMat4] TMat4; all_ext [TMat4; TF64] TMat4; all_ext [TBool; TBool] TBool; all_ext [TStr; TStr] TStr; all_ext [TLink; TLink] TLink] LAZY_NO);
  Entry "sub" (IBin sub) (Decl [LtDefault; LtDefault] [TAny; TAny] TAny [all_ext [TF64; TF64] TF64; all_ext [TVec4; TVec4] TVec4; all_ext [TVec4; TF64] TVec4; all_ext [TF64; TVec4] TVec4; all_ext [TMat4; TMat4] TMat4; all_ext [TF64; TMat4] TMat4; all_ext [TMat4; TF64] TMat4; all_ext [TBool; TBool] TBool] LAZY_NO);
  Entry "mul" (IBin (mul O)) (Decl [LtDefault; LtDefault] [TAny; TAny] TAny [mkSig [] [TF64; TF64] TF64; mkSig [] [TVec4; TVec4] TVec4; mkSig [] [TVec4; TF64] TVec4; mkSig [] [TF64; TVec4] TVec4; mkSig [] [TMat4; TMat4] TMat4; mkSig [] [TF64; TMat4] TMat4; mkSig [] [TMat4; TF64] TMat4; mkSig [] [TMat4; TVec4] TVec4; all_ext [TBool; TBool] TBool] LAZY_NO);
  Entry "div" (IBin div) (Decl [LtDefault; LtDefault] [TAny; TAny] TAny [mkSig [] [TF64; TF64] TF64; mkSig [] [TVec4; TVec4] TVec4; mkSig [] [TVec4; TF64] TVec4; mkSig [] [TF64; TVec4] TVec4] LAZY_NO);
  Entry "rem" (IBin (rem O)) (Decl [LtDefault; LtDefault] [TAny; TAny] TAny [mkSig [] [TF64; TF64] TF64; mkSig [] [TVec4; TVec4] TVec4; mkSig [] [TVec4; TF64] TVec4; mkSig [] [TF64; TVec4] TVec4] LAZY_NO);
  Entry "pow" (IBin (pow O)) (Decl [LtDefault; LtDefault] [TAny; TAny] TAny [mkSig [] [TF64; TF64] TF64; mkSig [] [TVec4; TVec4] TVec4; mkSig [] [TVec4; TF64] TVec4; mkSig [] [TF64; TVec4] TVec4; all_ext [TBool; TBool] TBool] LAZY_NO);
  Entry "not" (IUn not) (Decl [LtDefault] [TAny] TAny [mkSig [] [TSecret TBool] (TSecret TBool); mkSig [] [TBool] TBool] LAZY_NO);
  Entry "neg" (IUn neg) (Decl [LtDefault] [TAny] TAny [mkSig [] [TF64] TF64; mkSig [] [TVec4] TVec4; mkSig [] [TMat4] TMat4] LAZY_NO);
  Entry "dot" (IBin dot) (Decl [LtDefault; LtDefault] [TAny; TAny] TF64 [mkSig [] [TVec4; TVec4] TF64; mkSig [] [TVec4; TF64] TF64; mkSig [] [TF64; TVec4] TF64] LAZY_NO);
  Entry "cross" (IRet cross) (nl [TVec4; TVec4] TVec4);
  Entry "x" (IRet (component vx)) (nl [TVec4] TF64);
  Entry "y" (IRet (component vy)) (nl [TVec4] TF64);
  Entry "z" (IRet (component vz)) (nl [TVec4] TF64);
  Entry "w" (IRet (component vw)) (nl [TVec4] TF64);
  Entry "norm" (IUn norm) (nl [TVec4] TF64);
  Entry "det" (IRet det) (nl [TMat4] TF64);
  Entry "inv" (IRet inv) (nl [TMat4] TMat4);
  Entry "mov" (IRet mov) (nl [TVec4] TMat4);
  Entry "rot__axis_angle" (IRet rot__axis_angle) (nl [TVec4; TF64] TMat4);
  Entry "ortho__pos_right_up_forward" (IRet ortho__pos_right_up_forward) (nl [TVec4; TVec4; TVec4; TVec4] TMat4);
  Entry "proj__fov_near_far_ar" (IRet proj__fov_near_far_ar) (nl [TF64; TF64; TF64; TF64] TMat4);
  Entry "mvp__model_view_projection" (IRet mvp__model_view_projection) (nl [TMat4; TMat4; TMat4] TMat4);
  Entry "scale" (IRet scale) (nl [TVec4] TMat4);
  Entry "rx" (IRet (row_ vx)) (nl [TMat4] TVec4);
  Entry "ry" (IRet (row_ vy)) (nl [TMat4] TVec4);
  Entry "rz" (IRet (row_ vz)) (nl [TMat4] TVec4);
  Entry "rw" (IRet (row_ vw)) (nl [TMat4] TVec4);
  Entry "cx" (IRet (col_ mx)) (nl [TMat4] TVec4);
  Entry "cy" (IRet (col_ my)) (nl [TMat4] TVec4);
  Entry "cz" (IRet (col_ mz)) (nl [TMat4] TVec4);
  Entry "cw" (IRet (col_ mw)) (nl [TMat4] TVec4);
  Entry "cv" (IRet cv) (nl [TMat4; TF64] TVec4);
  Entry "clone" (IRet (clone_ n)) (nl [TAny] TAny);
  Entry "rv" (IRet rv) (nl [TMat4; TF64] TVec4);
  Entry "s" (IRet s_) (nl [TVec4; TF64] TF64);
  Entry "println" (IVoid print_) (nl [TAny] TVoid);
  Entry "print" (IVoid print_) (nl [TAny] TVoid);
  Entry "eprintln" (IVoid print_) (nl [TAny] TVoid);
  Entry "eprint" (IVoid print_) (nl [TAny] TVoid);
  Entry "sqrt" (IRet (num (l_sqrt L))) (nl [TF64] TF64);
  Entry "sin" (IRet (num (l_sin L))) (nl [TF64] TF64);
  Entry "asin" (IRet (num (l_asin L))) (nl [TF64] TF64);
  Entry "cos" (IRet (num (l_cos L))) (nl [TF64] TF64);
  Entry "acos" (IRet (num (l_acos L))) (nl [TF64] TF64);
  Entry "tan" (IRet (num (l_tan L))) (nl [TF64] TF64);
  Entry "atan" (IRet (num (l_atan L))) (nl [TF64] TF64);
  Entry "atan2" (IRet atan2) (nl [TF64; TF64] TF64);
  Entry "exp" (IRet (num (l_exp L))) (nl [TF64] TF64);
  Entry "ln" (IRet (num (l_ln L))) (nl [TF64] TF64);
  Entry "log2" (IRet (num (l_log2 L))) (nl [TF64] TF64);
  Entry "log10" (IRet (num (l_log10 L))) (nl [TF64] TF64);
  Entry "round" (IRet (num (l_round L))) (nl [TF64] TF64);
  Entry "abs" (IRet (num SFabs)) (nl [TF64] TF64);
  Entry "floor" (IRet (num (l_floor L))) (nl [TF64] TF64);
  Entry "ceil" (IRet (num (l_ceil L))) (nl [TF64] TF64);
  Entry "sleep" (IVoid sleep) (nl [TF64] TVoid);
  Entry "random" IOther (nl [] TF64);
  Entry "tau" (IRet tau) (nl [] TF64);
  Entry "read_line" IOther (nl [] TStr);
  Entry "read_number" IOther (nl [TStr] TF64);
  Entry "parse_number" (IRet parse_number) (nl [TStr] (TOption TF64));
  Entry "trim" (IRet (text (l_trim L))) (nl [TStr] TStr);
  Entry "trim_left" (IRet (text (l_trim_left L))) (nl [TStr] TStr);
  Entry "trim_right" (IRet (text (l_trim_right L))) (nl [TStr] TStr);
  Entry "str" IOther (nl [TAny] TStr);
  Entry "fmt__tab_string" IOther (nl [TF64; TStr] TStr);
  Entry "json_string" IOther (nl [TStr] TStr);
  Entry "str__color" (IRet str__color) (nl [TVec4] TStr);
  Entry "srgb_to_linear__color" (IRet (recolor (srgb_to_linear (o_gpow O)))) (nl [TVec4] TVec4);
  Entry "linear_to_srgb__color" (IRet (recolor (linear_to_srgb (o_gpow O)))) (nl [TVec4] TVec4);
  Entry "typeof" (IRet typeof) (nl [TAny] TStr);
  Entry "debug" (IVoid (ret tt)) (nl [] TVoid);
  Entry "backtrace" (IVoid (ret tt)) (nl [] TVoid);
  Entry "none" (IRet none) (nl [] (TOption TAny));
  Entry "some" (IRet (some_ n)) (nl [TAny] (TOption TAny));
  Entry "ok" (IRet (ok_ n)) (nl [TAny] (TResult TAny));
  Entry "err" (IRet (err_ n)) (nl [TAny] (TResult TAny));
  Entry "dir__angle" (IRet dir__angle) (nl [TF64] TVec4);
  Entry "load__meta_file" IOther (nl [TStr; TStr] (TResult (TArray (TArray TAny))));
  Entry "load__meta_url" IOther (nl [TStr; TStr] (TResult (TArray (TArray TAny))));
  Entry "syntax__in_string" IOther (nl [TStr; TStr] (TResult TAny));
  Entry "download__url_file" IOther (nl [TStr; TStr] (TResult TStr));
  Entry "save__string_file" IOther (nl [TStr; TStr] (TResult TStr));
  Entry "load_string__file" IOther (nl [TStr] (TResult TStr));
  Entry "load_string__url" IOther (nl [TStr] (TResult TStr));
  Entry "join__thread" IOther (nl [TThread TAny] (TResult TAny));
  Entry "load_data__file" IOther (nl [TStr] (TResult TAny));
  Entry "load_data__string" IOther (nl [TStr] (TResult TAny));
  Entry "args_os" IOther (nl [] (TArray TStr));
  Entry "now" IOther (nl [] TF64);
  Entry "is_nan" (IRet is_nan) (nl [TF64] TBool);
  Entry "load" IOther (nl [TStr] (TResult TAny));
  Entry "load__source_imports" IOther (nl [TStr; TArray TAny] (TResult TAny));
  Entry "load__source_imports_tr_usetr" IOther (nl [TStr; TArray TAny; TBool; TBool] (TResult TAny));
  Entry "module__in_string_imports" IOther (nl [TStr; TStr; TArray TAny] (TResult TAny));
  Entry "module__in_string_imports_tr_usetr" IOther (nl [TStr; TStr; TArray TAny; TBool; TBool] (TResult TAny));
  Entry "check__in_string_imports" IOther (nl [TStr; TStr; TArray TAny] (TResult (TArray TObject)));
  Entry "check__in_string_imports_usetr" IOther (nl [TStr; TStr; TArray TAny; TBool] (TResult (TArray TObject)));
  Entry "call" IOther (nl [TAny; TStr; TArray TAny] TVoid);
  Entry "call_ret" IOther (nl [TAny; TStr; TArray TAny] TAny);
  Entry "functions" IOther (nl [] TAny);
  Entry "functions__module" IOther (nl [TAny] TAny);
  Entry "is_err" (IRet is_err) (nl [TResult TAny] TBool);
  Entry "is_ok" (IRet is_ok) (nl [TResult TAny] TBool);
  Entry "min" (IRet array_min) (nl [TArray TF64] TF64);
  Entry "max" (IRet array_max) (nl [TArray TF64] TF64);
  Entry "unwrap" (IRet unwrap) (nl [TAny] TAny);
  Entry "why" (IRet why) (nl [TSecret TBool] (TArray TAny));
  Entry "where" (IRet where_) (nl [TSecret TF64] (TArray TAny));
  Entry "explain_why" (IRet (explain_why n)) (nl [TBool; TAny] (TSecret TBool));
  Entry "explain_where" (IRet (explain_where n)) (nl [TF64; TAny] (TSecret TF64));
  Entry "head" (IRet head) (nl [TLink] TAny);
  Entry "tip" (IRet tip) (nl [TLink] (TOption TAny));
  Entry "tail" (IRet tail) (nl [TLink] TLink);
  Entry "neck" (IRet neck) (nl [TLink] TLink);
  Entry "is_empty" (IRet is_empty) (nl [TLink] TBool);
  Entry "len" (IUn len) (nl [TArray TAny] TF64);
  Entry "push_ref(mut,_)" (IVoid array_push_ref) (Decl [LtDefault; LtArg 0] [TArray TAny; TAny] TVoid [] LAZY_NO);
  Entry "insert_ref(mut,_,_)" (IVoid array_insert_ref) (Decl [LtDefault; LtDefault; LtArg 0] [TArray TAny; TF64; TAny] TVoid [] LAZY_NO);
  Entry "push(mut,_)" (IVoid (array_push n)) (nl [TArray TAny; TAny] TVoid);
  Entry "insert(mut,_,_)" (IVoid (array_insert n)) (Decl [LtDefault; LtDefault; LtDefault] [TArray TAny; TF64; TAny] TVoid [] LAZY_NO);
  Entry "pop(mut)" (IRet array_pop) (Decl [LtReturn] [TArray TAny] TAny [] LAZY_NO);
  Entry "remove(mut,_)" (IRet array_remove) (Decl [LtReturn; LtDefault] [TArray TAny; TF64] TAny [] LAZY_NO);
  Entry "reverse(mut)" (IVoid array_reverse) (nl [TArray TAny] TVoid);
  Entry "clear(mut)" (IVoid array_clear) (nl [TArray TAny] TVoid);
  Entry "swap(mut,_,_)" (IVoid array_swap) (nl [TArray TAny; TF64; TF64] TVoid);
  Entry "unwrap_or" (IRet unwrap_or) (Decl [LtDefault; LtDefault] [TAny; TAny] TAny [] LAZY_UNWRAP_OR);
  Entry "unwrap_err" (IRet unwrap_err) (nl [TAny] TAny);
  Entry "meta__syntax_in_string" IOther (nl [TAny; TStr; TStr] (TResult (TArray (TArray TAny))));
  Entry "save__data_file" IOther (nl [TAny; TStr] (TResult TStr));
  Entry "json_from_meta_data" IOther (nl [TArray (TArray TAny)] TStr);
  Entry "errstr__string_start_len_msg" IOther (nl [TStr; TF64; TF64; TStr] TStr);
  Entry "has" (IRet has) (nl [TObject; TStr] TBool);
  Entry "keys" (IRet keys) (nl [TObject] (TArray TStr));
  Entry "chars" (IRet chars) (nl [TStr] (TArray TStr));
  Entry "wait_next" IOther (nl [TIn TAny] TAny);
  Entry "next" IOther (nl [TIn TAny] (TOption TAny))].
End Library.

(** prelude.rs 104-109 [insert], 121-130 [from_module] for a module without loaded functions: the last one of a name counts *)
Definition find_decl (l : list entry) (name : string) : option decl :=
  fold_left (fun r e => if (e_name e =? name)%string then Some (e_decl e) else r) l None.
(** what the type checker reads of it *)
Definition as_dfn (d : decl) : dfn := Dfn (p_tys d) (p_ret d) (p_ext d).
Definition std_known (O : math) (L : libm) (n : nat) : known :=
  Known (fun name => option_map as_dfn (find_decl (std O L n) name)) (fun _ _ => None).
