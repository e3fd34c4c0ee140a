(** * Draw lists of the interactive library.

    Model of interactive/src/lib.rs 635-894 [draw_2d]. Definitions only.

    Simplifications:
    - the crate graphics is a parameter: matrices with their product and [trans], the presets of draw states, whether a text can be
      drawn with a font; a call of it is recorded with its arguments, the draw state and the matrix;
    - every command reads its arguments one after the other before anything else, which is the table [params]; an argument of
      type [Variable] is looked up but not copied as a whole (only numbers and Rust objects are used);
    - a text that cannot be drawn draws nothing; error messages are left out; a lock is always free. *)
From Coq Require Import String List ZArith Bool Arith.
From Verif Require Import Float64 Syntax InterpModel EmbedModel.
Import ListNotations.
Local Open Scope string_scope.
Local Open Scope nat_scope.
Local Open Scope list_scope.

(** types of arguments: [[f32; 4]], [[f64; 2]], f64, u32, text, [Variable], array of points *)
Inductive aty := AColor | APos | ANum | AU32 | AText | AAny | APoints.
Inductive aval := CColor (c : vec4) | CPos (x y : f64) | CNum (x : f64) | CU32 (z : Z) | CText (s : string) | CAny (v : value) | CPoints (l : option (list (f64 * f64))).
(** 736-742: only vectors count *)
Fixpoint points (stk : list value) (l : list value) : got (list (f64 * f64)) :=
  match l with
  | [] => Got []
  | v :: l =>
      and_then (look stk v) (fun v => and_then (points stk l) (fun r =>
      match v with VVec4 c => Got ((f64_of_f32 (vx c), f64_of_f32 (vy c)) :: r) | _ => Got r end))
  end.
(** runtime/mod.rs 411-414 [var], 451-456 [var_vec4] *)
Definition read (stk : list value) (t : aty) (v : value) : got aval :=
  and_then (look stk v) (fun v =>
  match t, v with
  | AColor, VVec4 c => Got (CColor c)
  | APos, VVec4 c => Got (CPos (f64_of_f32 (vx c)) (f64_of_f32 (vy c)))
  | ANum, VF64 x _ => Got (CNum x)
  | AU32, VF64 x _ => Got (CU32 (f64_to_u32 x))
  | AText, VStr s => Got (CText s)
  | AAny, v => Got (CAny v)
  | APoints, VArray l => and_then (points stk l) (fun l => Got (CPoints (Some l)))
  | APoints, _ => Got (CPoints None)
  | _, _ => Wrong
  end).
(** [it[1]], [it[2]], ...: too few is a panic *)
Fixpoint reads (stk : list value) (ts : list aty) (it : list value) : got (list aval) :=
  match ts with
  | [] => Got []
  | t :: ts =>
      match it with
      | [] => Crash
      | v :: it => and_then (read stk t v) (fun a => and_then (reads stk ts it) (fun l => Got (a :: l)))
      end
  end.
(** the commands, 657-887 *)
Definition params : list (string * list aty) :=
  [("clear", [AColor]); ("clear__stencil", [ANum]); ("clear__colorbuf", [AColor]);
   ("transform__rx_ry", [AColor; AColor]); ("rel_transform__rx_ry", [AColor; AColor]);
   ("line__color_radius_from_to", [AColor; ANum; APos; APos]);
   ("rectangle__color_corner_size", [AColor; APos; APos]);
   ("rectangle__border_color_corner_size", [ANum; AColor; APos; APos]);
   ("ellipse__color_corner_size_resolution", [AColor; APos; APos; AU32]);
   ("ellipse__border_color_corner_size_resolution", [ANum; AColor; APos; APos; AU32]);
   ("polygon__color_points", [AColor; APoints]);
   ("text__font_color_size_pos_string", [AAny; AColor; AU32; APos; AText]);
   ("image__texture_pos_color", [AAny; APos; AColor]);
   ("image__texture_pos_color_srccorner_srcsize", [AAny; APos; AColor; APos; APos]);
   ("draw_state_alpha", []); ("draw_state_clip", []); ("draw_state_increment", []); ("draw_state_inside", []); ("draw_state_outside", []);
   ("blend_alpha", []); ("blend_add", []); ("blend_lighter", []); ("blend_multiply", []); ("blend_invert", []);
   ("scissor__corner_size", [APos; APos]);
   ("stencil__clip", [ANum]); ("stencil__inside", [ANum]); ("stencil__outside", [ANum]); ("stencil_increment", [])].

Inductive stencil := SClip (z : Z) | SInside (z : Z) | SOutside (z : Z) | SIncrement.
Inductive blend := BAlpha | BAdd | BLighter | BMultiply | BInvert.
Record dstate := DState { d_scissor : option (Z * Z * Z * Z); d_stencil : option stencil; d_blend : option blend }.
(** `as u8`, `as u32` of f64 *)
Definition as_u8 (x : f64) : Z := Z.min (f64_to_usize x) 255.

Section Graphics.
Variable matrix : Type.
Record outer := Outer {
  mul : matrix -> matrix -> matrix;                                  (* [math::multiply] *)
  mat : vec4 -> vec4 -> matrix;                                      (* the first three numbers of two rows, as f64 *)
  trans : matrix -> f64 -> f64 -> matrix;
  preset : string -> dstate;                                         (* [DrawState::new_alpha] ... *)
  fonts : nat; is_font : nat -> bool;                                (* how many in the list; which Rust objects are fonts *)
  textures : nat; is_texture : nat -> bool;
  drawable : value -> Z -> string -> bool }.                         (* a text of a size with a font *)
Variable G : outer.
(** calls of the crate graphics *)
Inductive gcall :=
| GClear (c : vec4) | GClearColor (c : vec4) | GClearStencil (z : Z)
| GShape (name : string) (args : list aval) (d : dstate) (m : matrix)
| GText (font : value) (c : vec4) (size : Z) (text : string) (d : dstate) (m : matrix)
| GImage (texture : value) (c : vec4) (src : option (f64 * f64 * f64 * f64)) (d : dstate) (m : matrix).
Record state := State { s_matrix : matrix; s_draw : dstate }.
Definition set_draw (d : dstate) (s : state) : state := State (s_matrix s) d.

(** 755-776: a font by number or as a Rust object *)
Definition font (v : value) : got unit :=
  match v with
  | VF64 id _ => if (f64_to_usize id <? Z.of_nat (fonts G))%Z then Got tt else Wrong
  | VRust o => if is_font G o then Got tt else Wrong
  | _ => Wrong
  end.
(** 783-801, 812-830: a texture by number is indexed *)
Definition texture (v : value) : got unit :=
  match v with
  | VF64 id _ => if (f64_to_usize id <? Z.of_nat (textures G))%Z then Got tt else Crash
  | VRust o => if is_texture G o then Got tt else Wrong
  | _ => Wrong
  end.
(** 657-887, where names and kinds of arguments tell the commands apart: what a command does with its arguments; [base]: the matrix at the beginning *)
Definition effect (base : matrix) (name : string) (args : list aval) (s : state) : got (list gcall * state) :=
  let d := s_draw s in
  match args with
  | [CColor c] => Got ([if String.eqb name "clear" then GClear c else GClearColor c], s)
  | [CNum x] =>
      if String.eqb name "clear__stencil" then Got ([GClearStencil (as_u8 x)], s) else
      if String.eqb name "stencil__clip" then Got ([], set_draw (DState (d_scissor d) (Some (SClip (as_u8 x))) (d_blend d)) s) else
      if String.eqb name "stencil__inside" then Got ([], set_draw (DState (d_scissor d) (Some (SInside (as_u8 x))) (d_blend d)) s) else
      Got ([], set_draw (DState (d_scissor d) (Some (SOutside (as_u8 x))) (d_blend d)) s)
  | [CColor rx; CColor ry] =>
      Got ([], State (mul G (if String.eqb name "transform__rx_ry" then base else s_matrix s) (mat G rx ry)) d)
  | [CAny f; CColor c; CU32 z; CPos x y; CText t] =>
      and_then (font f) (fun _ => if drawable G f z t then Got ([GText f c z t d (trans G (s_matrix s) x y)], s) else Wrong)
  | [CAny i; CPos x y; CColor c] => and_then (texture i) (fun _ => Got ([GImage i c None d (trans G (s_matrix s) x y)], s))
  | [CAny i; CPos x y; CColor c; CPos a b; CPos e f] => and_then (texture i) (fun _ => Got ([GImage i c (Some (a, b, e, f)) d (trans G (s_matrix s) x y)], s))
  | [CColor _; CPoints None] => Got ([], s)
  | [CPos x y; CPos w h] => Got ([], set_draw (DState (Some (f64_to_u32 x, f64_to_u32 y, f64_to_u32 w, f64_to_u32 h)) (d_stencil d) (d_blend d)) s)
  | [] =>
      if String.eqb name "blend_alpha" then Got ([], set_draw (DState (d_scissor d) (d_stencil d) (Some BAlpha)) s) else
      if String.eqb name "blend_add" then Got ([], set_draw (DState (d_scissor d) (d_stencil d) (Some BAdd)) s) else
      if String.eqb name "blend_lighter" then Got ([], set_draw (DState (d_scissor d) (d_stencil d) (Some BLighter)) s) else
      if String.eqb name "blend_multiply" then Got ([], set_draw (DState (d_scissor d) (d_stencil d) (Some BMultiply)) s) else
      if String.eqb name "blend_invert" then Got ([], set_draw (DState (d_scissor d) (d_stencil d) (Some BInvert)) s) else
      if String.eqb name "stencil_increment" then Got ([], set_draw (DState (d_scissor d) (Some SIncrement) (d_blend d)) s) else
      Got ([], set_draw (preset G name) s)
  | _ => Got ([GShape name args d (s_matrix s)], s)
  end.
(** 653-656, 888: one item of the list; a name that is not known does nothing *)
Definition item (stk : list value) (base : matrix) (it : list value) (s : state) : got (list gcall * state) :=
  match it with
  | [] => Crash
  | v :: it =>
      and_then (read stk AText v) (fun a =>
      match a with
      | CText name => match assoc name params with Some ts => and_then (reads stk ts it) (fun args => effect base name args s) | None => Got ([], s) end
      | _ => Wrong
      end)
  end.
(** 651-653: the calls that were made, and how it ended *)
Fixpoint items (stk : list value) (base : matrix) (l : list value) (s : state) : list gcall * got state :=
  match l with
  | [] => ([], Got s)
  | v :: l =>
      match look stk v with
      | Got (VArray it) =>
          match item stk base it s with
          | Got (c, s) => (c ++ fst (items stk base l s), snd (items stk base l s))
          | Wrong => ([], Wrong)
          | Crash => ([], Crash)
          end
      | Got _ => items stk base l s
      | Wrong => ([], Wrong)
      | Crash => ([], Crash)
      end
  end.
(** 635-650 *)
Definition draw_2d (stk : list value) (base : matrix) (d : dstate) : list gcall * got state :=
  match rev stk with
  | [] => ([], Crash)
  | v :: _ =>
      match look (removelast stk) v with
      | Got (VArray l) => items (removelast stk) base l (State base d)
      | Got _ => ([], Got (State base d))
      | Wrong => ([], Wrong)
      | Crash => ([], Crash)
      end
  end.
End Graphics.
