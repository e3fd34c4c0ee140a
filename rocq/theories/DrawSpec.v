(** * What draw lists mean, for C78.

    For each command, what it does, directly with the values of its arguments; and the commands that graphics2d.dyon makes. *)
From Coq Require Import String List ZArith Bool Arith.
From Verif Require Import Float64 Syntax EmbedModel DrawModel.
Import ListNotations.
Local Open Scope string_scope.
Local Open Scope nat_scope.
Local Open Scope list_scope.

(** The value of an argument: of a reference, that of the variable *)
Inductive arg (stk : list value) : value -> value -> Prop :=
| Ar_value v : (forall i, v <> VRef i) -> arg stk v v
| Ar_ref i v : nth_error stk i = Some v -> arg stk (VRef i) v.
(** with the values of the elements of an array *)
Inductive arg_all (stk : list value) : value -> value -> Prop :=
| Aa_value v w : arg stk v w -> (forall l, w <> VArray l) -> arg_all stk v w
| Aa_array v l k : arg stk v (VArray l) -> Forall2 (arg stk) l k -> arg_all stk v (VArray k).

Section Meaning.
Variables (matrix : Type) (G : outer matrix) (base : matrix).
Notation state := (state matrix).
Notation gcall := (gcall matrix).
Definition pos (v : vec4) : aval := CPos (f64_of_f32 (vx v)) (f64_of_f32 (vy v)).
Definition u8 (x : f64) : Z := Z.min (f64_to_usize x) 255.
Definition with_blend (b : blend) (s : state) : state := State _ (s_matrix _ s) (DState (d_scissor (s_draw _ s)) (d_stencil (s_draw _ s)) (Some b)).
Definition with_stencil (b : stencil) (s : state) : state := State _ (s_matrix _ s) (DState (d_scissor (s_draw _ s)) (Some b) (d_blend (s_draw _ s))).
Definition with_draw (d : dstate) (s : state) : state := State _ (s_matrix _ s) d.
Definition with_matrix (m : matrix) (s : state) : state := State _ m (s_draw _ s).
(** a font or a texture that is there *)
Definition there (n : nat) (p : nat -> bool) (v : value) : bool :=
  match v with VF64 id _ => (f64_to_usize id <? Z.of_nat n)%Z | VRust o => p o | _ => false end.
Definition vectors (l : list value) : list (f64 * f64) := flat_map (fun v => match v with VVec4 c => [(f64_of_f32 (vx c), f64_of_f32 (vy c))] | _ => [] end) l.
Definition moved (s : state) (p : vec4) : matrix := trans _ G (s_matrix _ s) (f64_of_f32 (vx p)) (f64_of_f32 (vy p)).
Definition shape (name : string) (args : list aval) (s : state) : option (list gcall * state) := Some ([GShape _ name args (s_draw _ s) (s_matrix _ s)], s).
Definition meaning := list value -> state -> option (list gcall * state).
Definition silent (f : state -> state) : meaning := fun a s => match a with [] => Some ([], f s) | _ => None end.
Definition number (f : f64 -> state -> state) : meaning := fun a s => match a with [VF64 x _] => Some ([], f x s) | _ => None end.
Definition meanings : list (string * meaning) :=
  [("clear", fun a s => match a with [VVec4 c] => Some ([GClear _ c], s) | _ => None end);
   ("clear__colorbuf", fun a s => match a with [VVec4 c] => Some ([GClearColor _ c], s) | _ => None end);
   ("clear__stencil", fun a s => match a with [VF64 x _] => Some ([GClearStencil _ (u8 x)], s) | _ => None end);
   ("line__color_radius_from_to", fun a s => match a with [VVec4 c; VF64 r _; VVec4 p; VVec4 q] => shape "line__color_radius_from_to" [CColor c; CNum r; pos p; pos q] s | _ => None end);
   ("rectangle__color_corner_size", fun a s => match a with [VVec4 c; VVec4 p; VVec4 q] => shape "rectangle__color_corner_size" [CColor c; pos p; pos q] s | _ => None end);
   ("rectangle__border_color_corner_size", fun a s => match a with [VF64 r _; VVec4 c; VVec4 p; VVec4 q] => shape "rectangle__border_color_corner_size" [CNum r; CColor c; pos p; pos q] s | _ => None end);
   ("ellipse__color_corner_size_resolution", fun a s =>
     match a with [VVec4 c; VVec4 p; VVec4 q; VF64 n _] => shape "ellipse__color_corner_size_resolution" [CColor c; pos p; pos q; CU32 (f64_to_u32 n)] s | _ => None end);
   ("ellipse__border_color_corner_size_resolution", fun a s =>
     match a with [VF64 r _; VVec4 c; VVec4 p; VVec4 q; VF64 n _] => shape "ellipse__border_color_corner_size_resolution" [CNum r; CColor c; pos p; pos q; CU32 (f64_to_u32 n)] s | _ => None end);
   ("polygon__color_points", fun a s => match a with [VVec4 c; VArray l] => shape "polygon__color_points" [CColor c; CPoints (Some (vectors l))] s | _ => None end);
   ("text__font_color_size_pos_string", fun a s =>
     match a with
     | [f; VVec4 c; VF64 z _; VVec4 p; VStr t] =>
         if there (fonts _ G) (is_font _ G) f && drawable _ G f (f64_to_u32 z) t then Some ([GText _ f c (f64_to_u32 z) t (s_draw _ s) (moved s p)], s) else None
     | _ => None
     end);
   ("image__texture_pos_color", fun a s =>
     match a with [i; VVec4 p; VVec4 c] => if there (textures _ G) (is_texture _ G) i then Some ([GImage _ i c None (s_draw _ s) (moved s p)], s) else None | _ => None end);
   ("image__texture_pos_color_srccorner_srcsize", fun a s =>
     match a with
     | [i; VVec4 p; VVec4 c; VVec4 sp; VVec4 sz] =>
         if there (textures _ G) (is_texture _ G) i
         then Some ([GImage _ i c (Some (f64_of_f32 (vx sp), f64_of_f32 (vy sp), f64_of_f32 (vx sz), f64_of_f32 (vy sz))) (s_draw _ s) (moved s p)], s) else None
     | _ => None
     end);
   (* the matrix from the beginning, or the one until now *)
   ("transform__rx_ry", fun a s => match a with [VVec4 x; VVec4 y] => Some ([], with_matrix (mul _ G base (mat _ G x y)) s) | _ => None end);
   ("rel_transform__rx_ry", fun a s => match a with [VVec4 x; VVec4 y] => Some ([], with_matrix (mul _ G (s_matrix _ s) (mat _ G x y)) s) | _ => None end);
   ("draw_state_alpha", silent (with_draw (preset _ G "draw_state_alpha")));
   ("draw_state_clip", silent (with_draw (preset _ G "draw_state_clip")));
   ("draw_state_increment", silent (with_draw (preset _ G "draw_state_increment")));
   ("draw_state_inside", silent (with_draw (preset _ G "draw_state_inside")));
   ("draw_state_outside", silent (with_draw (preset _ G "draw_state_outside")));
   ("blend_alpha", silent (with_blend BAlpha)); ("blend_add", silent (with_blend BAdd)); ("blend_lighter", silent (with_blend BLighter));
   ("blend_multiply", silent (with_blend BMultiply)); ("blend_invert", silent (with_blend BInvert));
   ("scissor__corner_size", fun a s =>
     match a with
     | [VVec4 p; VVec4 q] =>
         Some ([], with_draw (DState (Some (f64_to_u32 (f64_of_f32 (vx p)), f64_to_u32 (f64_of_f32 (vy p)), f64_to_u32 (f64_of_f32 (vx q)), f64_to_u32 (f64_of_f32 (vy q))))
           (d_stencil (s_draw _ s)) (d_blend (s_draw _ s))) s)
     | _ => None
     end);
   ("stencil__clip", number (fun x => with_stencil (SClip (u8 x)))); ("stencil__inside", number (fun x => with_stencil (SInside (u8 x))));
   ("stencil__outside", number (fun x => with_stencil (SOutside (u8 x)))); ("stencil_increment", silent (with_stencil SIncrement))].

(** A list of commands, the calls of the graphics, and the state at the end *)
Inductive drawn (stk : list value) : list value -> state -> list gcall -> state -> Prop :=
| Dr_end s : drawn stk [] s [] s
| Dr_command v nv rest name f args l s c1 s1 c2 s2 : arg stk v (VArray (nv :: rest)) -> arg stk nv (VStr name) -> Forall2 (arg_all stk) rest args ->
    In (name, f) meanings -> f args s = Some (c1, s1) -> drawn stk l s1 c2 s2 -> drawn stk (v :: l) s (c1 ++ c2) s2
| Dr_unknown v nv rest name l s c2 s2 : arg stk v (VArray (nv :: rest)) -> arg stk nv (VStr name) -> ~ In name (map fst meanings) ->
    drawn stk l s c2 s2 -> drawn stk (v :: l) s c2 s2
| Dr_other v w l s c2 s2 : arg stk v w -> (forall k, w <> VArray k) -> drawn stk l s c2 s2 -> drawn stk (v :: l) s c2 s2.
End Meaning.

(** The commands that the functions of graphics2d.dyon push, with the types of what they push *)
Inductive dty := DVec4 | DF64 | DStr | DVecs.
Definition library : list (string * list dty) :=
  [("clear", [DVec4]); ("clear__colorbuf", [DVec4]); ("clear__stencil", [DF64]);
   ("line__color_radius_from_to", [DVec4; DF64; DVec4; DVec4]); ("rectangle__color_corner_size", [DVec4; DVec4; DVec4]);
   ("rectangle__border_color_corner_size", [DF64; DVec4; DVec4; DVec4]);
   ("ellipse__color_corner_size_resolution", [DVec4; DVec4; DVec4; DF64]); ("ellipse__border_color_corner_size_resolution", [DF64; DVec4; DVec4; DVec4; DF64]);
   ("polygon__color_points", [DVec4; DVecs]); ("text__font_color_size_pos_string", [DF64; DVec4; DF64; DVec4; DStr]);
   ("image__texture_pos_color", [DF64; DVec4; DVec4]); ("image__texture_pos_color_srccorner_srcsize", [DF64; DVec4; DVec4; DVec4; DVec4]);
   ("transform__rx_ry", [DVec4; DVec4]); ("rel_transform__rx_ry", [DVec4; DVec4]);
   ("draw_state_alpha", []); ("draw_state_clip", []); ("draw_state_increment", []); ("draw_state_inside", []); ("draw_state_outside", []);
   ("blend_alpha", []); ("blend_add", []); ("blend_lighter", []); ("blend_multiply", []); ("blend_invert", []);
   ("scissor__corner_size", [DVec4; DVec4]); ("stencil__clip", [DF64]); ("stencil__inside", [DF64]); ("stencil__outside", [DF64]); ("stencil_increment", [])].
Inductive typed : value -> dty -> Prop :=
| Ty_vec c : typed (VVec4 c) DVec4
| Ty_num x sec : typed (VF64 x sec) DF64
| Ty_str s : typed (VStr s) DStr
| Ty_vecs l : Forall (fun v => exists c, v = VVec4 c) l -> typed (VArray l) DVecs.
(** the fonts and textures that a command needs *)
Definition supplied {matrix} (G : outer matrix) (name : string) (args : list value) : Prop :=
  match args with
  | f :: rest =>
      (name = "text__font_color_size_pos_string" -> there (fonts _ G) (is_font _ G) f = true /\ forall z t, drawable _ G f z t = true) /\
      (name = "image__texture_pos_color" \/ name = "image__texture_pos_color_srccorner_srcsize" -> there (textures _ G) (is_texture _ G) f = true)
  | [] => True
  end.

(** All references up to a depth are to variables that are there. *)
Fixpoint whole (n : nat) (stk : list value) (v : value) : Prop :=
  (exists w, arg stk v w) /\ match n with O => True | S n => forall l, arg stk v (VArray l) -> Forall (whole n stk) l end.
(** an item that stops the process: empty, too short, or an image with a number without a texture *)
Definition stops {matrix} (G : outer matrix) (stk : list value) (it : list value) : Prop :=
  it = [] \/ exists nv rest name tys, it = nv :: rest /\ arg stk nv (VStr name) /\ In (name, tys) library /\
    (length rest < length tys \/
     ((name = "image__texture_pos_color" \/ name = "image__texture_pos_color_srccorner_srcsize") /\
      exists v rest' id sec, rest = v :: rest' /\ arg stk v (VF64 id sec) /\ (Z.of_nat (textures _ G) <= f64_to_usize id)%Z)).
