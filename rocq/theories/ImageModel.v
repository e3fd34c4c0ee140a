(** * Images of the interactive library.

    Model of interactive/src/lib.rs 471-632: [image_names], [load_image], [load_image_obj], [create_image__name_size],
    [create_image__size], [save__image_file], [image_size], [pxl__image_pos_color], [pxl__image_pos]. Definitions only.

    Simplifications:
    - an image of the crate image is its width, its height and its pixels row by row ([RgbaImage]: one buffer with four bytes for
      each pixel, documentation of [ImageBuffer]); making one that needs more than [isize::MAX] bytes panics, and so does
      indexing a pixel that is outside. Other failures of memory are left out;
    - what opening and saving a file gives is a parameter;
    - an argument of type [Variable] is looked up, but not copied as a whole: only numbers and Rust objects are used;
    - error messages are left out; a lock is always free (one thread, no call while it is held). *)
From Coq Require Import String List ZArith Bool Arith.
From Verif Require Import Float64 Syntax InterpModel EmbedModel ColorModel.
Import ListNotations.
Local Open Scope string_scope.
Local Open Scope nat_scope.
Local Open Scope list_scope.

(** [Rgba<u8>] *)
Record pixel := Px { px_r : Z; px_g : Z; px_b : Z; px_a : Z }.
Record image := Image { i_width : Z; i_height : Z; i_data : list pixel }.
(** [RgbaImage::new]: all bytes are 0 *)
Definition ISIZE_MAX : Z := (2 ^ 63 - 1)%Z.
Definition new_image (w h : Z) : got image :=
  if (ISIZE_MAX <? 4 * w * h)%Z then Crash else Got (Image w h (repeat (Px 0 0 0 0) (Z.to_nat (w * h)))).
(** the place of a pixel in the buffer *)
Definition index_of (i : image) (x y : Z) : nat := Z.to_nat (y * i_width i + x).
(** [get_pixel], [put_pixel] *)
Definition get_pixel (i : image) (x y : Z) : got pixel := match nth_error (i_data i) (index_of i x y) with Some p => Got p | None => Crash end.
Fixpoint put {A} (l : list A) (n : nat) (v : A) : option (list A) :=
  match l, n with
  | [], _ => None
  | _ :: l, O => Some (v :: l)
  | x :: l, S n => match put l n v with Some l => Some (x :: l) | None => None end
  end.
Definition put_pixel (i : image) (x y : Z) (p : pixel) : got image :=
  match put (i_data i) (index_of i x y) p with Some l => Got (Image (i_width i) (i_height i) l) | None => Crash end.

(** What is behind Rust objects: an image or something else *)
Inductive object := OImage (i : image) | OOther.
(** The current objects with images and their names, and all Rust objects *)
Record world := World { w_images : list image; w_names : list string; w_objects : list object }.

(** vec4.rs 229-233: `as u32` of an f32 (the conversion depends on the number only) *)
Definition coord (x : f32) : Z := f64_to_u32 x.
(** 574-579, 589-594: `(c * 255.0) as u8` *)
Definition quant (c : f32) : Z := Z.min (f64_to_usize (gmul c (g_of_Z 255))) 255.
Definition pixel_of (c : vec4) : pixel := Px (quant (vx c)) (quant (vy c)) (quant (vz c)) (quant (vw c)).
(** 626-631: `as f32 / 255.0` *)
Definition color_of (p : pixel) : vec4 := V4 (part (px_r p)) (part (px_g p)) (part (px_b p)) (part (px_a p)).

Section Library.
(** [image::open]; [RgbaImage::save] *)
Variables (open : string -> option image) (save : image -> string -> bool).

(** A function takes the world and the stack. [Got] has the result, the world and the stack; errors change neither images nor names. *)
Definition pops (t : rty) (stk : list value) : got (rval * list value) := and_then (fst (pop stk t)) (fun r => Got (r, snd (pop stk t))).
(** an argument of type [Variable] *)
Definition pop_any (stk : list value) : got (value * list value) :=
  match rev stk with
  | [] => Crash
  | v :: _ => and_then (look (removelast stk) v) (fun v => Got (v, removelast stk))
  end.
(** 538-553, 567-571, 583-587, 606-622: the image of a number or of an object *)
Inductive which := WImage (n : nat) | WObject (n : nat).
Definition found (w : world) (v : value) : got (which * image) :=
  match v with
  | VF64 id _ =>
      match nth_error (w_images w) (Z.to_nat (f64_to_usize id)) with
      | Some i => Got (WImage (Z.to_nat (f64_to_usize id)), i)
      | None => Wrong
      end
  | VRust o =>
      match nth_error (w_objects w) o with
      | Some (OImage i) => Got (WObject o, i)
      | Some OOther => Wrong
      | None => Crash
      end
  | _ => Wrong
  end.
Definition store (w : world) (k : which) (i : image) : world :=
  match k with
  | WImage n => World (match put (w_images w) n i with Some l => l | None => w_images w end) (w_names w) (w_objects w)
  | WObject n => World (w_images w) (w_names w) (match put (w_objects w) n (OImage i) with Some l => l | None => w_objects w end)
  end.
Definition outside (i : image) (x y : Z) : bool := (i_width i <=? x)%Z || (i_height i <=? y)%Z.

(** 471-474 *)
Definition image_names (w : world) (stk : list value) : got (value * world * list value) := Got (VArray (map VStr (w_names w)), w, stk).
(** 476-492 *)
Definition load_image (w : world) (stk : list value) : got (value * world * list value) :=
  and_then (pops TStr stk) (fun p => match p with
  | (RStr f, stk) =>
      match open f with
      | Some i => Got (VOk (VF64 (f_of_Z (Z.of_nat (length (w_images w)))) None), World (w_images w ++ [i]) (w_names w ++ [f]) (w_objects w), stk)
      | None => Got (VErr (VStr "open") [], w, stk)
      end
  | _ => Wrong
  end).
(** 494-503 *)
Definition load_image_obj (w : world) (stk : list value) : got (value * world * list value) :=
  and_then (pops TStr stk) (fun p => match p with
  | (RStr f, stk) =>
      match open f with
      | Some i => Got (VOk (VRust (length (w_objects w))), World (w_images w) (w_names w) (w_objects w ++ [OImage i]), stk)
      | None => Got (VErr (VStr "open") [], w, stk)
      end
  | _ => Wrong
  end).
(** vec4.rs: [f64; 2], then `as u32` *)
Definition extent (v : vec4) : Z * Z := (f64_to_u32 (f64_of_f32 (vx v)), f64_to_u32 (f64_of_f32 (vy v))).
(** 505-515 *)
Definition create_image_name_size (w : world) (stk : list value) : got (value * world * list value) :=
  and_then (pops TVec4 stk) (fun p => match p with
  | (RVec4 v, stk) =>
      and_then (pops TStr stk) (fun p => match p with
      | (RStr s, stk) =>
          and_then (new_image (fst (extent v)) (snd (extent v))) (fun i =>
          Got (VF64 (f_of_Z (Z.of_nat (length (w_images w)))) None, World (w_images w ++ [i]) (w_names w ++ [s]) (w_objects w), stk))
      | _ => Wrong
      end)
  | _ => Wrong
  end).
(** 517-522 *)
Definition create_image_size (w : world) (stk : list value) : got (value * world * list value) :=
  and_then (pops TVec4 stk) (fun p => match p with
  | (RVec4 v, stk) =>
      and_then (new_image (fst (extent v)) (snd (extent v))) (fun i =>
      Got (VRust (length (w_objects w)), World (w_images w) (w_names w) (w_objects w ++ [OImage i]), stk))
  | _ => Wrong
  end).
(** 524-532: indexing panics *)
Definition save_image_file (w : world) (stk : list value) : got (value * world * list value) :=
  and_then (pops TStr stk) (fun p => match p with
  | (RStr f, stk) =>
      and_then (pops TUsize stk) (fun p => match p with
      | (RInt id, stk) =>
          match nth_error (w_images w) (Z.to_nat id) with
          | Some i => Got (if save i f then VOk (VStr f) else VErr (VStr "save") [], w, stk)
          | None => Crash
          end
      | _ => Wrong
      end)
  | _ => Wrong
  end).
(** 534-554 *)
Definition image_size (w : world) (stk : list value) : got (value * world * list value) :=
  and_then (pop_any stk) (fun p => match p with (v, stk) =>
  and_then (found w v) (fun f => match f with (_, i) => Got (VVec4 (V4 (g_of_Z (i_width i)) (g_of_Z (i_height i)) g0 g0), w, stk) end) end).
(** 557-599 *)
Definition set_pixel (w : world) (stk : list value) : got (world * list value) :=
  and_then (pops TVec4 stk) (fun p => match p with
  | (RVec4 c, stk) =>
      and_then (pops TVec4 stk) (fun p => match p with
      | (RVec4 pos, stk) =>
          and_then (pop_any stk) (fun p => match p with (v, stk) =>
          and_then (found w v) (fun f => match f with (k, i) =>
          let x := coord (vx pos) in let y := coord (vy pos) in
          if outside i x y then Wrong else and_then (put_pixel i x y (pixel_of c)) (fun i => Got (store w k i, stk)) end) end)
      | _ => Wrong
      end)
  | _ => Wrong
  end).
(** 601-632 *)
Definition pixel_color (w : world) (stk : list value) : got (value * world * list value) :=
  and_then (pops TVec4 stk) (fun p => match p with
  | (RVec4 pos, stk) =>
      and_then (pop_any stk) (fun p => match p with (v, stk) =>
      and_then (found w v) (fun f => match f with (_, i) =>
      let x := coord (vx pos) in let y := coord (vy pos) in
      if outside i x y then Wrong else and_then (get_pixel i x y) (fun p => Got (VVec4 (color_of p), w, stk)) end) end)
  | _ => Wrong
  end).
End Library.
