(** * Colours.

    Model of colour literals (src/ast/mod.rs 1263-1276, src/dyon_std/data.rs 62-84) and of
    src/dyon_std/mod.rs 988-1036 [str__color], [srgb_to_linear__color], [linear_to_srgb__color].

    The crate read_color is not part of the repository; [rgb_maybe_a] follows its documentation: three
    channels of two hexadecimal digits (of either case), and two more digits are the alpha channel.
    [powf] for [f32] is a parameter. Texts are lists of code points. *)
From Coq Require Import List ZArith NArith Bool Floats.SpecFloat.
From Verif Require Import Float64 Syntax.
Import ListNotations.
Local Open Scope Z_scope.
Local Open Scope list_scope.

(** [char::to_digit(16)] *)
Definition digit (c : N) : option Z :=
  let c := Z.of_N c in
  if (48 <=? c) && (c <=? 57) then Some (c - 48) else
  if (97 <=? c) && (c <=? 102) then Some (c - 87) else
  if (65 <=? c) && (c <=? 70) then Some (c - 55) else None.
(** One channel: two digits. *)
Definition channel (t : list N) : option (Z * list N) :=
  match t with
  | a :: b :: r => match digit a, digit b with Some x, Some y => Some (16 * x + y, r) | _, _ => None end
  | _ => None
  end.
(** read_color [rgb_maybe_a] *)
Definition rgb_maybe_a (t : list N) : option (Z * Z * Z * option Z) :=
  match channel t with
  | Some (r, t) =>
      match channel t with
      | Some (g, t) =>
          match channel t with
          | Some (b, t) => Some (r, g, b, match channel t with Some (a, _) => Some a | None => None end)
          | None => None
          end
      | None => None
      end
  | None => None
  end.
(** `f32::from(x) / 255.0` *)
Definition part (n : Z) : f32 := gdiv (g_of_Z n) (g_of_Z 255).
(** ast/mod.rs 1265-1275; [t] is the text after `#`. *)
Definition color_lit (t : list N) : option vec4 :=
  match rgb_maybe_a t with
  | Some (r, g, b, a) => Some (V4 (part r) (part g) (part b) (part (match a with Some a => a | None => 255 end)))
  | None => None
  end.

(** dyon_std/mod.rs 991-993 [clamp] *)
Definition clamp (x : f32) : f32 :=
  if SFltb x (S754_zero false) then S754_zero false else if SFltb (g_of_Z 1) x then g_of_Z 1 else x.
(** `(clamp(x) * 255.0) as usize` (the conversion depends on the number only) *)
Definition byte (x : f32) : Z := f64_to_usize (gmul (clamp x) (g_of_Z 255)).
(** 998-999 [map] *)
Definition hexmap : list N := [48; 49; 50; 51; 52; 53; 54; 55; 56; 57; 97; 98; 99; 100; 101; 102]%N.
(** `map[r1]`, `map[r2]`; [None]: the index is out of bounds, a panic. *)
Definition hex (n : Z) : option (list N) :=
  match nth_error hexmap (Z.to_nat (Z.shiftr n 4)), nth_error hexmap (Z.to_nat (Z.land n 15)) with
  | Some a, Some b => Some [a; b]
  | _, _ => None
  end.
(** 988-1012 [str__color] *)
Definition str_color (v : vec4) : option (list N) :=
  match hex (byte (vx v)), hex (byte (vy v)), hex (byte (vz v)) with
  | Some r, Some g, Some b =>
      if byte (vw v) =? 255 then Some (35%N :: r ++ g ++ b) else
      match hex (byte (vw v)) with Some a => Some (35%N :: r ++ g ++ b ++ a) | None => None end
  | _, _, _ => None
  end.

Section Pow.
Variable powf : f32 -> f32 -> f32.
(** The numbers of the source, rounded to [f32]: [a] / 10^[d], which are both exact. *)
Definition lit (a d : Z) : f32 := gdiv (g_of_Z a) (g_of_Z (10 ^ d)).
(** 1016-1022 [to_linear] *)
Definition to_linear (f : f32) : f32 :=
  if SFleb f (lit 4045 5) then gdiv f (lit 1292 2)
  else powf (gdiv (gadd f (lit 55 3)) (lit 1055 3)) (lit 24 1).
(** 1028-1034 [to_srgb] *)
Definition to_srgb (f : f32) : f32 :=
  if SFleb f (lit 31308 7) then gmul f (lit 1292 2)
  else gsub (gmul (lit 1055 3) (powf f (gdiv (g_of_Z 1) (lit 24 1)))) (lit 55 3).
(** 1014-1024 *)
Definition srgb_to_linear (v : vec4) : vec4 := V4 (to_linear (vx v)) (to_linear (vy v)) (to_linear (vz v)) (vw v).
(** 1026-1036 *)
Definition linear_to_srgb (v : vec4) : vec4 := V4 (to_srgb (vx v)) (to_srgb (vy v)) (to_srgb (vz v)) (vw v).
End Pow.
