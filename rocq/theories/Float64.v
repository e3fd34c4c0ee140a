(** * IEEE-754 numbers used by Dyon.

    Rust's [f64] and [f32] are modelled by [SpecFloat.spec_float] with (53,1024) and (24,128):
    round to nearest even, signed zeros, infinities, one NaN (payloads and NaN signs are not
    modelled). [%] and [powf] are not defined here: the interpreter takes them as oracles. *)
From Coq Require Import ZArith Bool Floats.SpecFloat.
Local Open Scope Z_scope.

Definition f64 := spec_float.
Definition f32 := spec_float.

Definition fadd : f64 -> f64 -> f64 := SFadd 53 1024.
Definition fsub : f64 -> f64 -> f64 := SFsub 53 1024.
Definition fmul : f64 -> f64 -> f64 := SFmul 53 1024.
Definition fdiv : f64 -> f64 -> f64 := SFdiv 53 1024.
Definition fneg : f64 -> f64 := SFopp.
Definition feq : f64 -> f64 -> bool := SFeqb.
Definition flt : f64 -> f64 -> bool := SFltb.
Definition fle : f64 -> f64 -> bool := SFleb.
Definition fnan : f64 := S754_nan.
Definition fis_nan (x : f64) : bool := match x with S754_nan => true | _ => false end.
(** Integers as numbers (correctly rounded). *)
Definition f_of_Z (z : Z) : f64 := binary_normalize 53 1024 z 0 false.
Definition f0 : f64 := S754_zero false.
Definition f1 : f64 := f_of_Z 1.

Definition gadd : f32 -> f32 -> f32 := SFadd 24 128.
Definition gsub : f32 -> f32 -> f32 := SFsub 24 128.
Definition gmul : f32 -> f32 -> f32 := SFmul 24 128.
Definition gdiv : f32 -> f32 -> f32 := SFdiv 24 128.
Definition g_of_Z (z : Z) : f32 := binary_normalize 24 128 z 0 false.

(** [x as f32]: round to nearest even. *)
Definition f32_of_f64 (x : f64) : f32 :=
  match x with
  | S754_finite s m e => binary_normalize 24 128 (if s then Z.neg m else Z.pos m) e s
  | _ => x
  end.
(** [f64::from(x)] for [x : f32]: exact. *)
Definition f64_of_f32 (x : f32) : f64 :=
  match x with
  | S754_finite s m e => binary_normalize 53 1024 (if s then Z.neg m else Z.pos m) e s
  | _ => x
  end.

Definition USIZE_MAX : Z := 2 ^ 64 - 1.
(** [x as usize]: truncation towards zero, saturating, NaN gives 0. *)
Definition f64_to_usize (x : f64) : Z :=
  match x with
  | S754_finite false m e =>
      let t := if 0 <=? e then if 1024 <? e then USIZE_MAX else Z.shiftl (Z.pos m) e
               else Z.shiftr (Z.pos m) (- e) in
      Z.min t USIZE_MAX
  | S754_infinity false => USIZE_MAX
  | _ => 0
  end.
