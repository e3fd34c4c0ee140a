(** * What images are, for C77.

    An image is rows of pixels. The functions are specified by which pixels an image shows. *)
From Coq Require Import String List ZArith Arith.
From Verif Require Import Float64 Syntax EmbedModel ImageModel.
Import ListNotations.
Local Open Scope nat_scope.
Local Open Scope list_scope.

(** [i] is [h] rows with [w] pixels each. *)
Definition rows_of (i : image) (rows : list (list pixel)) : Prop :=
  i_data i = concat rows /\ Z.of_nat (length rows) = i_height i /\ Forall (fun r => Z.of_nat (length r) = i_width i) rows.
Definition sound (i : image) : Prop := exists rows, rows_of i rows.
(** the pixel in column [x] of row [y] *)
Definition shows (i : image) (x y : nat) (p : pixel) : Prop :=
  exists rows row, rows_of i rows /\ nth_error rows y = Some row /\ nth_error row x = Some p.
Definition is_byte (z : Z) : Prop := (0 <= z <= 255)%Z.
Definition is_pixel (p : pixel) : Prop := is_byte (px_r p) /\ is_byte (px_g p) /\ is_byte (px_b p) /\ is_byte (px_a p).
(** Every image is rows of pixels with bytes, and has a name. *)
Definition good_image (i : image) : Prop := sound i /\ forall x y p, shows i x y p -> is_pixel p.
Record good (w : world) : Prop := {
  g_images : forall n i, nth_error (w_images w) n = Some i -> good_image i;
  g_objects : forall n i, nth_error (w_objects w) n = Some (OImage i) -> good_image i;
  g_names : length (w_names w) = length (w_images w) }.

(** Argument values: of a reference, the value of the variable *)
Inductive arg (stk : list value) : value -> value -> Prop :=
| Ar_value v : (forall i, v <> VRef i) -> arg stk v v
| Ar_ref i v : nth_error stk i = Some v -> arg stk (VRef i) v.
(** The image that a value stands for: a number of an image, or a Rust object *)
Inductive stands (w : world) : value -> image -> Prop :=
| St_number id sec i : nth_error (w_images w) (Z.to_nat (f64_to_usize id)) = Some i -> stands w (VF64 id sec) i
| St_object o i : nth_error (w_objects w) o = Some (OImage i) -> stands w (VRust o) i.
(** values that stand for the same image in every world *)
Inductive same : value -> value -> Prop :=
| Sa_number a sa b sb : f64_to_usize a = f64_to_usize b -> same (VF64 a sa) (VF64 b sb)
| Sa_object o : same (VRust o) (VRust o).
(** the place that a vector names *)
Definition at_ (pos : vec4) (x y : nat) : Prop := Z.of_nat x = f64_to_u32 (vx pos) /\ Z.of_nat y = f64_to_u32 (vy pos).
(** the bytes of a colour *)
Definition painted (c : vec4) (p : pixel) : Prop :=
  Forall2 (fun x z => z = Z.min (f64_to_usize (gmul x (g_of_Z 255))) 255) [vx c; vy c; vz c; vw c] [px_r p; px_g p; px_b p; px_a p].
(** the colour of bytes *)
Definition coloured (p : pixel) (c : vec4) : Prop :=
  Forall2 (fun z x => x = gdiv (g_of_Z z) (g_of_Z 255)) [px_r p; px_g p; px_b p; px_a p] [vx c; vy c; vz c; vw c].
