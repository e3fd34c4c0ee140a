(** * What operators and array intrinsics should do. *)
From Coq Require Import String List ZArith Bool Arith.
From Verif Require Import Float64 Syntax.
Import ListNotations.
Local Open Scope nat_scope.
Local Open Scope list_scope.

(** ** Equality *)

(** The same data: numbers compare as IEEE numbers, secrets are ignored, arrays element by
    element, objects have the same keys with the same values. *)
Definition same_vec (a b : vec4) : Prop :=
  feq (vx a) (vx b) = true /\ feq (vy a) (vy b) = true /\ feq (vz a) (vz b) = true /\ feq (vw a) (vw b) = true.
Fixpoint same (a b : value) {struct a} : Prop :=
  match a, b with
  | VF64 x _, VF64 y _ => feq x y = true
  | VStr x, VStr y => x = y
  | VBool x _, VBool y _ => x = y
  | VVec4 x, VVec4 y => same_vec x y
  | VArray l, VArray l' =>
      (fix go (l1 l2 : list value) : Prop :=
         match l1, l2 with
         | [], [] => True
         | x :: l1, y :: l2 => same x y /\ go l1 l2
         | _, _ => False
         end) l l'
  | VObject l, VObject l' =>
      (forall k, In k (map fst l) <-> In k (map fst l')) /\
      (fix go (l : list (string * value)) : Prop :=
         match l with
         | [] => True
         | (k, x) :: l => (exists y, In (k, y) l' /\ same x y) /\ go l
         end) l
  | VNone, VNone => True
  | VSome x, VSome y => same x y
  | _, _ => False
  end.

(** Data that can be compared, every object with distinct keys. *)
Fixpoint data (v : value) : Prop :=
  match v with
  | VF64 _ _ | VStr _ | VBool _ _ | VVec4 _ | VNone => True
  | VSome x => data x
  | VArray l => (fix go (l : list value) : Prop := match l with [] => True | x :: l => data x /\ go l end) l
  | VObject l =>
      NoDup (map fst l) /\
      (fix go (l : list (string * value)) : Prop := match l with [] => True | (_, x) :: l => data x /\ go l end) l
  | _ => False
  end.
(** Is there no NaN anywhere in it (outside of secrets)? *)
Definition num_ok (x : f64) : Prop := fis_nan x = false.
Fixpoint nan_free (v : value) : Prop :=
  match v with
  | VF64 x _ => num_ok x
  | VVec4 a => num_ok (vx a) /\ num_ok (vy a) /\ num_ok (vz a) /\ num_ok (vw a)
  | VSome x => nan_free x
  | VArray l => (fix go (l : list value) : Prop := match l with [] => True | x :: l => nan_free x /\ go l end) l
  | VObject l =>
      (fix go (l : list (string * value)) : Prop := match l with [] => True | (_, x) :: l => nan_free x /\ go l end) l
  | _ => True
  end.
(** All secrets removed. *)
Fixpoint bare (v : value) : value :=
  match v with
  | VF64 x _ => VF64 x None
  | VBool b _ => VBool b None
  | VSome x => VSome (bare x)
  | VArray l => VArray (map bare l)
  | VObject l => VObject (map (fun kx => (fst kx, bare (snd kx))) l)
  | v => v
  end.

(** ** Arithmetic *)

Inductive kind := TNum | TBool | TStr | TVec | TMat | TLink | TOpt | TArr | TObj | TOther.
Definition kind_of (v : value) : kind :=
  match v with
  | VF64 _ _ => TNum | VBool _ _ => TBool | VStr _ => TStr | VVec4 _ => TVec | VMat4 _ => TMat
  | VLink _ => TLink | VNone | VSome _ => TOpt | VArray _ => TArr | VObject _ => TObj | _ => TOther
  end.
Inductive aop := AAdd | ASub | AMul | ADiv | ARem | APow.
(** The supported pairs and the kind of the result. *)
Definition supported (op : aop) (a b : kind) : option kind :=
  match op, a, b with
  | _, TNum, TNum => Some TNum
  | _, TVec, TVec | _, TVec, TNum | _, TNum, TVec => Some TVec
  | (AAdd | ASub | AMul), TMat, TMat | (AAdd | ASub | AMul), TMat, TNum | (AAdd | ASub | AMul), TNum, TMat => Some TMat
  | AMul, TMat, TVec => Some TVec
  | (AAdd | ASub | AMul | APow), TBool, TBool => Some TBool
  | AAdd, TStr, TStr => Some TStr
  | AAdd, TLink, TLink => Some TLink
  | _, _, _ => None
  end.
(** Component [i] of a vector, component [j] of row [i] of a matrix; a number stands for itself in
    every place. *)
Definition nth4 (a : vec4) (i : nat) : f32 := match i with 0 => vx a | 1 => vy a | 2 => vz a | _ => vw a end.
Definition row (m : mat4) (i : nat) : vec4 := match i with 0 => mx m | 1 => my m | 2 => mz m | _ => mw m end.
Definition lane (v : value) (i j : nat) : option f32 :=
  match v with
  | VF64 x _ => Some (f32_of_f64 x)
  | VVec4 a => Some (nth4 a i)
  | VMat4 m => Some (nth4 (row m i) j)
  | _ => None
  end.

(** ** Secrets *)
Definition secret_of (v : value) : option (list value) :=
  match v with VBool _ sec => sec | VF64 _ sec => sec | _ => None end.
Definition carries_secret (v : value) : Prop := match v with VBool _ _ | VF64 _ _ => True | _ => False end.

(** ** Array operations on lists *)
Definition inserted {A} (i : nat) (x : A) (l l' : list A) : Prop :=
  exists l1 l2, l = l1 ++ l2 /\ length l1 = i /\ l' = l1 ++ x :: l2.
Definition removed {A} (i : nat) (x : A) (l l' : list A) : Prop :=
  exists l1 l2, l = l1 ++ x :: l2 /\ length l1 = i /\ l' = l1 ++ l2.
Definition swapped {A} (i j : nat) (l l' : list A) : Prop :=
  length l' = length l /\
  forall k, nth_error l' k = nth_error l (if Nat.eqb k i then j else if Nat.eqb k j then i else k).
(** Only slot [i] changed, and it holds the array [l'] now. *)
Definition only_array (i : nat) (l' : list value) (stk stk' : list value) : Prop :=
  length stk' = length stk /\ nth_error stk' i = Some (VArray l') /\
  forall j, j <> i -> nth_error stk' j = nth_error stk j.
