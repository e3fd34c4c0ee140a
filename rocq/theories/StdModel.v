(** * Operators and array intrinsics of the standard library.

    Model of /repo/src/dyon_std/mod.rs 17-290 (operators), 437-524 (secrets) and 640-915 (arrays).
    Error texts are kept as far as they distinguish errors; [arg_err_index] (which argument the
    message points at) is left out. [vecmath]'s component-wise sums and differences are written
    out; its matrix product and matrix-vector product, and the functions [%] and [powf] of Rust,
    are oracles. *)
From Coq Require Import String Ascii List ZArith Bool.
From Verif Require Import Float64 Syntax InterpModel.
Import ListNotations.
Local Open Scope string_scope.
Local Open Scope nat_scope.
Local Open Scope list_scope.

Record math := Math {
  o_frem : f64 -> f64 -> f64;
  o_fpow : f64 -> f64 -> f64;
  o_grem : f32 -> f32 -> f32;
  o_gpow : f32 -> f32 -> f32;
  o_matmul : mat4 -> mat4 -> mat4;
  o_mattrans : mat4 -> vec4 -> vec4 }.

(** Rust compares strings byte by byte. *)
Definition str_lt (a b : string) : bool := match String.compare a b with Lt => true | _ => false end.
Definition str_le (a b : string) : bool := match String.compare a b with Gt => false | _ => true end.

(** 39-47 *)
Definition less (a b : value) : pres :=
  match a, b with
  | VF64 x sec, VF64 y _ => POk (VBool (flt x y) sec)
  | VStr x, VStr y => POk (vbool (str_lt x y))
  | _, _ => PErr "Expected `f64` or `str`"
  end.
(** 49-57 *)
Definition less_or_equal (a b : value) : pres :=
  match a, b with
  | VF64 x sec, VF64 y _ => POk (VBool (fle x y) sec)
  | VStr x, VStr y => POk (vbool (str_le x y))
  | _, _ => PErr "Expected `f64` or `str`"
  end.
(** The negation used at 59-77 and 111-119. *)
Definition negated (r : pres) : pres :=
  match r with
  | POk (VBool b sec) => POk (VBool (negb b) sec)
  | POk _ => PPanic "Expected equal to return `bool`"
  | r => r
  end.
(** 59-67, 69-77 *)
Definition greater (a b : value) : pres := negated (less_or_equal a b).
Definition greater_or_equal (a b : value) : pres := negated (less a b).

(** [matches!(r, Ok(Variable::Bool(true, _)))] *)
Definition is_true (r : pres) : bool := match r with POk (VBool true _) => true | _ => false end.
(** [==] on [[f32; 4]] *)
Definition vec_eq (a b : vec4) : bool :=
  feq (vx a) (vx b) && feq (vy a) (vy b) && feq (vz a) (vz b) && feq (vw a) (vw b).
(** 79-109 *)
Fixpoint equal (a b : value) {struct a} : pres :=
  let err := PErr "Expected `f64`, `str`, `bool`, `vec4`, `{}`, `[]` or `opt`" in
  match a with
  | VF64 x sec => match b with VF64 y _ => POk (VBool (feq x y) sec) | _ => err end
  | VStr x => match b with VStr y => POk (vbool (String.eqb x y)) | _ => err end
  | VBool x sec => match b with VBool y _ => POk (VBool (Bool.eqb x y) sec) | _ => err end
  | VVec4 x => match b with VVec4 y => POk (vbool (vec_eq x y)) | _ => err end
  | VObject l =>
      match b with
      | VObject l' =>
          POk (vbool (Nat.eqb (length l) (length l') &&
            (fix go (l : list (string * value)) : bool :=
               match l with
               | [] => true
               | (k, x) :: l => match assoc k l' with Some y => is_true (equal x y) | None => false end && go l
               end) l))
      | _ => err
      end
  | VArray l =>
      match b with
      | VArray l' =>
          POk (vbool (Nat.eqb (length l) (length l') &&
            (fix go (l1 l2 : list value) : bool :=
               match l1, l2 with
               | x :: l1, y :: l2 => is_true (equal x y) && go l1 l2
               | _, _ => true
               end) l l'))
      | _ => err
      end
  | VNone => match b with VNone => POk (vbool true) | VSome _ => POk (vbool false) | _ => err end
  | VSome x => match b with VNone => POk (vbool false) | VSome y => equal x y | _ => err end
  | _ => err
  end.
(** 111-119 *)
Definition not_equal (a b : value) : pres := negated (equal a b).

Section Math.
Context (O : math).
Definition vmap (f : f32 -> f32) (a : vec4) : vec4 := V4 (f (vx a)) (f (vy a)) (f (vz a)) (f (vw a)).
Definition mmap (f : f32 -> f32) (a : mat4) : mat4 := M4 (vmap f (mx a)) (vmap f (my a)) (vmap f (mz a)) (vmap f (mw a)).
Definition mmap2 (f : f32 -> f32 -> f32) (a b : mat4) : mat4 :=
  M4 (vmap2 f (mx a) (mx b)) (vmap2 f (my a) (my b)) (vmap2 f (mz a) (mz b)) (vmap2 f (mw a) (mw b)).

(** 121-151 *)
Definition add (a b : value) : pres :=
  match a, b with
  | VF64 x sec, VF64 y _ => POk (VF64 (fadd x y) sec)
  | VVec4 x, VVec4 y => POk (VVec4 (vmap2 gadd x y))
  | VVec4 x, VF64 y _ | VF64 y _, VVec4 x => POk (VVec4 (vmap (fun c => gadd c (f32_of_f64 y)) x))
  | VMat4 x, VMat4 y => POk (VMat4 (mmap2 gadd x y))
  | VF64 x _, VMat4 y | VMat4 y, VF64 x _ => POk (VMat4 (mmap (fun c => gadd c (f32_of_f64 x)) y))
  | VBool x sec, VBool y _ => POk (VBool (x || y) sec)
  | VStr x, VStr y => POk (VStr (x ++ y))
  | VLink x, VLink y => POk (VLink (x ++ y)%list)
  | _, _ => PErr "Expected `f64`, `vec4`, `mat4`, `bool`, `str` or `link`"
  end.
(** 153-189 *)
Definition sub (a b : value) : pres :=
  match a, b with
  | VF64 x sec, VF64 y _ => POk (VF64 (fsub x y) sec)
  | VVec4 x, VVec4 y => POk (VVec4 (vmap2 gsub x y))
  | VVec4 x, VF64 y _ => POk (VVec4 (vmap (fun c => gsub c (f32_of_f64 y)) x))
  | VF64 x _, VVec4 y => POk (VVec4 (vmap (fun c => gsub (f32_of_f64 x) c) y))
  | VMat4 x, VMat4 y => POk (VMat4 (mmap2 gsub x y))
  | VF64 x _, VMat4 y => POk (VMat4 (mmap (fun c => gsub (f32_of_f64 x) c) y))
  | VMat4 y, VF64 x _ => POk (VMat4 (mmap (fun c => gsub c (f32_of_f64 x)) y))
  | VBool x sec, VBool y _ => POk (VBool (x && negb y) sec)
  | _, _ => PErr "Expected `f64`, `vec4`, `mat4` or `bool`"
  end.
(** 191-215 *)
Definition mul (a b : value) : pres :=
  match a, b with
  | VF64 x sec, VF64 y _ => POk (VF64 (fmul x y) sec)
  | VVec4 x, VVec4 y => POk (VVec4 (vmap2 gmul x y))
  | VVec4 x, VF64 y _ | VF64 y _, VVec4 x => POk (VVec4 (vmap (fun c => gmul c (f32_of_f64 y)) x))
  | VMat4 x, VMat4 y => POk (VMat4 (o_matmul O x y))
  | VF64 x _, VMat4 y | VMat4 y, VF64 x _ => POk (VMat4 (mmap (fun c => gmul c (f32_of_f64 x)) y))
  | VMat4 x, VVec4 y => POk (VVec4 (o_mattrans O x y))
  | VBool x sec, VBool y _ => POk (VBool (x && y) sec)
  | _, _ => PErr "Expected `f64`, `vec4`, `mat4` or `bool`"
  end.
(** 217-233 and 235-251 have the same shape. *)
Definition div (a b : value) : pres :=
  match a, b with
  | VF64 x sec, VF64 y _ => POk (VF64 (fdiv x y) sec)
  | VVec4 x, VVec4 y => POk (VVec4 (vmap2 gdiv x y))
  | VVec4 x, VF64 y _ => POk (VVec4 (vmap (fun c => gdiv c (f32_of_f64 y)) x))
  | VF64 x _, VVec4 y => POk (VVec4 (vmap (fun c => gdiv (f32_of_f64 x) c) y))
  | _, _ => PErr "Expected `f64` or `vec4`"
  end.
Definition rem (a b : value) : pres :=
  match a, b with
  | VF64 x sec, VF64 y _ => POk (VF64 (o_frem O x y) sec)
  | VVec4 x, VVec4 y => POk (VVec4 (vmap2 (o_grem O) x y))
  | VVec4 x, VF64 y _ => POk (VVec4 (vmap (fun c => o_grem O c (f32_of_f64 y)) x))
  | VF64 x _, VVec4 y => POk (VVec4 (vmap (fun c => o_grem O (f32_of_f64 x) c) y))
  | _, _ => PErr "Expected `f64` or `vec4`"
  end.
(** 253-275 *)
Definition pow (a b : value) : pres :=
  match a, b with
  | VF64 x sec, VF64 y _ => POk (VF64 (o_fpow O x y) sec)
  | VVec4 x, VVec4 y => POk (VVec4 (vmap2 (o_gpow O) x y))
  | VVec4 x, VF64 y _ => POk (VVec4 (vmap (fun c => o_gpow O c (f32_of_f64 y)) x))
  | VF64 x _, VVec4 y => POk (VVec4 (vmap (fun c => o_gpow O (f32_of_f64 x) c) y))
  | VBool x sec, VBool y _ => POk (VBool (xorb x y) sec)
  | _, _ => PErr "Expected `f64`, `vec4` or `bool`"
  end.
End Math.
(** 277-282 *)
Definition not (a : value) : pres :=
  match a with VBool b sec => POk (VBool (negb b) sec) | _ => PErr "Expected `bool`" end.
(** 284-296 *)
Definition neg (a : value) : pres :=
  match a with
  | VF64 x sec => POk (VF64 (fneg x) sec)
  | VVec4 v => POk (VVec4 (vmap fneg v))
  | VMat4 m => POk (VMat4 (mmap fneg m))
  | _ => PErr "Expected `f64`, `vec4` or `mat4`"
  end.

(** lib.rs [Dfn]s: the functions behind the operators. *)
Definition std_bin (O : math) (f : string) (a b : value) : pres :=
  if String.eqb f "add" then add a b else if String.eqb f "sub" then sub a b
  else if String.eqb f "mul" then mul O a b else if String.eqb f "div" then div a b
  else if String.eqb f "rem" then rem O a b else if String.eqb f "pow" then pow O a b
  else if String.eqb f "less" then less a b else if String.eqb f "less_or_equal" then less_or_equal a b
  else if String.eqb f "greater" then greater a b else if String.eqb f "greater_or_equal" then greater_or_equal a b
  else if String.eqb f "equal" then equal a b else if String.eqb f "not_equal" then not_equal a b
  else PErr "unknown".
Definition std_un (f : string) (a : value) : pres :=
  if String.eqb f "not" then not a else if String.eqb f "neg" then neg a else PErr "unknown".

(** 17-26, 28-37 *)
Definition logic (op : bool -> bool -> bool) : M value :=
  b <- pop ;; a <- pop ;; va <- getv a ;; vb <- getv b ;;
  match va, vb with
  | VBool x sec, VBool y _ => ret (VBool (op x y) sec)
  | _, _ => fail "Expected `bool`"
  end.
Definition and_also : M value := logic andb.
Definition or_else : M value := logic orb.

(** 437-459 *)
Definition why : M value :=
  v <- pop ;; x <- getv v ;;
  match x with
  | VBool true (Some sec) => ret (VArray (rev sec))
  | VBool true None => fail "This does not make sense, perhaps an array is empty?"
  | VBool false _ => fail "Must be `true` to have meaning, try add or remove `!`"
  | _ => fail "expected bool"
  end.
(** 461-484 *)
Definition where_ : M value :=
  v <- pop ;; x <- getv v ;;
  match x with
  | VF64 y (Some sec) => if fis_nan y then fail "Expected number, found `NaN`" else ret (VArray (rev sec))
  | VF64 _ None => fail "This does not make sense, perhaps an array is empty?"
  | _ => fail "expected f64"
  end.
(** 486-504; the explanation is not resolved with [get], only cloned. *)
Definition explain_why (n : nat) : M value :=
  w <- pop ;; v <- pop ;; x <- getv v ;;
  match x with
  | VBool b sec => w <- deep n w ;; ret (VBool b (Some (match sec with None => [w] | Some l => l ++ [w] end)))
  | _ => fail "expected bool"
  end.
(** 506-524 *)
Definition explain_where (n : nat) : M value :=
  w <- pop ;; v <- pop ;; x <- getv v ;;
  match x with
  | VF64 y sec => w <- deep n w ;; ret (VF64 y (Some (match sec with None => [w] | Some l => l ++ [w] end)))
  | _ => fail "expected f64"
  end.

(** ** Arrays *)

(** 640-645: called with the resolved argument. *)
Definition len (a : value) : pres :=
  match a with VArray l => POk (vf64 (f_of_Z (Z.of_nat (length l)))) | _ => PErr "Expected array" end.

(** The common shape of 647-671, 710-735, 775-807, 839-915: [v] must be a reference to a slot
    holding an array, which is replaced. *)
Definition at_array {A} (v : value) (f : list value -> M (list value * A)) : M A :=
  match v with
  | VRef i =>
      w <- slot i ;;
      match w with
      | VArray l => r <- f l ;; modify (fun s => set_stack (list_set i (VArray (fst r)) (r_stack s)) s) ;;; ret (snd r)
      | _ => fail "Expected reference to array"
      end
  | _ => fail "Expected reference to array"
  end.
Definition number_arg (v : value) : M f64 :=
  x <- getv v ;; match x with VF64 y _ => ret y | _ => fail "expected number" end.

Definition insert_at {A} (i : nat) (x : A) (l : list A) : list A := firstn i l ++ x :: skipn i l.
Definition remove_at {A} (i : nat) (l : list A) : list A := firstn i l ++ skipn (S i) l.

(** 647-671 [push_ref], 710-735 [push]; the argument is copied by [push] only. *)
Definition push_core (v item : value) : M unit := at_array v (fun l => ret (l ++ [item], tt)).
Definition array_push_ref : M unit := item <- pop ;; v <- pop ;; push_core v item.
Definition array_push (n : nat) : M unit :=
  item <- pop ;; x <- getv item ;; y <- deep n x ;; v <- pop ;; push_core v y.
(** 673-708, 737-773 *)
Definition insert_core (v : value) (index : f64) (item : value) : M unit :=
  at_array v (fun l =>
    let i := f64_to_usize index in
    if (Z.of_nat (length l) <? i)%Z then fail "Index out of bounds"
    else ret (insert_at (Z.to_nat i) item l, tt)).
Definition array_insert_ref : M unit :=
  item <- pop ;; index <- pop ;; i <- number_arg index ;; v <- pop ;; insert_core v i item.
Definition array_insert (n : nat) : M unit :=
  item <- pop ;; x <- getv item ;; y <- deep n x ;; index <- pop ;; i <- number_arg index ;; v <- pop ;; insert_core v i y.
(** 775-807 *)
Definition array_pop : M value :=
  v <- pop ;;
  at_array v (fun l =>
    match rev l with [] => fail "Expected non-empty array" | x :: _ => ret (removelast l, x) end).
(** 809-837 *)
Definition array_remove : M value :=
  index <- pop ;; i <- number_arg index ;; v <- pop ;;
  at_array v (fun l =>
    let i := f64_to_usize i in
    if (Z.of_nat (length l) <=? i)%Z then fail "Index out of bounds"
    else match nth_error l (Z.to_nat i) with
         | Some x => ret (remove_at (Z.to_nat i) l, x)
         | None => panic "remove"
         end).
(** 839-861, 863-885 *)
Definition array_reverse : M unit := v <- pop ;; at_array v (fun l => ret (rev l, tt)).
Definition array_clear : M unit := v <- pop ;; at_array v (fun l => ret ([], tt)).
(** 887-919: [slice::swap] panics out of bounds. *)
Definition array_swap : M unit :=
  j <- pop ;; i <- pop ;; y <- number_arg j ;; x <- number_arg i ;; v <- pop ;;
  at_array v (fun l =>
    let i := f64_to_usize x in let j := f64_to_usize y in
    if (i <? Z.of_nat (length l))%Z && (j <? Z.of_nat (length l))%Z then
      match nth_error l (Z.to_nat i), nth_error l (Z.to_nat j) with
      | Some a, Some b => ret (list_set (Z.to_nat j) a (list_set (Z.to_nat i) b l), tt)
      | _, _ => panic "swap"
      end
    else panic "swap").

(** ** Copies, options and results *)

(** 432-435 [clone], 1588-1593 [some], 1595-1599 [ok], 1601-1607 [err] *)
Definition copy_arg (n : nat) : M value := v <- pop ;; x <- getv v ;; deep n x.
Definition clone_ (n : nat) : M value := copy_arg n.
Definition some_ (n : nat) : M value := x <- copy_arg n ;; ret (VSome x).
Definition ok_ (n : nat) : M value := x <- copy_arg n ;; ret (VOk x).
Definition err_ (n : nat) : M value := x <- copy_arg n ;; ret (VErr x []).
(** 1609-1624 *)
Definition is_err : M value :=
  v <- pop ;; x <- getv v ;;
  match x with VErr _ _ => ret (vbool true) | VOk _ => ret (vbool false) | _ => fail "expected result" end.
Definition is_ok : M value :=
  v <- pop ;; x <- getv v ;;
  match x with VErr _ _ => ret (vbool false) | VOk _ => ret (vbool true) | _ => fail "expected result" end.
(** 1662-1697; the message of the error is not modelled. *)
Definition unwrap : M value :=
  v <- pop ;; x <- getv v ;;
  match x with
  | VSome y | VOk y => ret y
  | VNone => fail "Expected some(_)"
  | VErr _ _ => fail "unwrap"
  | _ => fail "expected some(_) or ok(_)"
  end.
(** 1699-1710 *)
Definition unwrap_or : M value :=
  d <- pop ;; v <- pop ;; x <- getv v ;;
  match x with
  | VSome y | VOk y => ret y
  | VNone | VErr _ _ => getv d
  | _ => fail "expected some(_) or ok(_)"
  end.
(** 1712-1718 *)
Definition unwrap_err : M value :=
  v <- pop ;; x <- getv v ;; match x with VErr m _ => ret m | _ => fail "expected err(_)" end.

(** ** Smallest and largest element; keys *)

(** 1626-1660: elements that are not numbers are skipped. *)
Fixpoint best_of (better : f64 -> f64 -> bool) (l : list value) (best : f64) : M f64 :=
  match l with
  | [] => ret best
  | v :: l =>
      x <- getv v ;;
      best_of better l (match x with VF64 y _ => if better y best || fis_nan best then y else best | _ => best end)
  end.
Definition best_arg (better : f64 -> f64 -> bool) : M value :=
  v <- pop ;; x <- getv v ;;
  match x with VArray l => y <- best_of better l fnan ;; ret (vf64 y) | _ => fail "expected array" end.
Definition array_min : M value := best_arg (fun y best => flt y best).
Definition array_max : M value := best_arg (fun y best => flt best y).
(** 2031-2042 *)
Definition has : M value :=
  key <- pop ;; k <- getv key ;;
  match k with
  | VStr k =>
      v <- pop ;; x <- getv v ;;
      match x with
      | VObject l => ret (vbool (match assoc k l with Some _ => true | None => false end))
      | _ => fail "expected object"
      end
  | _ => fail "expected str"
  end.
(** 2044-2050: the order of the keys is unspecified. *)
Definition keys : M value :=
  v <- pop ;; x <- getv v ;;
  match x with VObject l => ret (VArray (map (fun kx => VStr (fst kx)) l)) | _ => fail "expected object" end.

(** The environment with these functions; every other external function is an oracle. [n] bounds
    chains of references in deep copies. *)
Definition std_env (O : math) (n : nat) (mods : list modl) (void : string -> rt -> outcome unit)
  (rtn : string -> rt -> outcome value) (bin : string -> value -> value -> pres) (un : string -> value -> pres)
  (alloc : Z -> bool) : env :=
  Env BySlot mods
    (fun f =>
       if String.eqb f "push_ref" then array_push_ref else if String.eqb f "push" then array_push n
       else if String.eqb f "insert_ref" then array_insert_ref else if String.eqb f "insert" then array_insert n
       else if String.eqb f "reverse" then array_reverse else if String.eqb f "clear" then array_clear
       else if String.eqb f "swap" then array_swap else void f)
    (fun f =>
       if String.eqb f "and_also" then and_also else if String.eqb f "or_else" then or_else
       else if String.eqb f "why" then why else if String.eqb f "where" then where_
       else if String.eqb f "explain_why" then explain_why n else if String.eqb f "explain_where" then explain_where n
       else if String.eqb f "pop" then array_pop else if String.eqb f "remove" then array_remove
       else if String.eqb f "clone" then clone_ n else if String.eqb f "some" then some_ n
       else if String.eqb f "ok" then ok_ n else if String.eqb f "err" then err_ n
       else if String.eqb f "is_ok" then is_ok else if String.eqb f "is_err" then is_err
       else if String.eqb f "unwrap" then unwrap else if String.eqb f "unwrap_or" then unwrap_or
       else if String.eqb f "unwrap_err" then unwrap_err
       else if String.eqb f "min" then array_min else if String.eqb f "max" then array_max
       else if String.eqb f "has" then has else if String.eqb f "keys" then keys else rtn f)
    (fun f a b => match std_bin O f a b with PErr "unknown" => bin f a b | r => r end)
    (fun f a => if String.eqb f "len" then len a else match std_un f a with PErr "unknown" => un f a | r => r end)
    (fun f =>
       if String.eqb f "and_also" then [[LzVar (vbool false)]]
       else if String.eqb f "or_else" then [[LzVar (vbool true)]]
       else if String.eqb f "unwrap_or" then [[LzOk; LzSome]] else [])
    alloc (o_frem O) (o_fpow O) (o_grem O) (o_gpow O) (o_matmul O).
