(** * C44: what passing values means. *)
From Coq Require Import String List ZArith Bool Arith Floats.SpecFloat.
From Verif Require Import Float64 Syntax EmbedModel.
Import ListNotations.
Local Open Scope string_scope.
Local Open Scope nat_scope.
Local Open Scope list_scope.

(** A number that [f32] has. *)
Definition is_f32 (x : f32) : Prop := valid_binary 24 128 x = true.
(** Rust's typing of values; [whole z]: which values of [usize] are meant. *)
Inductive typed (whole : Z -> Prop) : rty -> rval -> Prop :=
| T_bool : forall b, typed whole TBool (RBool b)
| T_str : forall s, typed whole TStr (RStr s)
| T_u32 : forall z, (0 <= z < 2 ^ 32)%Z -> typed whole TU32 (RInt z)
| T_usize : forall z, (0 <= z < 2 ^ 64)%Z -> whole z -> typed whole TUsize (RInt z)
| T_f32 : forall x, is_f32 x -> typed whole TF32 (RF32 x)
| T_f64 : forall x, typed whole TF64 (RF64 x)
| T_rust : forall i, typed whole TRust (RRust i)
| T_vec4 : forall v, typed whole TVec4 (RVec4 v)
| T_mat4 : forall m, typed whole TMat4 (RMat4 m)
| T_none : forall t, typed whole (TOption t) RNone
| T_some : forall t r, typed whole t r -> typed whole (TOption t) (RSome r)
| T_ok : forall t u r, typed whole t r -> typed whole (TResult t u) (ROk r)
| T_err : forall t u r, typed whole u r -> typed whole (TResult t u) (RErr r)
| T_arr : forall n t l, length l = n -> each_typed whole (repeat t n) l -> typed whole (TArr n t) (RList l)
| T_tup : forall ts l, each_typed whole ts l -> typed whole (TTup ts) (RList l)
| T_vec : forall t l, each_typed whole (repeat t (length l)) l -> typed whole (TVec t) (RList l)
| T_obj : forall ts l, NoDup (map fst ts) -> map fst l = map fst ts -> each_typed whole (map snd ts) (map snd l) -> typed whole (TObj ts) (RObj l)
with each_typed (whole : Z -> Prop) : list rty -> list rval -> Prop :=
| E_nil : each_typed whole [] []
| E_cons : forall t r ts l, typed whole t r -> each_typed whole ts l -> each_typed whole (t :: ts) (r :: l).

(** The shape a value of Dyon needs for a type. *)
Inductive shape (stk : list value) : rty -> value -> Prop :=
| S_bool : forall b sec, shape stk TBool (VBool b sec)
| S_str : forall s, shape stk TStr (VStr s)
| S_u32 : forall x sec, shape stk TU32 (VF64 x sec)
| S_usize : forall x sec, shape stk TUsize (VF64 x sec)
| S_f32 : forall x sec, shape stk TF32 (VF64 x sec)
| S_f64 : forall x sec, shape stk TF64 (VF64 x sec)
| S_rust : forall i, shape stk TRust (VRust i)
| S_vec4 : forall v, shape stk TVec4 (VVec4 v)
| S_mat4 : forall m, shape stk TMat4 (VMat4 m)
| S_none : forall t, shape stk (TOption t) VNone
| S_some : forall t v, inside stk t v -> shape stk (TOption t) (VSome v)
| S_ok : forall t u v, inside stk t v -> shape stk (TResult t u) (VOk v)
| S_err : forall t u v tr, inside stk u v -> shape stk (TResult t u) (VErr v tr)
| S_arr : forall n t l more, each_inside stk (repeat t n) l -> shape stk (TArr n t) (VArray (l ++ more))
| S_tup : forall ts l more, each_inside stk ts l -> shape stk (TTup ts) (VArray (l ++ more))
| S_vec : forall t l, each_inside stk (repeat t (length l)) l -> shape stk (TVec t) (VArray l)
| S_obj : forall ts o, each_field stk ts o -> shape stk (TObj ts) (VObject o)
| S_objref : forall ts o i, nth_error stk i = Some (VObject o) -> each_field stk ts o -> shape stk (TObj ts) (VRef i)
(** Inside, a reference stands for the variable it refers to. *)
with inside (stk : list value) : rty -> value -> Prop :=
| I_val : forall t v, (forall i, v <> VRef i) -> shape stk t v -> inside stk t v
| I_ref : forall t i v, nth_error stk i = Some v -> shape stk t v -> inside stk t (VRef i)
with each_inside (stk : list value) : list rty -> list value -> Prop :=
| EI_nil : each_inside stk [] []
| EI_cons : forall t v ts l, inside stk t v -> each_inside stk ts l -> each_inside stk (t :: ts) (v :: l)
with each_field (stk : list value) : list (string * rty) -> list (string * value) -> Prop :=
| EF_nil : forall o, each_field stk [] o
| EF_cons : forall k t ts o v, InterpModel.assoc k o = Some v -> shape stk t v -> each_field stk ts o -> each_field stk ((k, t) :: ts) o.

(** Where popping looks, references are to variables on the stack, and arrays are not too short. *)
Definition seen (stk : list value) (P : value -> Prop) (v : value) : Prop :=
  match v with
  | VRef i => match nth_error stk i with Some w => P w | None => False end
  | _ => P v
  end.
Fixpoint all2 (Ps : list (value -> Prop)) (l : list value) : Prop :=
  match Ps, l with
  | [], _ => True
  | P :: Ps, v :: l => P v /\ all2 Ps l
  | _ :: _, [] => False
  end.
Fixpoint fine (stk : list value) (t : rty) (v : value) : Prop :=
  match t, v with
  | TOption t, VSome v => seen stk (fine stk t) v
  | TResult t _, VOk v => seen stk (fine stk t) v
  | TResult _ u, VErr v _ => seen stk (fine stk u) v
  | TArr n t, VArray l => all2 (repeat (seen stk (fine stk t)) n) l
  | TTup ts, VArray l => all2 (map (fun t => seen stk (fine stk t)) ts) l
  | TVec t, VArray l => all2 (repeat (seen stk (fine stk t)) (length l)) l
  | TObj ts, v =>
      seen stk (fun v => match v with
                         | VObject o => fold_right (fun p R => match InterpModel.assoc (fst p) o with Some v => fine stk (snd p) v | None => True end /\ R) True ts
                         | _ => True
                         end) v
  | _, _ => True
  end.
