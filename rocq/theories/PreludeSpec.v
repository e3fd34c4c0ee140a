(** * What it means that a function keeps its declared type: an independent specification.

    Types as sets of values on a stack. Nothing here refers to the functions of the library; only the syntax of types,
    values and declarations is shared. *)
From Coq Require Import String List Bool Arith.
From Verif Require Import Float64 Syntax TypeModel InterpModel PreludeModel.
Import ListNotations.
Local Open Scope nat_scope.
Local Open Scope list_scope.

(** Every reference in the value points below [n], and there are no raw pointers. *)
Inductive sound (n : nat) : value -> Prop :=
| So_ref i : i < n -> sound n (VRef i)
| So_return : sound n VReturn
| So_bool b sec : (forall l, sec = Some l -> Forall (sound n) l) -> sound n (VBool b sec)
| So_f64 x sec : (forall l, sec = Some l -> Forall (sound n) l) -> sound n (VF64 x sec)
| So_vec4 v : sound n (VVec4 v)
| So_mat4 m : sound n (VMat4 m)
| So_str s : sound n (VStr s)
| So_array l : Forall (sound n) l -> sound n (VArray l)
| So_object l : Forall (fun kv => sound n (snd kv)) l -> sound n (VObject l)
| So_link l : sound n (VLink l)
| So_rust i : sound n (VRust i)
| So_none : sound n VNone
| So_some v : sound n v -> sound n (VSome v)
| So_ok v : sound n v -> sound n (VOk v)
| So_err v t : sound n v -> sound n (VErr v t)
| So_thread t : sound n (VThread t)
| So_closure c m r : sound n (VClosure c m r)
| So_in c : sound n (VIn c).

Definition a_reference (v : value) : Prop := exists i, v = VRef i.

(** [typed S stk t v]: on the stack [stk], the value [v] has the type [t]; a value of type [sec[t]] is one of type [t] that
    carries an explanation in [S]. Ad-hoc names are not visible in values. *)
Inductive typed (S : option (list value) -> Prop) (stk : list value) : ty -> value -> Prop :=
| Ty_ref i w t : nth_error stk i = Some w -> ~ a_reference w -> typed S stk t w -> typed S stk t (VRef i)
| Ty_any v : typed S stk TAny v
| Ty_bool b sec : typed S stk TBool (VBool b sec)
| Ty_f64 x sec : typed S stk TF64 (VF64 x sec)
| Ty_sec_bool b sec : S sec -> typed S stk (TSecret TBool) (VBool b sec)
| Ty_sec_f64 x sec : S sec -> typed S stk (TSecret TF64) (VF64 x sec)
| Ty_vec4 v : typed S stk TVec4 (VVec4 v)
| Ty_mat4 m : typed S stk TMat4 (VMat4 m)
| Ty_str s : typed S stk TStr (VStr s)
| Ty_link l : typed S stk TLink (VLink l)
| Ty_object l : typed S stk TObject (VObject l)
| Ty_array t l : Forall (typed S stk t) l -> typed S stk (TArray t) (VArray l)
| Ty_none t : typed S stk (TOption t) VNone
| Ty_some t v : typed S stk t v -> typed S stk (TOption t) (VSome v)
| Ty_ok t v : typed S stk t v -> typed S stk (TResult t) (VOk v)
| Ty_err t m l : typed S stk (TResult t) (VErr m l)
| Ty_thread t h : typed S stk (TThread t) (VThread h)
| Ty_in t c : typed S stk (TIn t) (VIn c)
| Ty_adhoc name t v : typed S stk t v -> typed S stk (TAdHoc name t) v.

(** A value of a signature: sound, and of its type. *)
Definition fits (S : option (list value) -> Prop) (stk : list value) (v : value) (t : ty) : Prop :=
  sound (length stk) v /\ typed S stk t v.

(** Afterwards only arrays are changed, and they are still arrays. *)
Definition kept (stk stk' : list value) : Prop :=
  length stk' = length stk /\
  forall i, nth_error stk' i = nth_error stk i \/
    exists l l', nth_error stk i = Some (VArray l) /\ nth_error stk' i = Some (VArray l').

(** What is promised of a call in the state [s], with the stack [stk] below the arguments: it does not panic, and when it comes
    to an end, then the arguments are gone, only arrays have changed, and the result is as promised. *)
Definition gives {A} (stk : list value) (s : rt) (good : list value -> A -> Prop) (o : outcome A) : Prop :=
  match o with
  | Ok a s' => exists stk', s' = set_stack stk' s /\ kept stk stk' /\ Forall (sound (length stk)) stk' /\ good stk' a
  | Err _ _ | OOF => True
  | Panic _ => False
  end.
(** The same, when it always comes to an end without error and changes nothing. *)
Definition answers {A} (stk : list value) (s : rt) (good : A -> Prop) (o : outcome A) : Prop :=
  exists a, o = Ok a (set_stack stk s) /\ good a.
(** Operators work on values: with a result as promised, always; or if there is one. *)
Definition computes (good : value -> Prop) (p : pres) : Prop := exists v, p = POk v /\ good v.
Definition may_compute (good : value -> Prop) (p : pres) : Prop :=
  match p with POk v => good v | PErr _ => True | PPanic _ => False end.
(** The arguments of a call, and the values of operators, which are not references. *)
Definition fit_args (S : option (list value) -> Prop) (stk args : list value) (tys : list ty) : Prop :=
  Forall2 (fits S stk) args tys.
Definition plain (S : option (list value) -> Prop) (stk : list value) (v : value) (t : ty) : Prop :=
  fits S stk v t /\ ~ a_reference v.

(** All signatures of a function: its own, and the further ones. *)
Definition signatures (d : decl) : list sig := mkSig [] (p_tys d) (p_ret d) :: p_ext d.
