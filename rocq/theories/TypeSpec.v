(** * Independent specification for the type properties C26-C28.
    Nothing here refers to the decision procedures of [TypeModel.v]; only the syntax of types,
    signatures and results is shared. *)
From Coq Require Import String List Bool.
From Verif Require Import TypeModel.
Import ListNotations.
Local Open Scope list_scope.

Definition adhoc (t : ty) : Prop := exists n u, t = TAdHoc n u.
Definition secret (t : ty) : Prop := exists u, t = TSecret u.

(** no [sec] anywhere in the type *)
Fixpoint secret_free (t : ty) : Prop :=
  match t with
  | TSecret _ => False
  | TArray t | TOption t | TResult t | TThread t | TIn t | TAdHoc _ t => secret_free t
  | TClosure args r => fold_right (fun a P => secret_free a /\ P) (secret_free r) args
  | _ => True
  end.

(** the type of a value: it is not void, also not below ad-hoc names and [sec] *)
Fixpoint value_type (t : ty) : Prop :=
  match t with
  | TVoid => False
  | TAdHoc _ t | TSecret t => value_type t
  | _ => True
  end.

(** as before, and values of the type can exist: it is not the type of code never reached *)
Fixpoint proper_type (t : ty) : Prop :=
  match t with
  | TVoid | TUnreachable => False
  | TAdHoc _ t | TSecret t => proper_type t
  | _ => True
  end.

(** Compatibility of types without secrets, as a symmetric relation: two types are compatible
    when they agree up to [any] (which stands for any value type), up to code that is never
    reached, and up to ad-hoc names missing on one side. *)
Inductive Compat : ty -> ty -> Prop :=
| C_unr_l b : Compat TUnreachable b
| C_unr_r a : Compat a TUnreachable
| C_void : Compat TVoid TVoid
| C_any_l b : b <> TVoid -> ~ adhoc b -> Compat TAny b
| C_any_r a : a <> TVoid -> ~ adhoc a -> Compat a TAny
| C_bool : Compat TBool TBool | C_f64 : Compat TF64 TF64 | C_vec4 : Compat TVec4 TVec4
| C_mat4 : Compat TMat4 TMat4 | C_str : Compat TStr TStr | C_link : Compat TLink TLink
| C_object : Compat TObject TObject
| C_array a b : Compat a b -> Compat (TArray a) (TArray b)
| C_option a b : Compat a b -> Compat (TOption a) (TOption b)
| C_result a b : Compat a b -> Compat (TResult a) (TResult b)
| C_thread a b : Compat a b -> Compat (TThread a) (TThread b)
| C_in a b : Compat a b -> Compat (TIn a) (TIn b)
| C_closure l l' r r' : Forall2 Compat l l' -> Compat r r' -> Compat (TClosure l r) (TClosure l' r')
| C_named n a b : Compat a b -> Compat (TAdHoc n a) (TAdHoc n b)
| C_name_l n a b : ~ adhoc b -> b <> TVoid -> Compat a b -> Compat (TAdHoc n a) b
| C_name_r n a b : ~ adhoc a -> a <> TVoid -> Compat a b -> Compat a (TAdHoc n b).

(** ** Signatures *)

(** An assignment of ad-hoc names to type variables. *)
Definition subst := string -> option string.

(** [Inst names s p a p']: the parameter type [p] of a signature with type variables [names],
    seen against an argument of type [a], is [p'] when the variables mean [s]: each ad-hoc layer
    of the parameter that is a variable becomes the ad-hoc name it stands for, and layers the
    argument does not have are dropped (signatures without variables are compared as they are). *)
Inductive Inst (names : list string) (s : subst) : ty -> ty -> ty -> Prop :=
| I_var T b p a q : In T names -> s T <> None -> Inst names s p a q ->
    Inst names s (TAdHoc T p) (TAdHoc b a) (TAdHoc (match s T with Some n => n | None => T end) q)
| I_con T b p a q : ~ In T names -> Inst names s p a q ->
    Inst names s (TAdHoc T p) (TAdHoc b a) (TAdHoc T q)
| I_drop T p a q : names <> [] -> ~ adhoc a -> Inst names s p a q -> Inst names s (TAdHoc T p) a q
| I_other p a : names = [] \/ ~ adhoc p -> Inst names s p a p.

(** An argument of type [a] (known or not) fits the parameter [p]: the type is known, and the
    instantiated parameter accepts it without ambiguity. *)
Definition Fits (names : list string) (s : subst) (a : option ty) (p : ty) : Prop :=
  exists a' p', a = Some a' /\ Inst names s p a' p' /\ goes_with p' a' = true /\ ambiguous p' a' = false.
(** The parameter does not accept the argument. *)
Definition Misfits (names : list string) (s : subst) (a : option ty) (p : ty) : Prop :=
  exists a' p', a = Some a' /\ Inst names s p a' p' /\ goes_with p' a' = false.
(** Not enough is known about the argument. *)
Definition Unclear (names : list string) (s : subst) (a : option ty) (p : ty) : Prop :=
  a = None \/
  exists a' p', a = Some a' /\ Inst names s p a' p' /\ goes_with p' a' = true /\ ambiguous p' a' = true.

(** The argument contradicts what a type variable already stands for: its ad-hoc name at the place
    of the variable is another one, or it has none there although the rest would be accepted. *)
Inductive Clash (names : list string) (s : subst) : ty -> ty -> Prop :=
| CL_name T n b p a q : s T = Some n -> n <> b -> Inst names s p a q -> goes_with q a = true ->
    Clash names s (TAdHoc T p) (TAdHoc b a)
| CL_none T n p a q : ~ adhoc a -> s T = Some n -> Inst names s p a q -> goes_with q a = true ->
    Clash names s (TAdHoc T p) a
| CL_in T b p a : Clash names s p a -> Clash names s (TAdHoc T p) (TAdHoc b a)
| CL_drop T p a : ~ adhoc a -> Clash names s p a -> Clash names s (TAdHoc T p) a.
Definition Clashes (names : list string) (s : subst) (a : option ty) (p : ty) : Prop :=
  exists a', a = Some a' /\ Clash names s p a'.

(** All arguments fit, for one meaning of the type variables. Call and signature have the same
    number of arguments (the parser and the call check guarantee it, so the lists are compared
    up to the shorter one). *)
Fixpoint zipped (args : list (option ty)) (ps : list ty) : list (option ty * ty) :=
  match args, ps with a :: args, p :: ps => (a, p) :: zipped args ps | _, _ => [] end.
Definition AllFit (s : sig) (m : subst) (args : list (option ty)) : Prop :=
  Forall (fun ap => Fits (svars s) m (fst ap) (snd ap)) (zipped args (sargs s)).
(** The first argument that does not fit is in state [bad]. *)
Definition FirstBad (bad : list string -> subst -> option ty -> ty -> Prop)
    (s : sig) (args : list (option ty)) : Prop :=
  exists m pre a p post, zipped args (sargs s) = pre ++ (a, p) :: post /\
    Forall (fun ap => Fits (svars s) m (fst ap) (snd ap)) pre /\ bad (svars s) m a p.

(** The ad-hoc layers of a return type with every variable replaced at the same time. *)
Fixpoint replace_vars (names : list string) (s : subst) (t : ty) : ty :=
  match t with
  | TAdHoc n t =>
      TAdHoc (if in_dec string_dec n names
              then match s n with Some m => m | None => n end else n) (replace_vars names s t)
  | _ => t
  end.

(** the meaning given by a list of bindings, and the ad-hoc names around a type *)
Definition assoc (names : list string) (tv : tyvars) : subst :=
  fun x => match var_ix names x with Some i => nth i tv None | None => None end.
Fixpoint layers (t : ty) : list string := match t with TAdHoc n t => n :: layers t | _ => [] end.
