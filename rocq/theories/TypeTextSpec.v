(** * What types are as texts, independent of how texts are read. *)
From Coq Require Import String Ascii List Bool Arith Sorted Permutation.
From Verif Require Import TypeModel LifetimeModel TypeTextModel.
Import ListNotations.
Local Open Scope string_scope.
Local Open Scope list_scope.

(** The words that a type can start with. *)
Definition keywords : list string := ["any"; "bool"; "f64"; "str"; "vec4"; "mat4"; "link"; "opt"; "res"; "sec"; "thr"; "in"].
(** The name of an ad-hoc type: characters of names, and no keyword in front. *)
Definition name_char (c : ascii) : Prop := In c (list_ascii_of_string "abcdefghijklmnopqrstuvwxyzABCDEFGHIJKLMNOPQRSTUVWXYZ0123456789_").
Definition good_name (x : string) : Prop :=
  x <> "" /\ Forall name_char (list_ascii_of_string x) /\ forall k, In k keywords -> prefix k x = false.
(** The types that can be written in a text. *)
Inductive sayable : ty -> Prop :=
| Sy_any : sayable TAny | Sy_bool : sayable TBool | Sy_f64 : sayable TF64 | Sy_vec4 : sayable TVec4
| Sy_mat4 : sayable TMat4 | Sy_str : sayable TStr | Sy_link : sayable TLink | Sy_object : sayable TObject
| Sy_sec_bool : sayable (TSecret TBool) | Sy_sec_f64 : sayable (TSecret TF64)
| Sy_array t : sayable t -> sayable (TArray t) | Sy_option t : sayable t -> sayable (TOption t)
| Sy_result t : sayable t -> sayable (TResult t) | Sy_thread t : sayable t -> sayable (TThread t)
| Sy_in t : sayable t -> sayable (TIn t)
| Sy_ad_hoc x t : good_name x -> sayable t -> sayable (TAdHoc x t)
| Sy_closure ts r : Forall sayable ts -> sayable r -> sayable (TClosure ts r).

(** Secrets only of `bool` and `f64`, at any depth. *)
Inductive secrets_ok : ty -> Prop :=
| So_atom t : In t [TUnreachable; TVoid; TAny; TBool; TF64; TVec4; TMat4; TStr; TLink; TObject; TSecret TBool; TSecret TF64] -> secrets_ok t
| So_wrap f t : In f [TArray; TOption; TResult; TThread; TIn] -> secrets_ok t -> secrets_ok (f t)
| So_ad_hoc x t : secrets_ok t -> secrets_ok (TAdHoc x t)
| So_closure ts r : Forall secrets_ok ts -> secrets_ok r -> secrets_ok (TClosure ts r).

(** What follows a type in a text: no bracket that would be read as part of it. *)
Fixpoint follows (rest : string) : Prop :=
  match rest with "" => True | String c r => if white c then follows r else c <> "["%char end.

(** A list of functions: by name, and in the order of the declarations for equal names. *)
Definition same_name (x : string) (l : list listed) : list listed := filter (fun f => String.eqb (f_name f) x) l.
Definition sorted_names (l : list listed) : Prop := StronglySorted (fun a b => String.leb (f_name a) (f_name b) = true) l.
(** The name of an argument that has none: `arg` and its number in decimal digits, without a zero in front. *)
Definition digits : list ascii := list_ascii_of_string "0123456789".
Inductive number_text : nat -> string -> Prop :=
| Nt_digit i c : nth_error digits i = Some c -> number_text i (String c "")
| Nt_more n i s c : n <> 0 -> number_text n s -> nth_error digits i = Some c -> number_text (10 * n + i) (s ++ String c "")%string.
Definition arg_name (i : nat) (x : string) : Prop := exists d, x = ("arg" ++ d)%string /\ number_text i d.
(** An entry describes a function: all its arguments, with the texts of their types. *)
Definition says (t : ty) (d : string) : Prop := description t = Some d.
Definition describes_ext (f : ext_fn) (e : listed) : Prop :=
  f_name e = x_name f /\ f_external e = true /\ says (x_ret f) (f_returns e) /\ length (f_arguments e) = length (x_lts f) /\
  forall i l, nth_error (x_lts f) i = Some l -> exists t g, nth_error (x_tys f) i = Some t /\ nth_error (f_arguments e) i = Some g /\
    arg_name i (g_name g) /\ says t (g_takes g) /\
    match l with LtDefault => g_lifetime g = None | LtArg j => exists x, g_lifetime g = Some x /\ arg_name j x | LtReturn => g_lifetime g = Some "return" end.
Definition describes_loaded (f : loaded_fn) (e : listed) : Prop :=
  f_name e = l_name f /\ f_external e = false /\ says (l_ret f) (f_returns e) /\
  Forall2 (fun a g => g_name g = a_name a /\ g_lifetime g = a_lifetime a /\ says (a_ty a) (g_takes g)) (l_args f) (f_arguments e).
