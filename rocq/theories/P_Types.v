(** * Type compatibility and refinement: C26, C27, C28 *)
From Coq Require Import String List Arith Bool.
From Verif Require Import TypeModel TypeSpec TypeProofs.
Import ListNotations.
Local Open Scope string_scope.
Local Open Scope list_scope.

(** ** C26 *)

(** Every type is compatible with itself. *)
Theorem C26_reflexive : forall t, goes_with t t = true.
Proof. exact goes_with_refl. Qed.
Print Assumptions C26_reflexive.

(** [any] is compatible with every type of values, in both directions. *)
Theorem C26_any : forall t, value_type t -> goes_with TAny t = true /\ goes_with t TAny = true.
Proof. exact value_any. Qed.
Print Assumptions C26_any.

(** void is never accepted for a value and a value never for void. *)
Theorem C26_void : forall t, proper_type t -> goes_with TVoid t = false /\ goes_with t TVoid = false.
Proof. exact proper_void. Qed.
Print Assumptions C26_void.

(** Compatibility of types without secrets is exactly the symmetric relation [Compat]: containers
    and closures agree when their parts do. *)
Theorem C26_compatible : forall a b, secret_free a -> secret_free b ->
  (goes_with a b = true <-> Compat a b).
Proof. split; [now apply goes_with_Compat|intros; now apply Compat_goes_with]. Qed.
Print Assumptions C26_compatible.

Theorem C26_symmetric : forall a b, secret_free a -> secret_free b -> goes_with a b = goes_with b a.
Proof.
  intros a b A B. apply eq_true_iff_eq. rewrite !C26_compatible by auto.
  split; apply Compat_sym.
Qed.
Print Assumptions C26_symmetric.

(** Containers, for all contents including secrets. *)
Theorem C26_containers : forall a b,
  goes_with (TArray a) (TArray b) = goes_with a b /\
  goes_with (TOption a) (TOption b) = goes_with a b /\
  goes_with (TResult a) (TResult b) = goes_with a b /\
  goes_with (TThread a) (TThread b) = goes_with a b /\
  goes_with (TIn a) (TIn b) = goes_with a b /\
  goes_with (TSecret a) (TSecret b) = goes_with a b.
Proof. intros. splits; rewrite goes_with_eq; reflexivity. Qed.
Print Assumptions C26_containers.

(** A parameter without secret accepts a secret value of a compatible type; the opposite is
    accepted for [any], unreachable code and (see [C27_secret_param_refuted]) ad-hoc values only. *)
Theorem C26_secrets : forall a b,
  (~ secret a -> goes_with a (TSecret b) = goes_with a b) /\
  (~ secret b -> ~ adhoc b -> goes_with (TSecret a) b = true -> b = TAny \/ b = TUnreachable).
Proof.
  intros a b. split.
  - intros S. rewrite goes_with_eq. unfold gw_body. simpl. destruct a; auto. exfalso; apply S; red; eauto.
  - intros S A G. rewrite goes_with_eq in G. unfold gw_body in G.
    apply is_adhoc_false in A. rewrite A in G. simpl in G.
    destruct b; auto; try discriminate. exfalso; apply S; red; eauto.
Qed.
Print Assumptions C26_secrets.

Example C26_ex :
  goes_with (TArray (TOption TF64)) (TArray TAny) = true /\
  goes_with (TArray (TOption TF64)) (TArray (TOption TStr)) = false /\
  goes_with (TClosure [TF64; TAny] TBool) (TClosure [TF64; TStr] TBool) = true /\
  goes_with TBool (TSecret TBool) = true /\ goes_with (TSecret TBool) TBool = false /\
  value_type (TAdHoc "Foo" (TSecret TBool)) /\ proper_type (TArray TVoid).
Proof. splits; try (vm_compute; reflexivity); simpl; auto. Qed.

(** ** C27 *)

Theorem C27_names_distinct : forall n m a b,
  goes_with (TAdHoc n a) (TAdHoc m b) = true <-> n = m /\ goes_with a b = true.
Proof.
  intros. rewrite goes_with_eq. unfold gw_body, gw_cases. simpl.
  rewrite andb_true_iff, String.eqb_eq. reflexivity.
Qed.
Print Assumptions C27_names_distinct.

(** An ad-hoc type is compatible with another type without ad-hoc name exactly if the underlying
    type is, in both directions; void and secrets apart. *)
Theorem C27_underlying : forall n t u, ~ adhoc u -> ~ secret u -> u <> TVoid ->
  goes_with (TAdHoc n t) u = (if is_unreachable u then true else goes_with t u) /\
  goes_with u (TAdHoc n t) = goes_with (TAdHoc n t) u.
Proof.
  intros n t u A S V. apply is_adhoc_false in A. split; [|now apply gw_adhoc_r].
  destruct (is_unreachable u) eqn:U.
  - destruct u; try discriminate. now rewrite goes_with_eq.
  - apply gw_adhoc_l; auto. intros ->. discriminate.
Qed.
Print Assumptions C27_underlying.

Theorem C27_own_type : forall n t, ~ adhoc t -> ~ secret t -> t <> TVoid ->
  goes_with (TAdHoc n t) t = true /\ goes_with t (TAdHoc n t) = true.
Proof.
  intros n t A S V. destruct (C27_underlying n t t A S V) as [E1 E2].
  rewrite E2, E1. rewrite goes_with_refl. destruct (is_unreachable t); auto.
Qed.
Print Assumptions C27_own_type.

(** [+=] with an ad-hoc type on either side needs the same name on both (and compatible,
    addable contents). *)
Theorem C27_add_assign : forall a b, adhoc a \/ adhoc b -> add_assign a b = true ->
  exists n t u, a = TAdHoc n t /\ b = TAdHoc n u /\ goes_with t u = true /\ add_assign t u = true.
Proof.
  intros a b H E.
  destruct a; destruct b; simpl in E; try discriminate;
    try (destruct H as [(?&?&?)|(?&?&?)]; discriminate).
  destruct (String.eqb_spec name name0) as [<-|]; [|discriminate].
  destruct (goes_with a b) eqn:G; [|discriminate]. eauto 10.
Qed.
Print Assumptions C27_add_assign.

(** Refuted: an ad-hoc type over a secret type is not compatible with its own underlying type,
    and a [sec[bool]] parameter accepts an ad-hoc bool that has no secret. *)
Theorem C27_own_secret_refuted :
  ~ (forall n t, ~ adhoc t -> t <> TVoid -> goes_with (TAdHoc n t) t = true /\ goes_with t (TAdHoc n t) = true).
Proof.
  intros H. destruct (H "Foo" (TSecret TBool)) as [_ E].
  - apply not_adhoc_eq. discriminate.
  - discriminate.
  - vm_compute in E. discriminate.
Qed.
Print Assumptions C27_own_secret_refuted.

Theorem C27_secret_param_refuted :
  ~ (forall a b, ~ secret b -> goes_with (TSecret a) b = true -> b = TAny \/ b = TUnreachable).
Proof.
  intros H. destruct (H TBool (TAdHoc "Foo" TBool)) as [E|E]; try discriminate.
  - intros (?&?). discriminate.
  - vm_compute. reflexivity.
Qed.
Print Assumptions C27_secret_param_refuted.

Example C27_ex :
  goes_with (TAdHoc "Foo" TF64) (TAdHoc "Bar" TF64) = false /\
  goes_with (TArray (TAdHoc "Foo" TF64)) (TArray (TAdHoc "Bar" TF64)) = false /\
  goes_with (TAdHoc "Foo" TF64) TF64 = true /\ goes_with TAny (TAdHoc "Foo" TF64) = true /\
  add_assign (TAdHoc "Foo" TStr) (TAdHoc "Foo" TStr) = true /\
  add_assign (TAdHoc "Foo" TStr) TStr = false.
Proof. vm_compute. splits; reflexivity. Qed.

(** ** C28 *)

(** The refined type comes from the first signature all of whose parameters accept the arguments
    under one meaning [assoc] of its type variables; every signature before it has a parameter
    that rejects its argument. *)
Theorem C28_first_match : forall sigs args t, refine sigs args = RFound t ->
  exists pre s post tv, sigs = pre ++ s :: post /\
    Forall (fun s' => FirstBad Misfits s' args) pre /\
    length tv = length (svars s) /\ AllFit s (assoc (svars s) tv) args /\
    t = inst_ret (svars s) tv (sret s).
Proof.
  intros [|s0 sigs] args t H; [discriminate|].
  pose proof (refine_loop_spec args (s0 :: sigs)) as S. unfold refine in H. rewrite H in S. exact S.
Qed.
Print Assumptions C28_first_match.

(** For signatures without type variables this is an equivalence. *)
Theorem C28_first_match_mono : forall sigs args t,
  Forall (fun s => svars s = []) sigs ->
  (refine sigs args = RFound t <->
   exists pre s post, sigs = pre ++ s :: post /\ Forall (fun s' => FirstBad Misfits s' args) pre /\
     AllFit s (fun _ => None) args /\ t = sret s).
Proof.
  intros sigs args t M. split.
  - intros H. destruct (C28_first_match _ _ _ H) as (pre & s & post & tv & -> & F & L & A & ->).
    assert (V : svars s = []) by (rewrite Forall_forall in M; apply M; apply in_or_app; right; now left).
    exists pre, s, post. splits; auto.
    + rewrite mono_AllFit in * by auto. exact A.
    + rewrite V. apply inst_ret_nil.
  - intros (pre & s & post & -> & F & A & ->).
    apply Forall_app in M as [M1 M2]. inversion M2; subst.
    rewrite mono_AllFit in A by auto.
    assert (refine_loop (pre ++ s :: post) args = RFound (sret s)) as E.
    { apply refine_mono; auto. rewrite Forall_forall in *. auto. }
    unfold refine. destruct (pre ++ s :: post) eqn:X; auto. destruct pre; discriminate.
Qed.
Print Assumptions C28_first_match_mono.

(** Type variables are replaced in the return type all at once, provided every variable is bound
    and no ad-hoc type of the program is named like a variable of the signature. *)
Theorem C28_return_instantiated : forall names tv t,
  NoDup names -> length tv = length names ->
  (forall i v, nth i tv None = Some v -> ~ In v names) ->
  (forall i, i < length names -> nth i tv None <> None) ->
  inst_ret names tv t = replace_vars names (assoc names tv) t.
Proof. exact inst_ret_spec. Qed.
Print Assumptions C28_return_instantiated.

(** The type mismatch error is reported exactly for parameters that reject; an argument whose type
    is unknown or ambiguous postpones the decision; an argument that contradicts a type variable
    is the third possible outcome. *)
Theorem C28_outcomes : forall sigs args,
  match refine sigs args with
  | RFound _ => True
  | RMismatch => sigs <> [] /\ Forall (fun s => FirstBad Misfits s args) sigs
  | RDelay => exists pre s post, sigs = pre ++ s :: post /\
      Forall (fun s' => FirstBad Misfits s' args) pre /\ FirstBad Unclear s args
  | RVarError => exists pre s post, sigs = pre ++ s :: post /\
      Forall (fun s' => FirstBad Misfits s' args) pre /\ FirstBad Clashes s args
  | RNothing => sigs = []
  end.
Proof.
  intros [|s sigs] args; [reflexivity|]. unfold refine.
  pose proof (refine_loop_spec args (s :: sigs)) as S.
  destruct (refine_loop (s :: sigs) args); auto.
  - split; [discriminate|exact S].
  - contradiction.
Qed.
Print Assumptions C28_outcomes.

(** Refuted: a signature accepting all arguments is not always found, because a contradiction
    with a type variable of an earlier signature ends the search. *)
Definition s1 := mkSig ["T"] [TAdHoc "T" TF64; TAdHoc "T" TF64] TF64.
Definition s2 := mkSig [] [TAny; TAny] TBool.
Theorem C28_later_match_refuted :
  ~ (forall pre s post args, svars s = [] -> AllFit s (fun _ => None) args ->
     exists t, refine (pre ++ s :: post) args = RFound t).
Proof.
  intros H.
  destruct (H [s1] s2 [] [Some (TAdHoc "Foo" TF64); Some (TAdHoc "Bar" TF64)]) as [t E].
  - reflexivity.
  - unfold AllFit. simpl. repeat constructor; simpl.
    + exists (TAdHoc "Foo" TF64), TAny. splits; auto. apply I_other. auto.
    + exists (TAdHoc "Bar" TF64), TAny. splits; auto. apply I_other. auto.
  - vm_compute in E. discriminate.
Qed.
Print Assumptions C28_later_match_refuted.

(** Refuted: an unbound variable does not only remove its own ad-hoc layer of the return type. *)
Theorem C28_unbound_refuted :
  ~ (forall names tv t, NoDup names -> length tv = length names ->
     (forall n, In n (layers t) -> ~ In n names) -> inst_ret names tv t = t).
Proof.
  intros H. specialize (H ["T"] [None] (TAdHoc "Km" TF64)).
  vm_compute in H. discriminate H; auto.
  - repeat constructor; simpl; tauto.
  - intros n [<-|[]] [E|[]]. discriminate.
Qed.
Print Assumptions C28_unbound_refuted.

(** Refuted: replacement is not simultaneous when an ad-hoc type is named like a variable. *)
Theorem C28_capture_refuted :
  ~ (forall names tv t, NoDup names -> length tv = length names ->
     (forall i, i < length names -> nth i tv None <> None) ->
     inst_ret names tv t = replace_vars names (assoc names tv) t).
Proof.
  intros H. specialize (H ["T"; "U"] [Some "U"; Some "Km"] (TAdHoc "T" TF64)).
  vm_compute in H. discriminate H; auto.
  - repeat constructor; simpl; intuition discriminate.
  - intros [|[|i]] L; simpl; try discriminate. exfalso. apply (Nat.nlt_0_r i).
    apply Nat.succ_lt_mono, Nat.succ_lt_mono. exact L.
Qed.
Print Assumptions C28_capture_refuted.

(** [(vec4, vec4) -> vec4], [all T: (T f64, T f64) -> T f64], [(f64, vec4) -> vec4] *)
Definition mul_sigs :=
  [ mkSig [] [TVec4; TVec4] TVec4;
    mkSig ["T"] [TAdHoc "T" TF64; TAdHoc "T" TF64] (TAdHoc "T" TF64);
    mkSig [] [TF64; TVec4] TVec4 ].
Example C28_ex :
  refine mul_sigs [Some TF64; Some TVec4] = RFound TVec4 /\
  refine mul_sigs [Some (TAdHoc "Km" TF64); Some (TAdHoc "Km" TF64)] = RFound (TAdHoc "Km" TF64) /\
  refine mul_sigs [Some TF64; Some TF64] = RFound TF64 /\
  refine mul_sigs [Some (TAdHoc "Km" TF64); Some (TAdHoc "Hour" TF64)] = RVarError /\
  refine mul_sigs [Some TStr; Some TVec4] = RMismatch /\
  refine mul_sigs [Some TAny; Some TVec4] = RDelay /\
  refine mul_sigs [Some TVec4; None] = RDelay.
Proof. vm_compute. splits; reflexivity. Qed.
