(** * C61: what the grammar promises is what the checkers need. *)
From Coq Require Import String List Bool Arith ZArith Lia.
From Verif Require Import PrintModel ColorModel Float64 TypeModel LifetimeModel NodesModel FoldModel TransformModel NodesSpec LivesModel LivesSpec NodesLayout P_Nodes P_Scope P_Lives Syntax AstModel AstSpec AstProofs AstFile P_Ast GrammarSpec GrammarBuild GrammarFits GrammarCases GrammarAll.
Import ListNotations.
Local Open Scope string_scope.
Local Open Scope nat_scope.
Local Open Scope list_scope.

(** the checkers' [convert], not the one of the syntax tree *)
Notation front := NodesModel.front.
(** what the crate tree_mem_sort does, for the graph of [F] *)
Definition sorts (sort : fgraph -> fgraph) (F : list stx) : Prop := forall g0 g1 g2,
  NodesModel.convert parse_type (flat_map tokens F) = NOk g0 -> nest g0 = NOk g1 -> sugar g1 = NOk g2 -> exists p, sorted_by p g2 (sort g2).

Fixpoint nodes_impl (Q Q' : string -> list stx -> bool) (H : forall n b, Q n b = true -> Q' n b = true) (t : stx) : nodes_all Q t = true -> nodes_all Q' t = true.
Proof.
  destruct t as [n b| | |]; try reflexivity. cbn [nodes_all]. rewrite !andb_true_iff. intros [A B]. split; [now apply H|]. clear A.
  induction b as [|t b IH]; [reflexivity|]. cbn [forallb] in *. apply andb_true_iff in B. destruct B as [B1 B2]. rewrite (nodes_impl Q Q' H t B1). exact (IH B2).
Defined.
Lemma all_impl : forall (Q Q' : string -> list stx -> bool) F, (forall n b, Q n b = true -> Q' n b = true) -> forallb (nodes_all Q) F = true -> forallb (nodes_all Q') F = true.
Proof. intros Q Q' F H A. rewrite forallb_forall in A |- *. intros t I. eapply nodes_impl; eauto. Qed.

(** ** The trees of a text *)

(** A text that follows the grammar and is linkable has trees with everything that the passes before the type checker need. *)
Theorem C61_linkable : forall in_of alloc sort F f, file_means in_of alloc F f -> forallb (nodes_all linkable) F = true -> sorts sort F ->
  exists ts, good_file parse_type sort F ts.
Proof.
  intros in_of alloc sort F f M A SO. destruct (file_trees false in_of alloc F f M) as (ts & H1 & H2 & H3 & _).
  { apply (all_impl linkable); [|exact A]. intros n b H. unfold tidy. now rewrite H. }
  exists ts. split; auto. intros g1 g2 R1 R2. exact (SO _ g1 g2 (C53_conversion _ _ _ H1) R1 R2).
Qed.
Print Assumptions C61_linkable.
(** If it can be traced also, then they have what the lifetime checks need. *)
Theorem C61_traceable : forall in_of alloc sort F f, file_means in_of alloc F f ->
  forallb (nodes_all linkable) F = true -> forallb (nodes_all traceable) F = true -> sorts sort F ->
  exists ts, good_file parse_type sort F ts /\ lively_file ts.
Proof.
  intros in_of alloc sort F f M A B SO. destruct (file_trees true in_of alloc F f M) as (ts & H1 & H2 & H3 & H4).
  { rewrite forallb_forall in A, B |- *. intros t I. specialize (A t I). specialize (B t I). clear I. revert A B.
    enough (X : forall t, nodes_all linkable t = true -> nodes_all traceable t = true -> nodes_all (tidy true) t = true) by apply X.
    clear t. fix IH 1. intros [n b| | |] A B; try reflexivity. cbn [nodes_all] in *. rewrite andb_true_iff in *. destruct A as [A1 A2], B as [B1 B2].
    split; [unfold tidy; now rewrite A1, B1|]. clear A1 B1. induction b as [|t b IHb]; [reflexivity|]. cbn [forallb] in *. apply andb_true_iff in A2, B2.
    destruct A2 as [A2 A3], B2 as [B2 B3]. rewrite (IH t A2 B2). exact (IHb A3 B3). }
  exists ts. split; [|now apply H4]. split; auto. intros g1 g2 R1 R2. exact (SO _ g1 g2 (C53_conversion _ _ _ H1) R1 R2).
Qed.
Print Assumptions C61_traceable.

(** ** The checks of a text *)

(** Such a text becomes the syntax tree [f], and the passes before the type checker accept it with everything linked to the right
    places, or reject it at the place of something wrong. *)
Theorem C61_checked : forall in_of alloc sort F f, file_means in_of alloc F f -> forallb (nodes_all linkable) F = true -> sorts sort F ->
  AstModel.convert in_of alloc (flat_map tokens F) = (f, [], Done) /\
  exists ts g, good_file parse_type sort F ts /\ graph_of sort ts g /\ forall K,
    let result := front parse_type sort K (flat_map tokens F) in
    (exists g', result = NOk g' /\ locals_in_order g /\ right_file K g g') \/
    (exists e i, result = NErr e i /\ locals_in_order g /\ wrong K g e i) \/
    (result = NErr N_unsorted 0 /\ ~ locals_in_order g).
Proof.
  intros in_of alloc sort F f M A SO. split; [apply (C60_file _ _ _ _ M)|]. destruct (C61_linkable _ _ _ _ _ M A SO) as [ts G].
  destruct (C55_graph _ _ _ _ G) as (g0 & g & p & GR & _). exists ts, g. split; [exact G|]. split; [exact GR|]. intros K. exact (C55_checked _ _ _ _ _ K G GR).
Qed.
Print Assumptions C61_checked.
Theorem C61_no_panic : forall in_of alloc sort F f K, file_means in_of alloc F f -> forallb (nodes_all linkable) F = true -> sorts sort F ->
  exists r, front parse_type sort K (flat_map tokens F) = r /\ match r with NOk _ | NErr _ _ => True | _ => False end.
Proof.
  intros in_of alloc sort F f K M A SO. destruct (C61_checked _ _ _ _ _ M A SO) as (_ & ts & g & _ & _ & H). specialize (H K). cbv zeta in H. eexists. split; [reflexivity|].
  destruct H as [(g' & -> & _)|[(e & i & -> & _)|[-> _]]]; exact I.
Qed.
Print Assumptions C61_no_panic.
(** The lifetime checks of an accepted text tell what is unsafe in it. *)
Theorem C61_lifetimes : forall in_of alloc sort F f K g' fuel, file_means in_of alloc F f ->
  forallb (nodes_all linkable) F = true -> forallb (nodes_all traceable) F = true -> sorts sort F -> good_outside K ->
  front parse_type sort K (flat_map tokens F) = NOk g' -> length g' < fuel ->
  match check_lives fuel g' with
  | XOk _ => forall e i, ~ unsafe g' e i
  | XErr e i => unsafe g' e i
  | XPanic => untold g' /\ exists e i, unsafe g' e i
  | XOof => True
  end.
Proof.
  intros in_of alloc sort F f K g' fuel M A B SO GO R LT. destruct (C61_traceable _ _ _ _ _ M A B SO) as (ts & G & LF).
  destruct (C55_graph _ _ _ _ G) as (g0 & g & p & GR & _). exact (C56_verdict g' fuel (C56_linked _ _ _ _ _ _ _ G LF GO GR R) LT).
Qed.
Print Assumptions C61_lifetimes.
(** In an accepted text a call is of the only function of that name, or of one from outside, with as many values as it has arguments. *)
Theorem C61_calls : forall in_of alloc sort F f K g', file_means in_of alloc F f -> forallb (nodes_all linkable) F = true -> sorts sort F ->
  front parse_type sort K (flat_map tokens F) = NOk g' -> exists ts g, good_file parse_type sort F ts /\ graph_of sort ts g /\
  forall c n x, nth_error g c = Some n -> f_kind n = K_Call -> f_name n = Some x -> x_alias (f_data n) = None ->
  (exists k fn, nth_error g k = Some fn /\ NodesSpec.function g k x /\ (forall k', NodesSpec.function g k' x -> k' = k) /\ values g n = length (parts g K_Arg fn)) \/
  ((forall k, ~ NodesSpec.function g k x) /\ exists lts, o_fun K x = Some lts /\ values g n = length lts).
Proof.
  intros in_of alloc sort F f K g' M A SO R. destruct (C61_linkable _ _ _ _ _ M A SO) as [ts G]. destruct (C55_graph _ _ _ _ G) as (g0 & g & p & GR & _).
  exists ts, g. split; [exact G|]. split; [exact GR|]. intros c n x E KC NX AL.
  destruct (C55_calls _ _ _ _ _ _ _ G GR R c n x E KC NX AL) as (n' & _ & [(k & fn & _ & B & C & D & V)|(_ & B & C & V)]); [left|right]; eauto 10.
Qed.
Print Assumptions C61_calls.

(** ** A file

    [fn f(mut a, b: 'a, c: 'return) -> { a = b  k(mut a, b)  return c }
     fn k(mut s, r: 's) { s = r }] *)
Definition set_ (x y : string) : stx := SNode "expr" [SNode "assign" [SNode "left" [var_ x]; flag "="; SNode "right" [var_ y]]].
Definition living : list stx :=
  [SNode "fn" [str "name" "f"; SNode "arg" [flag "mut"; str "name" "a"]; SNode "arg" [str "name" "b"; str "lifetime" "a"]; SNode "arg" [str "name" "c"; str "lifetime" "return"];
     flag "returns"; SNode "block" [
       set_ "a" "b";
       SNode "expr" [SNode "call" [str "name" "k"; SNode "call_arg" [flag "mut"; var_ "a"]; SNode "call_arg" [var_ "b"]]];
       SNode "expr" [SNode "return" [var_ "c"]]]];
   SNode "fn" [str "name" "k"; SNode "arg" [flag "mut"; str "name" "s"]; SNode "arg" [str "name" "r"; str "lifetime" "s"];
     SValue (MBool "returns" false); SNode "block" [set_ "s" "r"]]].
Definition living_means : file :=
  File [] [] [
    Function_ "f(mut,_,_)" [Arg "a" None TAny true; Arg "b" (Some "a") TAny false; Arg "c" (Some "return") TAny false] [] []
      [EAssign OpSet (X "a") (X "b"); apply "k(mut,_)" [X "a"; X "b"]; EReturn (X "c")] TAny;
    Function_ "k(mut,_)" [Arg "s" None TAny true; Arg "r" (Some "s") TAny false] [] [] [EAssign OpSet (X "s") (X "r")] TVoid].
Lemma more_args : forall i a m x lt l xs lzs, args_mean i a l xs lzs ->
  args_mean i a (SNode "arg" (flags "mut" m ++ str "name" x :: strs "lifetime" lt ++ [] ++ []) :: l) (Arg x lt TAny m :: xs) ([] :: lzs).
Proof. intros. exact (As_more i a m x lt [] None [] [] l xs lzs (Tp_none _) (Lz_nil _ _) H). Qed.
Lemma set_means : forall i a x y, expr_body i a (body_of (set_ x y)) (EAssign OpSet (X x) (X y)).
Proof. intros. apply Eb_assign; [simpl; tauto|apply var_body|apply var_body]. Qed.
Example C61_example : file_means (fun _ _ => FNone) (fun _ => true) living living_means.
Proof.
  set (i := fun _ _ => FNone). set (a := fun _ : Z => true).
  refine (Fi i a [] [] [] [] [_; _] [] [_; _] (or_introl (conj eq_refl eq_refl)) (or_introl (conj eq_refl eq_refl)) (Forall2_nil _) _).
  constructor; [|constructor; [|constructor]].
  - refine (Fm_block i a "f" [_; _; _] [] [] None [_; _; _] [] [Arg "a" None TAny true; Arg "b" (Some "a") TAny false; Arg "c" (Some "return") TAny false] [[]; []; []] [] [] _ _ (Cu_nil) (Tp_none _) _ (Forall_nil _) (Tr_all _ _)); [| |repeat constructor].
    + apply (more_args i a true "a" None), (more_args i a false "b" (Some "a")), (more_args i a false "c" (Some "return")), As_none.
    + apply Al_cons; [apply set_means|]. apply Al_cons; [|apply Al_cons; [apply Eb_return, var_body|apply Al_nil]].
      apply Eb_call, (Ca_plain i a None "k" _ [true; false]). apply Ar_cons; [apply Ab_mut, var_means|]. apply Ar_cons; [apply Ab_expr, var_body|apply Ar_nil].
  - refine (Fm_void i a "k" [_; _] [] [_] [] [Arg "s" None TAny true; Arg "r" (Some "s") TAny false] [[]; []] [] [] _ _ (Cu_nil) _ (Forall_nil _) (Tr_all _ _)); [| |repeat constructor].
    + apply (more_args i a true "s" None), (more_args i a false "r" (Some "s")), As_none.
    + apply Al_cons; [apply set_means|apply Al_nil].
Qed.
Example C61_example_linkable : forallb (nodes_all linkable) living = true /\ forallb (nodes_all traceable) living = true.
Proof. split; reflexivity. Qed.
Lemma sorted_id : forall g, in_order g -> sorted_by (fun i => i) g g.
Proof.
  intros g O. split; auto. intros i n E. rewrite E, map_id. destruct n as [d [p|] c dc l]; reflexivity.
Qed.
Example C61_example_sorts : sorts (fun g => g) living.
Proof.
  intros g0 g1 g2 R0 R1 R2. exists (fun i => i). apply sorted_id.
  destruct (file_trees false _ _ _ _ C61_example eq_refl) as (ts & H1 & _).
  pose proof (C53_conversion _ _ _ H1) as Q. rewrite R0 in Q. injection Q as ->.
  destruct (NodesLayout.layout_ok ts) as [_ O]. clear H1. revert O R0 R1 R2. generalize (lays 0 None ts) as g. intros g O R0 R1 R2.
  enough (g2 = g) as -> by exact O.
  vm_compute in R0. injection R0 as <-. vm_compute in R1. injection R1 as <-. vm_compute in R2. now injection R2 as <-.
Qed.
(** The file passes all checks. *)
Definition nothing_outside : outside := Outside (fun _ => None) (fun _ _ => None).
Example C61_example_accepted :
  match front parse_type (fun g => g) nothing_outside (flat_map tokens living) with
  | NOk g' => match check_lives (S (length g')) g' with XOk _ => True | _ => False end
  | _ => False end.
Proof. vm_compute. exact Logic.I. Qed.
Example C61_example_nothing : good_outside nothing_outside.
Proof. intros x l k k' H. discriminate H. Qed.

(** ** Without the conditions

    Each text follows the grammar, and breaks one of the conditions. *)
Definition one : stx := SValue (MF64 "num" (f_of_Z 1)).
Definition f_ (x : string) (b : list stx) : list stx := [SNode "fn" [str "name" "f"; SNode "arg" [str "name" x]; SValue (MBool "returns" false); SNode "block" b]].
Definition f_means (x : string) (es : list expr) : file := File [] [] [Function_ "f" [Arg x None TAny false] [] [] es TVoid].
Lemma f_follows : forall i a x b es, all_mean i a "expr" b es -> file_means i a (f_ x b) (f_means x es).
Proof.
  intros i a x b es H. refine (Fi i a [] [] [] [] [_] [] [_] (or_introl (conj eq_refl eq_refl)) (or_introl (conj eq_refl eq_refl)) (Forall2_nil _) _).
  constructor; [|constructor]. refine (Fm_void i a "f" [_] [] b [] [Arg x None TAny false] [[]] [] [] es _ (Cu_nil) H (Forall_nil _) (Tr_all _ _)); [|repeat constructor].
  apply (more_args i a false x None), As_none.
Qed.
(** [1 = 1] panics. *)
Theorem C61_assign_refuted : exists F f, file_means (fun _ _ => FNone) (fun _ => true) F f /\ forallb (nodes_all traceable) F = true /\
  forallb (nodes_all linkable) F = false /\ front parse_type (fun g => g) nothing_outside (flat_map tokens F) = NPanic.
Proof.
  exists (f_ "x" [SNode "expr" [SNode "assign" [SNode "left" [one]; flag "="; SNode "right" [one]]]]). eexists. split; [|repeat split; vm_compute; reflexivity].
  apply f_follows. apply Al_cons; [|apply Al_nil]. eapply Eb_assign; [simpl; tauto| |]; apply num_body.
Qed.
Print Assumptions C61_assign_refuted.
(** So does [\x(mut x)]. *)
Theorem C61_closure_refuted : exists F f, file_means (fun _ _ => FNone) (fun _ => true) F f /\ forallb (nodes_all traceable) F = true /\
  forallb (nodes_all linkable) F = false /\ front parse_type (fun g => g) nothing_outside (flat_map tokens F) = NPanic.
Proof.
  exists (f_ "x" [SNode "expr" [SNode "call_closure" [var_ "x"; SNode "call_arg" [flag "mut"; var_ "x"]]]]). eexists. split; [|repeat split; vm_compute; reflexivity].
  apply f_follows. apply Al_cons; [|apply Al_nil]. eapply Eb_call_closure; [apply var_means|]. apply Ar_cons; [apply Ab_mut, var_means|apply Ar_nil].
Qed.
Print Assumptions C61_closure_refuted.
(** [!(return)] and [grab '0 1] become syntax trees, and are not accepted although nothing in them is [wrong]: there is no variable or
    call that is not found. *)
Theorem C61_rejected_refuted : forall b, In b [[SNode "not" [SNode "expr" [flag "return_void"]]]; [SNode "grab" [SValue (MF64 "grab_level" f0); SNode "expr" [one]]]] ->
  exists f e i, file_means (fun _ _ => FNone) (fun _ => true) (f_ "x" [SNode "expr" b]) f /\ forallb (nodes_all traceable) (f_ "x" [SNode "expr" b]) = true /\
  forallb (nodes_all linkable) (f_ "x" [SNode "expr" b]) = false /\ front parse_type (fun g => g) nothing_outside (flat_map tokens (f_ "x" [SNode "expr" b])) = NErr e i.
Proof.
  intros b [<- | [<- | []]]; eexists; eexists; eexists; (split; [|repeat split; vm_compute; reflexivity]); apply f_follows; (apply Al_cons; [|apply Al_nil]).
  - apply Eb_not, Eb_return_void.
  - eapply (Eb_grab_constant _ _ (Some f0)); [apply Eb_num|vm_compute; reflexivity].
Qed.
Print Assumptions C61_rejected_refuted.
(** A lifetime in a closure (the grammar of the language has none there, C60's has) makes the lifetime checks panic. *)
Theorem C61_lifetime_refuted : exists F f g, file_means (fun _ _ => FNone) (fun _ => true) F f /\ forallb (nodes_all linkable) F = true /\
  forallb (nodes_all traceable) F = false /\ front parse_type (fun g => g) nothing_outside (flat_map tokens F) = NOk g /\ check_lives (S (length g)) g = XPanic.
Proof.
  exists (f_ "x" [SNode "expr" [SNode "closure" [SNode "arg" [str "name" "y"; str "lifetime" "z"]; SNode "expr" [var_ "y"]]]]). eexists. eexists.
  split; [|split; [reflexivity|split; [reflexivity|split; [vm_compute; reflexivity|]]]]; [|vm_compute; reflexivity]. apply f_follows. apply Al_cons; [|apply Al_nil].
  refine (Eb_closure _ _ [_] [] _ [Arg "y" (Some "z") TAny false] [[]] [] _ _ Cu_nil (var_body _ _ "y")). apply (more_args _ _ false "y" (Some "z")), As_none.
Qed.
Print Assumptions C61_lifetime_refuted.
