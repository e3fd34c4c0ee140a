(** * C62: in an accepted file every variable is known and every function can be called.

    The checkers work on a graph of their own, and the syntax tree that is run is made from the same text without looking at
    that graph. Here the verdict of the checkers is carried over to the syntax tree. *)
From Coq Require Import String List Bool Arith ZArith Lia.
From Verif Require Import PrintModel ColorModel Float64 TypeModel LifetimeModel NodesModel FoldModel TransformModel NodesSpec LivesSpec NodesLayout P_Nodes P_Scope P_Lives Syntax AstModel AstSpec AstProofs AstFile P_Ast GrammarSpec GrammarBuild GrammarFits GrammarCases GrammarAll P_Grammar VisibleSpec VisibleFile.
Import ListNotations.
Local Open Scope string_scope.
Local Open Scope nat_scope.
Local Open Scope list_scope.

Lemma both_tidy : forall F, forallb (nodes_all linkable) F = true -> forallb (nodes_all traceable) F = true -> forallb (nodes_all (tidy true)) F = true.
Proof.
  intros F A B. rewrite forallb_forall in A, B |- *. intros t I. specialize (A t I). specialize (B t I). clear I. revert t A B. fix IH 1.
  intros [n b| | |] A B; try reflexivity. cbn [nodes_all] in *. rewrite andb_true_iff in *. destruct A as [A1 A2], B as [B1 B2].
  split; [unfold tidy; now rewrite A1, B1|]. clear A1 B1. induction b as [|t b IHb]; [reflexivity|]. cbn [forallb] in *. apply andb_true_iff in A2, B2.
  destruct A2 as [A2 A3], B2 as [B2 B3]. rewrite (IH t A2 B2). exact (IHb A3 B3).
Qed.

(** A text of the grammar that the linking passes accept becomes a syntax tree whose functions use known variables only, and call
    functions of the file, or else from outside, with as many values as they have arguments. *)
Theorem C62_visible : forall in_of alloc sort F f K g', file_means in_of alloc F f ->
  forallb (nodes_all linkable) F = true -> forallb (nodes_all traceable) F = true -> forallb (nodes_all regular) F = true -> sorts sort F ->
  front parse_type sort K (flat_map tokens F) = NOk g' ->
  AstModel.convert in_of alloc (flat_map tokens F) = (f, [], Done) /\ forall fn, In fn (d_fns f) -> visible_function (callable_in K f) fn.
Proof.
  intros in_of alloc sort F f K g' M A B R SO FR. split; [apply (C60_file _ _ _ _ M)|]. exact (proj2 (file_visible _ _ _ _ _ _ _ M (both_tidy _ A B) R SO FR)).
Qed.
Print Assumptions C62_visible.
(** There is one function of each name. *)
Theorem C62_functions : forall in_of alloc sort F f K g', file_means in_of alloc F f ->
  forallb (nodes_all linkable) F = true -> forallb (nodes_all traceable) F = true -> forallb (nodes_all regular) F = true -> sorts sort F ->
  front parse_type sort K (flat_map tokens F) = NOk g' -> NoDup (map h_name (d_fns f)).
Proof. intros in_of alloc sort F f K g' M A B R SO FR. exact (proj1 (file_visible _ _ _ _ _ _ _ M (both_tidy _ A B) R SO FR)). Qed.
Print Assumptions C62_functions.
(** So a file with something unknown in it is rejected. *)
Theorem C62_rejected : forall in_of alloc sort F f K fn, file_means in_of alloc F f ->
  forallb (nodes_all linkable) F = true -> forallb (nodes_all traceable) F = true -> forallb (nodes_all regular) F = true -> sorts sort F ->
  In fn (d_fns f) -> ~ visible_function (callable_in K f) fn -> exists e i, front parse_type sort K (flat_map tokens F) = NErr e i.
Proof.
  intros in_of alloc sort F f K fn M A B R SO I NV. destruct (C61_no_panic _ _ _ _ _ K M A SO) as (r & E & OK).
  destruct r; try contradiction; [|eauto]. exfalso. apply NV. exact (proj2 (C62_visible _ _ _ _ _ _ _ M A B R SO E) fn I).
Qed.
Print Assumptions C62_rejected.

(** ** A file

    [fn f(x) -> { y := x  for i [0, y) { y += i  \(x) = x }  g(y)  return = y }
     fn g(a) { for i := a; false; i = 0 { [a, i] } }] *)
Definition n_ (z : Z) : stx := SValue (MF64 "num" (f_of_Z z)).
Definition is_ (x o : string) (b : stx) : stx := SNode "expr" [SNode "assign" [SNode "left" [var_ x]; flag o; SNode "right" [b]]].
Definition seen_file : list stx :=
  [SNode "fn" [str "name" "f"; SNode "arg" [str "name" "x"]; flag "returns"; SNode "block" [
     is_ "y" ":=" (var_ "x");
     SNode "expr" [SNode "for_n" [str "name" "i"; SNode "start" [n_ 0]; SNode "end" [var_ "y"]; SNode "block" [
       is_ "y" "+=" (var_ "i"); SNode "expr" [SNode "closure" [SNode "arg" [str "name" "x"]; SNode "expr" [var_ "x"]]]]]];
     SNode "expr" [SNode "call" [str "name" "g"; SNode "call_arg" [var_ "y"]]];
     is_ "return" "=" (var_ "y")]];
   SNode "fn" [str "name" "g"; SNode "arg" [str "name" "a"]; SValue (MBool "returns" false); SNode "block" [
     SNode "expr" [SNode "for" [SNode "init" (body_of (is_ "i" ":=" (var_ "a"))); SNode "cond" [SValue (MBool "bool" false)]; SNode "step" (body_of (is_ "i" "=" (n_ 0)));
       SNode "block" [SNode "expr" [SNode "array" [SNode "array_item" [var_ "a"]; SNode "array_item" [var_ "i"]]]]]]]]].
Definition N_ (z : Z) : expr := EVar (vf64 (f_of_Z z)).
Definition seen_means : file :=
  File [] [] [
    Function_ "f" [Arg "x" None TAny false] [] []
      [EAssign OpAssign (X "y") (X "x");
       EForN KFor None "i" (Some (N_ 0)) (X "y") [EAssign OpAdd (X "y") (X "i"); EClosure (Closure ["x"] [] (X "x"))];
       apply "g" [X "y"]; EAssign OpSet (X "return") (X "y")] TAny;
    Function_ "g" [Arg "a" None TAny false] [] []
      [EFor None (EAssign OpAssign (X "i") (X "a")) (EVar (vbool false)) (EAssign OpSet (X "i") (N_ 0)) [EArray [X "a"; X "i"]]] TVoid].
Lemma is_means : forall i a x o op b e, In (o, op) assignments -> expr_body i a [b] e -> expr_body i a (body_of (is_ x o b)) (EAssign op (X x) e).
Proof. intros i a x o op b e I B. apply Eb_assign; [exact I|apply var_body|exact B]. Qed.
Lemma closure_means : forall i a x b e, expr_body i a b e -> expr_body i a [SNode "closure" [SNode "arg" [str "name" x]; SNode "expr" b]] (EClosure (Closure [x] [] e)).
Proof. intros i a x b e B. refine (Eb_closure i a [_] [] b [Arg x None TAny false] [[]] [] e _ Cu_nil B). apply (more_args i a false x None), As_none. Qed.
Lemma for_means : forall i a x s e b es is', expr_body i a [s] is' -> forall stop, expr_body i a [e] stop -> all_mean i a "expr" b es ->
  expr_body i a [SNode "for_n" [str "name" x; SNode "start" [s]; SNode "end" [e]; SNode "block" b]] (EForN KFor None x (Some is') stop es).
Proof.
  intros i a x s e b es is' S stop E B. refine (Eb_index i a "for_n" KFor None [_; _; _] [(x, Some is', Some stop)] b es _ _ _ B _ _); [simpl; tauto| |apply Lo_one, En_given|discriminate].
  apply In_range; [exact S|exact E|apply In_nil].
Qed.
Example C62_example : file_means (fun _ _ => FNone) (fun _ => true) seen_file seen_means.
Proof.
  set (i := fun _ _ => FNone). set (a := fun _ : Z => true).
  refine (Fi i a [] [] [] [] [_; _] [] [_; _] (or_introl (conj eq_refl eq_refl)) (or_introl (conj eq_refl eq_refl)) (Forall2_nil _) _).
  constructor; [|constructor; [|constructor]].
  - refine (Fm_block i a "f" [_] [] [] None [_; _; _; _] [] [Arg "x" None TAny false] [[]] [] [] _ _ (Cu_nil) (Tp_none _) _ (Forall_nil _) (Tr_all _ _)); [| |repeat constructor].
    + apply (more_args i a false "x" None), As_none.
    + apply Al_cons; [apply is_means; [simpl; tauto|apply var_body]|]. apply Al_cons; [|apply Al_cons; [|apply Al_cons; [apply is_means; [simpl; tauto|apply var_body]|apply Al_nil]]].
      * apply for_means; [apply Eb_num|apply var_body|]. apply Al_cons; [apply is_means; [simpl; tauto|apply var_body]|]. apply Al_cons; [apply closure_means, var_body|apply Al_nil].
      * apply Eb_call, (Ca_plain i a None "g" _ [false]). apply Ar_cons; [apply Ab_expr, var_body|apply Ar_nil].
  - refine (Fm_void i a "g" [_] [] [_] [] [Arg "a" None TAny false] [[]] [] [] _ _ (Cu_nil) _ (Forall_nil _) (Tr_all _ _)); [| |repeat constructor].
    + apply (more_args i a false "a" None), As_none.
    + apply Al_cons; [|apply Al_nil]. refine (Eb_for i a None _ _ _ _ _ _ _ _ _ _ _ _); [apply is_means; [simpl; tauto|apply var_body]|apply Eb_bool|apply is_means; [simpl; tauto|apply Eb_num]|].
      apply Al_cons; [|apply Al_nil]. apply Eb_array. apply Al_cons; [apply var_body|]. apply Al_cons; [apply var_body|apply Al_nil].
Qed.
Example C62_example_conditions : forallb (nodes_all linkable) seen_file = true /\ forallb (nodes_all traceable) seen_file = true /\ forallb (nodes_all regular) seen_file = true.
Proof. split; [|split]; reflexivity. Qed.
Example C62_example_sorts : sorts (fun g => g) seen_file.
Proof.
  intros g0 g1 g2 R0 R1 R2. exists (fun i => i). apply sorted_id.
  destruct (file_trees false _ _ _ _ C62_example eq_refl) as (ts & H1 & _).
  pose proof (C53_conversion _ _ _ H1) as Q. rewrite R0 in Q. injection Q as ->.
  destruct (NodesLayout.layout_ok ts) as [_ O]. clear H1. revert O R0 R1 R2. generalize (lays 0 None ts) as g. intros g O R0 R1 R2.
  enough (g2 = g) as -> by exact O.
  vm_compute in R0. injection R0 as <-. vm_compute in R1. injection R1 as <-. vm_compute in R2. now injection R2 as <-.
Qed.
Example C62_example_accepted : match front parse_type (fun g => g) nothing_outside (flat_map tokens seen_file) with NOk _ => True | _ => False end.
Proof. vm_compute. exact Logic.I. Qed.
Example C62_example_seen : Forall (visible_function (callable_in nothing_outside seen_means)) (d_fns seen_means).
Proof.
  destruct (front parse_type (fun g => g) nothing_outside (flat_map tokens seen_file)) as [g'|e i| |] eqn:E; try (vm_compute in E; discriminate).
  apply Forall_forall. destruct C62_example_conditions as (A & B & C). exact (proj2 (C62_visible _ _ _ _ _ _ _ C62_example A B C C62_example_sorts E)).
Qed.

(** ** Without the conditions

    Each text follows the grammar, is accepted, and uses something unknown in the syntax tree. *)
Definition leaks (b : list stx) : Prop := exists f, file_means (fun _ _ => FNone) (fun _ => true) (f_ "x" b) f /\
  forallb (nodes_all linkable) (f_ "x" b) = true /\ forallb (nodes_all traceable) (f_ "x" b) = true /\ forallb (nodes_all regular) (f_ "x" b) = false /\
  (exists g, front parse_type (fun g => g) nothing_outside (flat_map tokens (f_ "x" b)) = NOk g) /\
  exists fn, In fn (d_fns f) /\ ~ visible_function (callable_in nothing_outside f) fn.
Lemma leak : forall b es, all_mean (fun _ _ => FNone) (fun _ => true) "expr" b es ->
  forallb (nodes_all linkable) (f_ "x" b) = true -> forallb (nodes_all traceable) (f_ "x" b) = true -> forallb (nodes_all regular) (f_ "x" b) = false ->
  (exists g, front parse_type (fun g => g) nothing_outside (flat_map tokens (f_ "x" b)) = NOk g) ->
  (in_turn (visible (callable_in nothing_outside (f_means "x" es))) ["x"] es -> False) -> leaks b.
Proof.
  intros b es M A B C D N. exists (f_means "x" es). split; [now apply f_follows|]. do 4 (split; [assumption|]). eexists. split; [now left|]. exact N.
Qed.
(** [[y := 1, y]] *)
Theorem C62_array_refuted : leaks [SNode "expr" [SNode "array" [SNode "array_item" (body_of (is_ "y" ":=" (n_ 1))); SNode "array_item" [var_ "y"]]]].
Proof.
  eapply leak; [|reflexivity|reflexivity|reflexivity|eexists; vm_compute; reflexivity|].
  - apply Al_cons; [|apply Al_nil]. apply Eb_array. apply Al_cons; [apply is_means; [simpl; tauto|apply Eb_num]|]. apply Al_cons; [apply var_body|apply Al_nil].
  - cbn. intuition congruence.
Qed.
Print Assumptions C62_array_refuted.
(** [for i [0, i) {}] *)
Theorem C62_range_refuted : leaks [SNode "expr" [SNode "for_n" [str "name" "i"; SNode "start" [n_ 0]; SNode "end" [var_ "i"]; SNode "block" []]]].
Proof.
  eapply leak; [|reflexivity|reflexivity|reflexivity|eexists; vm_compute; reflexivity|].
  - apply Al_cons; [|apply Al_nil]. apply for_means; [apply Eb_num|apply var_body|apply Al_nil].
  - cbn. intuition congruence.
Qed.
Print Assumptions C62_range_refuted.
(** [for i i {}] over a list *)
Theorem C62_receive_refuted : leaks [SNode "expr" [SNode "for_in" [str "name" "i"; SNode "iter" [var_ "i"]; SNode "block" []]]].
Proof.
  eapply leak; [|reflexivity|reflexivity|reflexivity|eexists; vm_compute; reflexivity|].
  - apply Al_cons; [|apply Al_nil]. refine (Eb_receive _ _ "for_in" KFor None "i" _ [] _ [] _ (var_body _ _ "i") (Al_nil _ _ _) _); [simpl; tauto|discriminate].
  - cbn. intuition congruence.
Qed.
Print Assumptions C62_receive_refuted.
(** [(y := 1)?  y] *)
Theorem C62_try_refuted : leaks [SNode "expr" (body_of (is_ "y" ":=" (n_ 1)) ++ [flag "try"]); SNode "expr" [var_ "y"]].
Proof.
  eapply leak; [|reflexivity|reflexivity|reflexivity|eexists; vm_compute; reflexivity|].
  - apply Al_cons; [apply Eb_try, is_means; [simpl; tauto|apply Eb_num]|]. apply Al_cons; [apply var_body|apply Al_nil].
  - cbn. intuition congruence.
Qed.
Print Assumptions C62_try_refuted.
(** [f(x) := 1  f] *)
Theorem C62_left_refuted : leaks [SNode "expr" [SNode "assign" [SNode "left" [SNode "call" [str "name" "f"; SNode "call_arg" [var_ "x"]]]; flag ":="; SNode "right" [n_ 1]]]; SNode "expr" [var_ "f"]].
Proof.
  eapply leak; [|reflexivity|reflexivity|reflexivity|eexists; vm_compute; reflexivity|].
  - apply Al_cons; [|apply Al_cons; [apply var_body|apply Al_nil]]. apply (Eb_assign _ _ _ ":=" OpAssign); [simpl; tauto| |apply Eb_num].
    apply Eb_call, (Ca_plain _ _ None "f" _ [false]). apply Ar_cons; [apply Ab_expr, var_body|apply Ar_nil].
  - cbn. intuition congruence.
Qed.
Print Assumptions C62_left_refuted.
(** [for i { x[i] }]: the call of [len] in the end of the loop is not checked *)
Theorem C62_open_refuted : leaks [SNode "expr" [SNode "for_n" [str "name" "i"; SNode "block" [SNode "expr" [SNode "item" [str "name" "x"; SNode "item_extra" [SNode "id" [var_ "i"]]]]]]]].
Proof.
  eapply leak; [|reflexivity|reflexivity|reflexivity|eexists; vm_compute; reflexivity|].
  - apply Al_cons; [|apply Al_nil]. eapply (Eb_index _ _ "for_n" KFor None [str "name" "i"] [("i", None, None)]); [simpl; tauto|apply In_open, In_nil| | |discriminate].
    + apply Al_cons; [|apply Al_nil]. apply Eb_item. eapply (It_extra _ _ false "x" false [SNode "id" [var_ "i"]]); [discriminate|]. apply (Id_expr _ _ 0 [var_ "i"] (X "i") false [] [] []); [apply var_body|apply Id_nil].
    + apply Lo_one, En_inferred. reflexivity.
  - intros ((_ & (C & _) & _) & _). destruct C as [(fn & [<-|[]] & Y & _)|(_ & lts & Y & _)]; discriminate Y.
Qed.
Print Assumptions C62_open_refuted.
(** [vec3 i { i = 1  i }]: what comes after the assignment keeps the variable, which is gone *)
Theorem C62_unrolled_refuted : leaks [SNode "expr" [SNode "vec4_un_loop" [flag "3"; str "name" "i"; SNode "expr" [SNode "block" [is_ "i" "=" (n_ 1); SNode "expr" [var_ "i"]]]]]].
Proof.
  eapply leak; [|reflexivity|reflexivity|reflexivity|eexists; vm_compute; reflexivity|].
  - apply Al_cons; [|apply Al_nil]. apply (Eb_un_loop _ _ "3" 3); [simpl; tauto|]. apply Eb_block. apply Al_cons; [apply is_means; [simpl; tauto|apply Eb_num]|]. apply Al_cons; [apply var_body|apply Al_nil].
  - cbn. intuition congruence.
Qed.
Print Assumptions C62_unrolled_refuted.
