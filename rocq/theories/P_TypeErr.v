(** * C74: The errors of the type checker *)
From Coq Require Import String List Bool Arith Lia.
From Verif Require Import PrintModel NodesModel NodesSpec P_Nodes P_Scope LivesModel LivesSpec LivesFits P_Lives TypedSpec TypedFits P_Typed CheckModel P_Check
  Syntax TypeModel LifetimeModel TypecheckModel TypeSpec TypecheckSpec TypeErrSpec TypeProofs TypecheckProofs TypecheckShape TypecheckInv TypecheckVisit TypecheckClosed TypecheckReason TypeErrProofs TypeErrVisit TypeErrArgs P_Typecheck.
Import ListNotations.
Local Open Scope string_scope.
Local Open Scope nat_scope.
Local Open Scope list_scope.

(** All types of an accepted file are found by the rules, starting from what is written in the file. *)
Theorem C74_inferred : forall K rounds fuel g g', well_formed K g -> typecheck K rounds fuel g = TOk g' -> inferred K g g'.
Proof.
  intros K rounds fuel g g' WF H. unfold typecheck in H. tinv H. destruct (snd x) eqn:X; [|discriminate]. tinv H. injection H as <-.
  eapply (propagate_inferred K g WF g); eauto; [apply shape_refl|apply I_start].
Qed.
Print Assumptions C74_inferred.

(** A file with a type error: with the types found so far, something is wrong at the reported place: either a rule cannot be applied,
    or an argument does not go with its parameter, or - when all rules have been applied - something else that the error names. *)
Theorem C74_errors : forall K rounds fuel g c i, well_formed K g -> args_in_calls g -> typecheck K rounds fuel g = TErr c i ->
  exists h, inferred K g h /\ (clash K h c i \/ (c = 100 /\ misfit K h i) \/ (settled K g h /\ at_odds h c i)).
Proof.
  intros K rounds fuel g c i WF AC H. unfold typecheck in H. apply tbind_err in H. destruct H as [H|(r & P & H)].
  - destruct (propagate_err K g WF g _ _ _ _ _ _ (shape_refl g) (I_start K g) H) as (h & A & B). exists h. auto.
  - pose proof (propagate_inferred K g WF g _ _ _ _ _ (shape_refl g) (I_start K g) P) as I'. exists (fst r). split; auto. right.
    destruct (snd r) as [|e l] eqn:X.
    + right. apply tbind_err in H. destruct H as [H|(u & _ & H)]; [|discriminate]. split; [|eapply after_all_err; eauto].
      pose proof (propagate_reasoned K g WF _ _ _ _ _ (seq_sorted _ _) (inv_start K g WF) (start_reasoned K g) P) as RE.
      destruct (propagate_inv K g WF _ _ _ _ _ (seq_sorted _ _) (inv_start K g WF) P) as (todo & errs & g' & s & A & B & D & F & ->).
      destruct (round_still K _ _ _ D F) as (G & _). simpl in *. rewrite G in *. split.
      * intros j t. eapply last_closed; eauto.
      * intros j n t N RU T0 NC T. eapply (last_reason K g WF todo errs g' s); eauto.
    + left. injection H as <- <-. split; auto. apply (bad_misfit K g WF AC).
      * destruct (propagate_inv K g WF _ _ _ _ _ (seq_sorted _ _) (inv_start K g WF) P) as (todo & errs & g' & s & A & B & D & F & ->).
        simpl. eapply shape_trans; [exact (V_shape _ _ _ _ _ _ B)|]. exact (round_shape _ _ _ _ D).
      * apply (propagate_bad K _ _ _ _ _ (fun e (X : In e []) => match X with end) P). rewrite X. now left.
Qed.
Print Assumptions C74_errors.

(** ** Whole files *)
Lemma file_args : forall P sort K O F ts g, checkable P sort K O F ts -> front P sort O (flat_map tokens F) = NOk g ->
  well_formed K (checked g) /\ args_in_calls (checked g).
Proof.
  intros P sort K O F ts g [G L T GO KF ORD] R. destruct (C55_graph _ _ _ _ G) as (g0 & g1 & p & GR & _). destruct (ORD g R) as [DB OF].
  assert (accepted P sort K O F ts g) as AC by (split; eauto). pose proof (C72_well_formed _ _ _ _ _ _ _ AC) as WF. split; auto.
  pose proof (C56_linked _ _ _ _ _ _ _ G L GO GR R) as LV. intros i n q N KN PQ. destruct (wf_parent _ _ WF _ _ _ N PQ) as (_ & qn & Q & I').
  apply g_node in N, Q. destruct N as (n' & N & ->), Q as (q' & Q & ->). cbn in I', KN.
  destruct (lf_callarg _ LV q q' i Q) as [X|X].
  - unfold parts. apply filter_In. split; auto. unfold NodesSpec.kind_at. rewrite N. now apply is_kind_iff.
  - left. exists (checked_node q'). split; [apply g_node; eauto|exact X].
  - right. exists (checked_node q'). split; [apply g_node; eauto|exact X].
Qed.
(** When the check of a file ends with a type error, the types that the rules find in the file show what is wrong there. *)
Theorem C74_file : forall P sort K O F ts rounds fuel c i, checkable P sort K O F ts ->
  check_core P sort O K rounds fuel (flat_map tokens F) = CType c i ->
  exists g h, front P sort O (flat_map tokens F) = NOk g /\ inferred K (checked g) h /\
    (clash K h c i \/ (c = 100 /\ misfit K h i) \/ (settled K (checked g) h /\ at_odds h c i)).
Proof.
  intros P sort K O F ts rounds fuel c i CH C. unfold check_core in C. destruct (front P sort O (flat_map tokens F)) as [g|e j| |] eqn:R; try discriminate.
  destruct (check_lives fuel g) as [[]|e j| |]; try discriminate. destruct (typecheck K rounds fuel (checked g)) as [h|c' j| | |] eqn:TC; try discriminate. injection C as -> ->.
  destruct (file_args _ _ _ _ _ _ _ CH R) as [WF AC]. destruct (C74_errors _ _ _ _ _ _ WF AC TC) as (h & A). exists g, h. auto.
Qed.
Print Assumptions C74_file.

(** ** Examples *)

(** [fn f(a: f64) -> bool { ... return "x" }]: the result does not go with [bool] *)
Lemma sample_str_wf : well_formed prelude_ (sample TStr).
Proof.
  apply near_wf; [reflexivity| |].
  - intros i n d N KK D. unfold is_node in N.
    assert (d = 1 \/ d = 6 /\ 6 < i) as [-> |[-> LT]].
    { do 30 (destruct i as [|i]; [injection N as <-; try discriminate; injection D as <-; lia|]). destruct i; discriminate. }
    + left; exists K_Arg; split; [eexists; split; reflexivity|]; unfold binder; simpl; tauto.
    + right; split; auto; exists 4, 5; do 3 eexists; repeat split; exists [], [7]; repeat split; [eexists; split; reflexivity|intros ? []].
  - intros i n N KK. unfold is_node in N.
    do 30 (destruct i as [|i]; [injection N as <-; try discriminate KK; apply less_call; auto; no_swizzle|]). destruct i; discriminate.
Qed.
Example C74_example : well_formed prelude_ (sample TStr) /\ args_in_calls (sample TStr) /\ typecheck prelude_ 20 100 (sample TStr) = TErr 350 28 /\
  (exists h, inferred prelude_ (sample TStr) h /\ clash prelude_ h 350 28) /\ forall h, ~ at_odds h 350 28.
Proof.
  assert (forall h, ~ at_odds h 350 28) as NO by (intros h X; inversion X).
  assert (args_in_calls (sample TStr)) as AC.
  { intros i n p N KK PP. unfold is_node in N. do 30 (destruct i as [|i]; [injection N as <-; try discriminate KK; injection PP as <-; left; eexists; split; reflexivity|]). destruct i; discriminate. }
  split; [apply sample_str_wf|]. split; [exact AC|]. split; [apply C50_rejects|]. split; [|exact NO].
  destruct (C74_errors _ _ _ _ _ _ sample_str_wf AC C50_rejects) as (h & A & [B|[(B & _)|(_ & B)]]); [eauto|discriminate|destruct (NO _ B)].
Qed.

(** [fn f(b: 'return f64) -> f64 { x := b  return k(b) }  fn k(r: 'return str) -> any { return r }]: the argument of the call *)
Definition types_e : type_parser := fun name ms =>
  match ms with
  | MStart _ :: MBool "f64" _ :: MEnd _ :: _ => Some (3, TF64)
  | MStart _ :: MBool "str" _ :: MEnd _ :: _ => Some (3, TStr)
  | MStart _ :: MBool "any" _ :: MEnd _ :: _ => Some (3, TAny)
  | _ => None
  end.
Definition misfit_ : list stx :=
  [SNode "fn" [s_name "f"; SNode "arg" [s_name "b"; SValue (MString "lifetime" "return"); f64_]; SValue (MBool "returns" true); SType "ret_type" [MBool "f64" true];
     SNode "block" [s_let "x" (item_ "b"); s_expr (SNode "return" [SNode "call" [s_name "k"; SNode "call_arg" [item_ "b"]]])]];
   SNode "fn" [s_name "k"; SNode "arg" [s_name "r"; SValue (MString "lifetime" "return"); SType "type" [MBool "str" true]]; SValue (MBool "returns" true); SType "ret_type" [MBool "any" true];
     SNode "block" [s_expr (SNode "return" [item_ "r"])]]].
Definition misfit_t : list ntree :=
  [NT (with_ty TF64 (P_Nodes.named K_Fn "f")) [typed_arg "b"; t_block [t_let "x" (var_ "b"); t_expr (NT (blank K_Return None) [t_call "k" [var_ "b"]])]];
   NT (with_ty TAny (P_Nodes.named K_Fn "k")) [NT (with_ty TStr (with_lifetime "return" (P_Nodes.named K_Arg "r"))) []; t_block [t_expr (NT (blank K_Return None) [var_ "r"])]]].
Definition misfit_g : fgraph := Eval vm_compute in graph_ misfit_t.
Example C74_example_file : checkable types_e (fun g => g) nothing_ outside_ misfit_ misfit_t /\
  check_core types_e (fun g => g) outside_ nothing_ 10 100 (flat_map tokens misfit_) = CType 100 12 /\
  exists h, inferred nothing_ (checked misfit_g) h /\ misfit nothing_ h 12.
Proof.
  assert (front types_e (fun g => g) outside_ (flat_map tokens misfit_) = NOk misfit_g) as R by (vm_compute; reflexivity).
  assert (checkable types_e (fun g => g) nothing_ outside_ misfit_ misfit_t) as CH.
  { split.
    - split.
      + assert (exists ts, file_stands types_e misfit_ ts /\ ts = misfit_t) as (ts & H & ->); [|exact H].
        eexists. split; [unfold misfit_, f64_, s_let, s_expr, s_name, item_; stand|reflexivity].
        Unshelve. all: exact (blank K_Fn None).
      + intros t H. destruct H as [<-|[<-|[]]]; cbn;
        repeat match goal with
               | |- _ /\ _ => split
               | |- True => exact Logic.I
               | |- (_ = K_Add \/ _ = K_Mul) -> _ => intros [?|?]; first [discriminate|reflexivity]
               | |- ?a <> None -> _ => intros A; exfalso; apply A; reflexivity
               | |- (_ \/ _) \/ _ => left; left; reflexivity
               end.
      + intros t [<-|[<-|[]]]; split; reflexivity.
      + intros g1 g2 A B. exists (fun i => i). apply sorted_already. vm_compute in A. injection A as <-. vm_compute in B. injection B as <-.
        apply all_in_order_ok. vm_compute. reflexivity.
    - intros t [<-|[<-|[]]]; split; reflexivity.
    - intros t [<-|[<-|[]]]; reflexivity.
    - apply C56_example_file.
    - split; discriminate.
    - intros g R'. rewrite R in R'. injection R' as <-. split; [apply before_ok; vm_compute; reflexivity|apply plain_own; vm_compute; reflexivity]. }
  assert (check_core types_e (fun g => g) outside_ nothing_ 10 100 (flat_map tokens misfit_) = CType 100 12) as C by (vm_compute; reflexivity).
  split; [exact CH|]. split; [exact C|]. destruct (C74_file _ _ _ _ _ _ _ _ _ _ CH C) as (g & h & R' & A & B). rewrite R in R'. injection R' as <-. exists h. split; auto.
  destruct B as [B|[(_ & B)|(_ & B)]]; [inversion B|exact B|inversion B].
Qed.
