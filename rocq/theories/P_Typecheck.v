(** * The type checker.

    C50: what the checks after propagation guarantee.
    C51: the types that propagation finds. *)
From Coq Require Import String List Bool Arith Lia.
From Verif Require Import Syntax TypeModel LifetimeModel TypecheckModel TypeSpec TypecheckSpec TypeProofs TypecheckProofs TypecheckShape TypecheckInv TypecheckVisit TypecheckClosed TypecheckReason.
Import ListNotations.
Local Open Scope string_scope.
Local Open Scope nat_scope.
Local Open Scope list_scope.

Lemma check_fn_sound : forall n g t l found b, check_fn n g t l found = TOk b ->
  let here c := In c l \/ exists m, In m l /\ ~ kind_at g m K_Closure /\ within g m c in
  (forall c r, here c -> returns g c r -> goes_with t r = true) /\
  (b = true -> found = true \/ exists c, here c /\ return_statement g c).
Proof.
  induction n as [|n IH]; intros g t l found b H here; simpl in H; [discriminate|].
  destruct l as [|c l]; [injection H as <-; split; [intros c r [[]|(m & [] & _)]|auto]|].
  tinv H. apply get_ok in E.
  assert (forall found', tbind (check_fn n g t (g_children x) found') (fun found => check_fn n g t l found) = TOk b ->
    g_kind x <> K_Closure ->
    (forall r, returns g c r -> goes_with t r = true) ->
    (found' = true -> found = true \/ return_statement g c) ->
    (forall c r, here c -> returns g c r -> goes_with t r = true) /\
    (b = true -> found = true \/ exists c, here c /\ return_statement g c)) as Below.
  { intros found' B NC Here Found. tinv B. destruct (IH _ _ _ _ _ E0) as [I1 I2]. destruct (IH _ _ _ _ _ B) as [J1 J2].
    assert (~ kind_at g c K_Closure) as NC' by (intros (m & M & Y); rewrite (node_det _ _ _ _ M E) in Y; auto).
    assert (forall d, In d (g_children x) \/ (exists m, In m (g_children x) /\ ~ kind_at g m K_Closure /\ within g m d) <-> within g c d) as W.
    { intros d. split.
      - intros [D|(m & M & N & D)]; [eapply In_child; eauto|eapply In_deeper; eauto].
      - intros D. inversion D as [i y e A1 A2|i y m e A1 A2 A3 A4]; subst; rewrite (node_det _ _ _ _ A1 E) in A2; eauto 6. }
    split.
    - intros d r [[<- |D]|(m & [<- |M] & N & D)] R; auto.
      + apply (J1 d r); auto.
      + apply (I1 d r); auto. now apply W.
      + apply (J1 d r); eauto.
    - intros F. destruct (J2 F) as [F1|(d & [D|(m & M & N & D)] & R)].
      + destruct (I2 F1) as [F2|(d & D & R)].
        * destruct (Found F2); auto. right. exists c. split; auto. left. now left.
        * right. exists d. split; auto. right. exists c. split; [now left|]. split; auto. now apply W.
      + right. exists d. split; auto. left. now right.
      + right. exists d. split; auto. right. exists m. split; [now right|auto]. }
  assert (forall k, g_kind x = k -> k <> K_Return -> k <> K_ReturnVoid -> k <> K_Item -> forall r, returns g c r -> goes_with t r = true) as Other.
  { intros k <- N1 N2 N3 r R. inversion R as [t' (m & M & Y)|(m & M & Y)|t' (m & ? & ? & ? & M & Y & _)]; subst; exfalso;
      rewrite (node_det _ _ _ _ M E) in Y; auto. }
  destruct (g_kind x) eqn:Kx; try (apply (Below found H); [congruence|eapply Other; eauto; congruence|auto]).
  - (* Item *)
    destruct (match g_name x with Some y => (y =? "return")%string | None => false end) eqn:Nm.
    + tinv H. assert (x0 = true -> assigned_return g c) as Yes.
      { intros ->. destruct (g_name x) as [nm|] eqn:Nx; [|discriminate]. apply String.eqb_eq in Nm. subst nm.
        destruct (g_parent x) as [p|] eqn:Px; [|discriminate]. tinv E0. apply get_ok in E1.
        destruct (is_kind (g_kind x0) K_Left) eqn:KL; [|discriminate]. apply is_kind_iff in KL.
        destruct (g_parent x0) as [q|] eqn:Pq; [|discriminate]. tinv E0. apply get_ok in E2. injection E0 as E0. apply is_kind_iff in E0.
        exists x, p, x0, q. repeat split; auto. eexists; eauto. }
      assert (x0 = false -> ~ assigned_return g c) as No.
      { intros -> (m & p & pn & a & M & _ & _ & Q1 & Q2 & Q3 & Q4 & Q5). rewrite (node_det _ _ _ _ M E) in Q1. rewrite Q1 in E0.
        tinv E0. apply get_ok in E1. rewrite (node_det _ _ _ _ E1 Q2), Q3, is_kind_refl, Q4 in E0. tinv E0. apply get_ok in E2.
        destruct Q5 as (an & A1 & A2). rewrite (node_det _ _ _ _ E2 A1), A2, is_kind_refl in E0. discriminate. }
      destruct x0.
      * assert (forall r, g_ty x = Some r -> goes_with t r = true) as G.
        { intros r Hr. rewrite Hr in H. destruct (goes_with t r); [auto|discriminate]. }
        assert (tbind (check_fn n g t (g_children x) true) (fun found => check_fn n g t l found) = TOk b) as H'.
        { destruct (g_ty x); auto. destruct (goes_with t t0); [auto|discriminate]. }
        apply (Below true H'); [congruence| |intros _; right; right; right; auto].
        intros r R. inversion R as [t' (m & M & Y)|(m & M & Y)|t' _ Y]; subst.
        -- rewrite (node_det _ _ _ _ M E) in Y. congruence.
        -- rewrite (node_det _ _ _ _ M E) in Y. congruence.
        -- apply G. now rewrite <- (node_ty _ _ _ E).
      * apply (Below found H); [congruence| |auto]. intros r R. inversion R as [t' (m & M & Y)|(m & M & Y)|t' A]; subst.
        -- rewrite (node_det _ _ _ _ M E) in Y. congruence.
        -- rewrite (node_det _ _ _ _ M E) in Y. congruence.
        -- exfalso. now apply No.
    + apply (Below found H); [congruence| |auto]. intros r R. inversion R as [t' (m & M & Y)|(m & M & Y)|t' (m & ? & ? & ? & M & _ & Y & _)]; subst;
        rewrite (node_det _ _ _ _ M E) in Y; try congruence. rewrite Y in Nm. discriminate.
  - (* Return *)
    assert (forall r, g_ty x = Some r -> goes_with t r = true) as G.
    { intros r Hr. rewrite Hr in H. destruct (goes_with t r); [auto|discriminate]. }
    assert (tbind (check_fn n g t (g_children x) true) (fun found => check_fn n g t l found) = TOk b) as H'.
    { destruct (g_ty x); auto. destruct (goes_with t t0); [auto|discriminate]. }
    apply (Below true H'); [congruence| |intros _; right; left; eexists; eauto].
    intros r R. inversion R as [t' _ Y|(m & M & Y)|t' _ Y]; subst.
    + apply G. now rewrite <- (node_ty _ _ _ E).
    + rewrite (node_det _ _ _ _ M E) in Y. congruence.
    + apply G. now rewrite <- (node_ty _ _ _ E).
  - (* ReturnVoid *)
    destruct (goes_with t TVoid) eqn:GV; [|discriminate].
    apply (Below true H); [congruence| |intros _; right; right; left; eexists; eauto].
    intros r R. inversion R as [t' (m & M & Y)|(m & M & Y)|t' (m & ? & ? & ? & M & Y & _)]; subst; auto;
      rewrite (node_det _ _ _ _ M E) in Y; congruence.
  - (* Closure *)
    destruct (IH _ _ _ _ _ H) as [J1 J2].
    assert (kind_at g c K_Closure) as KC by (eexists; eauto). split.
    + intros d r [[<- |D]|(m & [<- |M] & N & D)] R; try contradiction.
      * eapply Other; eauto; congruence.
      * apply (J1 d r); auto.
      * apply (J1 d r); eauto.
    + intros F. destruct (J2 F) as [F1|(d & [D|(m & M & N & D)] & R)]; auto; right; exists d; (split; [|exact R]).
      * left. now right.
      * right. exists m. split; [now right|auto].
Qed.

Lemma after_at : forall K r f g g' i n, typecheck K r f g = TOk g' -> is_node g' i n ->
  match g_kind n with
  | K_Fn => after_fn f g' i n
  | K_Go => after_go g' i n
  | K_If => check_if g' n
  | K_Assign => after_assign g' i n
  | K_Block => after_block g' n
  | K_Swizzle => after_swizzle g' n
  | _ => TOk tt
  end = TOk tt.
Proof.
  intros K r f g g' i n H N. pose proof (typecheck_after _ _ _ _ _ _ _ H N) as A. unfold after in A. tinv A.
  apply get_ok in E. now rewrite (node_det _ _ _ _ E N) in A.
Qed.

(** An accepted function has a type, and everything that it gives back goes with it. *)
Theorem C50_returns : forall K rounds fuel g g' i n, typecheck K rounds fuel g = TOk g' ->
  is_node g' i n -> g_kind n = K_Fn ->
  exists t, g_ty n = Some t /\
    (forall c r, within g' i c -> returns g' c r -> goes_with t r = true) /\
    (forall e r, first_of g' n K_Expr e -> ty_at g' e = Some r -> goes_with t r = true) /\
    (t = TVoid \/ (exists e, first_of g' n K_Expr e) \/ exists c, within g' i c /\ return_statement g' c).
Proof.
  intros K rounds fuel g g' i n H N Kn. pose proof (after_at _ _ _ _ _ _ _ H N) as A. rewrite Kn in A. unfold after_fn in A.
  destruct (g_ty n) as [t|] eqn:T; [|discriminate]. exists t. split; auto.
  apply tbind_ok in A. destruct A as (e & E0 & A). apply tbind_ok in A. destruct A as (u & E1 & A).
  apply tbind_ok in A. destruct A as (b & E2 & A). destruct (check_fn_sound _ _ _ _ _ _ E2) as [P Q].
  assert (forall d, In d (g_children n) \/ (exists m, In m (g_children n) /\ ~ kind_at g' m K_Closure /\ within g' m d) <-> within g' i d) as W.
  { intros d. split.
    - intros [D|(m & M & X & D)]; [eapply In_child; eauto|eapply In_deeper; eauto].
    - intros D. inversion D as [j y x A1 A2|j y m x A1 A2 A3 A4]; subst; rewrite (node_det _ _ _ _ A1 N) in A2; [left; exact A2|right].
      exists m. auto. }
  split; [|split].
  - intros c r C R. apply (P c r); auto. now apply W.
  - intros x r F R. rewrite (find_child_is _ _ _ _ F _ E0) in E1. tinv E1. apply get_ok in E.
    rewrite (node_ty _ _ _ E) in R. rewrite R in E1. destruct (goes_with t r); [auto|discriminate].
  - destruct b; [|destruct e; [|destruct t; try discriminate A; auto]].
    + destruct (Q eq_refl) as [X|(c & C & R)]; [discriminate|]. right. right. exists c. split; auto. now apply W.
    + right. left. eexists. eapply find_child_first; eauto.
Qed.
Print Assumptions C50_returns.

Lemma else_ifs_sound : forall g t l, else_ifs g t l = TOk tt -> forall c, In c l ->
  (forall u, kind_at g c K_ElseIfCond -> ty_at g c = Some u -> goes_with TBool u = true) /\
  (forall u, kind_at g c K_ElseIfBlock -> ty_at g c = Some u -> goes_with u t = true).
Proof.
  induction l as [|d l IH]; intros H c C; [contradiction|]. simpl in H. tinv H. apply get_ok in E. destruct C as [<- |C].
  - split; intros u (m & M & Y) T; rewrite (node_det _ _ _ _ M E) in Y; rewrite (node_ty _ _ _ E) in T; rewrite Y, T in H.
    + destruct (goes_with TBool u); [auto|discriminate].
    + destruct (goes_with u t); [auto|discriminate].
  - apply IH; auto. destruct (g_kind x); auto; destruct (g_ty x); auto; [destruct (goes_with TBool t0)|destruct (goes_with t0 t)]; auto; discriminate.
Qed.

(** The conditions of an accepted [if] go with [bool], the other blocks with the type of the whole. *)
Theorem C50_if : forall K rounds fuel g g' i n, typecheck K rounds fuel g = TOk g' -> is_node g' i n -> g_kind n = K_If ->
  (forall c u, first_of g' n K_Cond c -> ty_at g' c = Some u -> goes_with TBool u = true) /\
  (forall t, g_ty n = Some t ->
    (forall c u, In c (g_children n) -> kind_at g' c K_ElseIfCond -> ty_at g' c = Some u -> goes_with TBool u = true) /\
    (forall c u, In c (g_children n) -> kind_at g' c K_ElseIfBlock -> ty_at g' c = Some u -> goes_with u t = true) /\
    (forall c u, first_of g' n K_ElseBlock c -> ty_at g' c = Some u -> goes_with u t = true)).
Proof.
  intros K rounds fuel g g' i n H N Kn. pose proof (after_at _ _ _ _ _ _ _ H N) as A. rewrite Kn in A. unfold check_if in A.
  apply tbind_ok in A. destruct A as (c & E0 & A). apply tbind_ok in A. destruct A as (u & E1 & A). split.
  - intros x r F R. rewrite (find_child_is _ _ _ _ F _ E0) in E1. tinv E1. apply get_ok in E.
    rewrite (node_ty _ _ _ E) in R. rewrite R in E1. destruct (goes_with TBool r); [auto|discriminate].
  - intros t T. rewrite T in A. apply tbind_ok in A. destruct A as ([] & E2 & A). apply tbind_ok in A. destruct A as (e & E3 & A).
    split; [|split].
    + intros x r X. apply (else_ifs_sound _ _ _ E2 _ X).
    + intros x r X. apply (else_ifs_sound _ _ _ E2 _ X).
    + intros x r F R. rewrite (find_child_is _ _ _ _ F _ E3) in A. tinv A. apply get_ok in E.
      rewrite (node_ty _ _ _ E) in R. rewrite R in A. destruct (goes_with r t); [auto|discriminate].
Qed.
Print Assumptions C50_if.

(** The operators [+=] and [-=] are used on types that have them. *)
Theorem C50_assign : forall K rounds fuel g g' i n l r lt rt, typecheck K rounds fuel g = TOk g' -> is_node g' i n -> g_kind n = K_Assign ->
  g_op n = Some OpAdd \/ g_op n = Some OpSub -> first_of g' n K_Left l -> first_of g' n K_Right r ->
  ty_at g' l = Some lt -> ty_at g' r = Some rt -> add_assign lt rt = true.
Proof.
  intros K rounds fuel g g' i n l r lt rt H N Kn O L R TL TR. pose proof (after_at _ _ _ _ _ _ _ H N) as A. rewrite Kn in A.
  unfold after_assign in A.
  assert (match find_child g' n K_Left with TOk (Some l) => match find_child g' n K_Right with TOk (Some r) =>
            match get g' l, get g' r with TOk ln, TOk rn => match g_ty ln, g_ty rn with Some lt, Some rt => add_assign lt rt | _, _ => true end
            | _, _ => true end | _ => true end | _ => true end = true) as B.
  { destruct O as [O|O]; rewrite O in A; tinvs A; repeat match goal with E : ?a = _ |- context [match ?a with _ => _ end] => rewrite E end; auto. }
  destruct (find_child g' n K_Left) as [o| | | |] eqn:EL; try (destruct O as [O|O]; rewrite O in A; discriminate A).
  rewrite (find_child_is _ _ _ _ L _ EL) in *.
  destruct (find_child g' n K_Right) as [o'| | | |] eqn:ER; try (destruct O as [O|O]; rewrite O in A; discriminate A).
  rewrite (find_child_is _ _ _ _ R _ ER) in *.
  unfold get, ty_at in *. destruct (nth_error g' l); [|discriminate]. destruct (nth_error g' r); [|discriminate]. now rewrite TL, TR in B.
Qed.
Print Assumptions C50_assign.

Lemma no_results_sound : forall g l, no_results g l = TOk tt -> forall c t, In c l -> ~ kind_at g c K_Return -> ty_at g c = Some t ->
  t = TVoid \/ t = TUnreachable.
Proof.
  induction l as [|d l IH]; intros H c t C R T; [contradiction|]. simpl in H. tinv H. apply get_ok in E. destruct C as [<- |C].
  - destruct (is_kind (g_kind x) K_Return) eqn:Q.
    + exfalso. apply R. apply is_kind_iff in Q. eexists; eauto.
    + rewrite (node_ty _ _ _ E) in T. rewrite T in H. destruct t; auto; discriminate.
  - apply (IH) with (c := c); auto. destruct (is_kind (g_kind x) K_Return); auto. destruct (g_ty x) as [[]|]; auto; discriminate.
Qed.
(** No result is dropped. *)
Theorem C50_results : forall K rounds fuel g g' i n c t, typecheck K rounds fuel g = TOk g' -> is_node g' i n -> g_kind n = K_Block ->
  In c (statements g' n) -> ~ kind_at g' c K_Return -> ty_at g' c = Some t -> t = TVoid \/ t = TUnreachable.
Proof.
  intros K rounds fuel g g' i n c t H N Kn C R T. pose proof (after_at _ _ _ _ _ _ _ H N) as A. rewrite Kn in A.
  apply (no_results_sound g' (statements g' n)) with (c := c); auto. unfold after_block in A. unfold statements in *.
  destruct (g_children n) as [|d l] eqn:Ch.
  { destruct (g_parent n); [|contradiction]. destruct (nth_error g' n0); [|contradiction]. destruct (g_kind g0); try contradiction.
    destruct (g_ty g0) as [[]|]; contradiction. }
  destruct (g_parent n) as [p|]; auto. destruct (nth_error g' p) as [pn|] eqn:P; [|contradiction].
  unfold get in A. rewrite P in A. cbn [tbind] in A. destruct (is_kind (g_kind pn) K_Fn) eqn:Q.
  - apply is_kind_iff in Q. rewrite Q in *. destruct (g_ty pn) as [[]|]; auto.
  - destruct (g_kind pn) eqn:Q'; auto. discriminate Q.
Qed.
Print Assumptions C50_results.

(** A thread is only started on a function that gives something. *)
Theorem C50_go : forall K rounds fuel g g' i n c cn d, typecheck K rounds fuel g = TOk g' -> is_node g' i n -> g_kind n = K_Go ->
  hd_error (g_children n) = Some c -> is_node g' c cn -> g_decl cn = Some d ->
  exists t, ty_at g' d = Some t /\ t <> TVoid.
Proof.
  intros K rounds fuel g g' i n c cn d H N Kn C N' D. pose proof (after_at _ _ _ _ _ _ _ H N) as A. rewrite Kn in A.
  unfold after_go in A. destruct (g_children n); inversion C; subst. tinv A. apply get_ok in E. rewrite (node_det _ _ _ _ E N'), D in A.
  tinv A. apply get_ok in E0. rewrite (node_ty _ _ _ E0). destruct (g_ty x0) as [[]|]; try discriminate; eexists; (split; [reflexivity|discriminate]).
Qed.
Print Assumptions C50_go.

(** The expression of a swizzle goes with a vector. *)
Theorem C50_swizzle : forall K rounds fuel g g' i n e en t, typecheck K rounds fuel g = TOk g' -> is_node g' i n -> g_kind n = K_Swizzle ->
  first_of g' n K_Expr e -> is_node g' e en -> g_ty en = Some t -> goes_with (behind en t) TVec4 = true.
Proof.
  intros K rounds fuel g g' i n e en t H N Kn F N' T. pose proof (after_at _ _ _ _ _ _ _ H N) as A. rewrite Kn in A.
  unfold after_swizzle in A. apply tbind_ok in A. destruct A as (o & E0 & A). rewrite (find_child_is _ _ _ _ F _ E0) in A.
  tinv A. apply get_ok in E. rewrite (node_det _ _ _ _ E N'), T, inner_behind in A. destruct (goes_with (behind en t) TVec4); [auto|discriminate].
Qed.
Print Assumptions C50_swizzle.

(** ** Examples *)
Definition nd (k : kind) (parent : option nat) (ch : list nat) (t : option ty) : gnode := GNode k [] None t false parent ch None None.
Definition use_ (x : string) (parent : nat) (d : option nat) : gnode := GNode K_Item [x] None None false (Some parent) [] d None.
Definition set_op (n : gnode) (o : assign_op) : gnode :=
  GNode (g_kind n) (g_names n) (g_alias n) (g_ty n) (g_try n) (g_parent n) (g_children n) (g_decl n) (Some o).
Definition named (n : gnode) (x : string) (d : option nat) : gnode :=
  GNode (g_kind n) [x] (g_alias n) (g_ty n) (g_try n) (g_parent n) (g_children n) d (g_op n).
(** module.rs 95-112 ([less]), 358-376 ([not]) *)
Definition prelude_ : known :=
  Known (fun f =>
    if (f =? "less")%string then
      Some (Dfn [TAny; TAny] TBool [mkSig [] [TSecret TF64; TF64] (TSecret TBool); mkSig [] [TF64; TF64] TBool; mkSig [] [TStr; TStr] TBool])
    else if (f =? "not")%string then
      Some (Dfn [TAny] TAny [mkSig [] [TSecret TBool] (TSecret TBool); mkSig [] [TBool] TBool])
    else None) (fun _ _ => None).
(** [fn f(a: f64) -> bool { x := a  x += 1  if x < 2 { return true }  return false }] *)
Definition sample (ret : ty) : graph :=
  [ named (nd K_Fn None [1; 2] (Some TBool)) "f" None;
    named (nd K_Arg (Some 0) [] (Some TF64)) "a" None;
    nd K_Block (Some 0) [3; 9; 15; 27] None;
    nd K_Expr (Some 2) [4] None;
    set_op (nd K_Assign (Some 3) [5; 7] None) OpAssign;
    nd K_Left (Some 4) [6] None; use_ "x" 5 None;
    nd K_Right (Some 4) [8] None; use_ "a" 7 (Some 1);
    nd K_Expr (Some 2) [10] None;
    set_op (nd K_Assign (Some 9) [11; 13] None) OpAdd;
    nd K_Left (Some 10) [12] None; use_ "x" 11 (Some 6);
    nd K_Right (Some 10) [14] None; nd K_Expr (Some 13) [] (Some TF64);
    nd K_Expr (Some 2) [16] None;
    nd K_If (Some 15) [17; 23] None;
    nd K_Cond (Some 16) [18] None;
    named (nd K_Call (Some 17) [19; 21] None) "less" None;
    nd K_CallArg (Some 18) [20] None; use_ "x" 19 (Some 6);
    nd K_CallArg (Some 18) [22] None; nd K_Expr (Some 21) [] (Some TF64);
    nd K_TrueBlock (Some 16) [24] None;
    nd K_Expr (Some 23) [25] None; nd K_Return (Some 24) [26] None; nd K_Expr (Some 25) [] (Some TBool);
    nd K_Expr (Some 2) [28] None; nd K_Return (Some 27) [29] None; nd K_Expr (Some 28) [] (Some ret) ].
(** [fn f() -> sec[bool] { return !"x" }] *)
Definition not_text : graph :=
  [ named (nd K_Fn None [1] (Some (TSecret TBool))) "f" None;
    nd K_Block (Some 0) [2] None; nd K_Expr (Some 1) [3] None; nd K_Return (Some 2) [4] None;
    named (nd K_Call (Some 3) [5] None) "not" None;
    nd K_CallArg (Some 4) [] (Some TStr) ].

(** The sample is accepted with every node typed as expected; with a [str] at the end it is not. *)
Example C50_example : exists g', typecheck prelude_ 20 100 (sample TBool) = TOk g' /\
  ty_at g' 6 = Some TF64 /\ ty_at g' 18 = Some TBool /\ ty_at g' 16 = Some TUnreachable /\
  within g' 0 25 /\ returns g' 25 TBool /\ statements g' (nth 2 g' (nd K_Fn None [] None)) = [3; 9; 15].
Proof.
  eexists. split; [vm_compute; reflexivity|]. repeat split.
  - assert (forall g i n m c, nth_error g i = Some n -> In m (g_children n) -> is_kind (match nth_error g m with Some y => g_kind y | None => K_Fn end) K_Closure = false ->
      within g m c -> within g i c) as Step.
    { intros g i n m c A B C D. eapply In_deeper; eauto. intros (y & Y & Z). unfold is_node in Y. rewrite Y, Z in C. discriminate. }
    eapply (Step _ _ _ 2); [reflexivity|simpl; tauto|reflexivity|]. eapply (Step _ _ _ 15); [reflexivity|simpl; tauto|reflexivity|].
    eapply (Step _ _ _ 16); [reflexivity|simpl; tauto|reflexivity|]. eapply (Step _ _ _ 23); [reflexivity|simpl; tauto|reflexivity|].
    eapply (Step _ _ _ 24); [reflexivity|simpl; tauto|reflexivity|]. eapply In_child; [reflexivity|simpl; tauto].
  - apply R_value; [eexists; split; reflexivity|reflexivity].
Qed.
Example C50_rejects : typecheck prelude_ 20 100 (sample TStr) = TErr 350 28.
Proof. vm_compute. reflexivity. Qed.

(** A finding: the argument of [!] is not checked when it is a literal. *)
Theorem C50_not_refuted : exists g', typecheck prelude_ 20 100 not_text = TOk g' /\
  ty_at g' 5 = Some TStr /\ ty_at g' 4 = Some (TSecret TBool) /\
  (forall f, target prelude_ (nth 4 g' (nd K_Fn None [] None)) f -> refine (d_ext f) [Some TStr] = RMismatch).
Proof.
  eexists. split; [vm_compute; reflexivity|]. repeat split. intros f (_ & x & X & F). injection X as <-. injection F as <-. reflexivity.
Qed.
Print Assumptions C50_not_refuted.

(** ** C51: the types that propagation finds *)
Lemma typecheck_last : forall K rounds fuel g g', well_formed K g -> typecheck K rounds fuel g = TOk g' ->
  exists todo errs s, Sorted.StronglySorted Peano.lt todo /\ Inv K g None todo [] g' /\ round K todo (St g' [] errs false) = TOk s /\
    s_changed s = false /\ s_errs s = [].
Proof.
  intros K rounds fuel g g' WF H. unfold typecheck in H. tinv H. destruct (snd x) eqn:X; [|discriminate]. tinv H. injection H as <-.
  destruct (propagate_inv K g WF _ _ _ _ _ (seq_sorted _ _) (inv_start K g WF) E) as (todo & errs & g' & s & A & B & C & D & ->).
  destruct (round_still K _ _ _ C D) as (F & _). simpl in *. exists todo, errs, s. rewrite F. auto.
Qed.

(** Whenever a rule of the language gives a type to a node, that is the type the checker has found. *)
Theorem C51_closed : forall K rounds fuel g g' i t, well_formed K g -> typecheck K rounds fuel g = TOk g' ->
  derives K g' i t -> ty_at g' i = Some t.
Proof.
  intros K rounds fuel g g' i t WF H D. destruct (typecheck_last _ _ _ _ _ WF H) as (todo & errs & s & A & B & C & E & F).
  eapply last_closed; eauto.
Qed.
Print Assumptions C51_closed.

(** Without a declared type, a node has a type exactly when a rule gives it; calls that choose among signatures are left out here. *)
Theorem C51_exact : forall K rounds fuel g g' i n t, well_formed K g -> typecheck K rounds fuel g = TOk g' ->
  is_node g' i n -> ruled n -> ~ choosing K g' i -> ty_at g i = None -> (ty_at g' i = Some t <-> derives K g' i t).
Proof.
  intros K rounds fuel g g' i n t WF H N RU C T0. split; [|eapply C51_closed; eauto]. intros T. unfold typecheck in H. tinv H. destruct (snd x) eqn:X; [|discriminate]. tinv H. injection H as <-.
  pose proof (propagate_reasoned K g WF _ _ _ _ _ (seq_sorted _ _) (inv_start K g WF) (start_reasoned K g) E) as RE.
  destruct (propagate_inv K g WF _ _ _ _ _ (seq_sorted _ _) (inv_start K g WF) E) as (todo & errs & g' & s & A & B & D & F & ->).
  destruct (round_still K _ _ _ D F) as (G & _). simpl in *. rewrite G in *. eapply (last_reason K g WF todo errs g' s); eauto.
Qed.
Print Assumptions C51_exact.

(** A declared variable has the type of the right side, unless its type and the type of the right side do not go together. *)
Theorem C51_declaration_partial : forall K rounds fuel g g' a an l d r t, well_formed K g -> typecheck K rounds fuel g = TOk g' ->
  declares g a l d -> is_node g a an -> first_of g an K_Right r -> ty_at g' r = Some t ->
  exists u, ty_at g' d = Some u /\ (u = t \/ goes_with t u = false).
Proof.
  intros K rounds fuel g g' a an l d r t WF H D N R T. destruct (typecheck_last _ _ _ _ _ WF H) as (todo & errs & s & A & B & C & E & F).
  assert (sides g a l d r) as SD by (split; eauto).
  destruct (last_sides K g WF todo errs g' s A B C E F _ _ _ _ _ SD T) as (u & U & X). exists u. split; auto.
  destruct D as (an' & ln & dn & _ & _ & _ & D1 & D2 & _ & _ & _ & D3 & D4 & D5 & D6 & _ & D7).
  pose proof (V_shape _ _ _ _ _ _ B) as S. destruct (shape_node _ _ _ _ S D3) as (du & M). destruct (shape_node _ _ _ _ S D1) as (lu & L).
  eapply C51_closed; eauto. eapply (D_declared K g' d (retype dn du) l u); eauto. exists (retype ln lu). auto.
Qed.
Print Assumptions C51_declaration_partial.

(** What an argument supplies goes with the declared type of the parameter. *)
Theorem C51_arguments : forall K rounds fuel g g' p pn c cn x j t, well_formed K g -> typecheck K rounds fuel g = TOk g' ->
  is_node g p pn -> g_kind pn = K_Call -> In c (g_children pn) -> is_node g c cn -> g_children cn = [x] ->
  supplies g pn c j -> ty_at g' x = Some t ->
  (forall d f a q, g_decl pn = Some d -> is_node g d f -> nth_error (g_children f) j = Some a -> ty_at g a = Some q ->
     q = TAny \/ goes_with q t = true) /\
  (forall f q, target K pn f -> nth_error (d_tys f) j = Some q -> goes_with q t = true).
Proof.
  intros K rounds fuel g g' p pn c cn x j t WF H P KP IC CN CX SU T. destruct (typecheck_last _ _ _ _ _ WF H) as (todo & errs & s & A & B & C & E & F).
  destruct (last_takes K g WF todo errs g' s A B C E F p pn c cn j x t P KP CN IC CX SU T) as (_ & TK). destruct (TK pn P KP) as (T1 & T2).
  split; auto. intros d f a q D G N Q.
  assert (kind_at g a K_Arg) as KA.
  { destruct (proj1 (proj2 (wf_call _ _ WF _ _ P KP)) d D) as (f' & F1 & F2 & F3). destruct (F3 c j SU) as (a' & A1 & A2).
    rewrite (node_det _ _ _ _ F1 G) in A1. congruence. }
  apply (T1 d f a q); auto. destruct (V_arg _ _ _ _ _ _ B a KA) as [Y|[Y _]]; congruence.
Qed.
Print Assumptions C51_arguments.

(** ** Well-formed examples *)
(** The conditions that are about neighbours in the tree can be computed. *)
Definition at_ (g : graph) (i : nat) (p : gnode -> bool) : bool := match nth_error g i with Some n => p n | None => false end.
Definition kind_b (g : graph) (i : nat) (k : kind) : bool := at_ g i (fun n => is_kind (g_kind n) k).
Definition parent_b (g : graph) (i p : nat) : bool := at_ g i (fun n => match g_parent n with Some q => q =? p | None => false end).
Fixpoint distinct (l : list nat) : bool := match l with [] => true | x :: l => negb (existsb (Nat.eqb x) l) && distinct l end.
Fixpoint args_then (g : graph) (l : list nat) : bool :=
  match l with [] => true | c :: l => if kind_b g c K_Arg then args_then g l else forallb (fun d => negb (kind_b g d K_Arg)) (c :: l) end.
Definition near_b (g : graph) (i : nat) (n : gnode) : bool :=
  distinct (g_children n) && forallb (fun c => parent_b g c i) (g_children n) &&
  match g_parent n with Some p => (p <? i) && at_ g p (fun pn => existsb (Nat.eqb i) (g_children pn)) | None => true end &&
  match g_kind n with
  | K_Left => match g_parent n with Some p => kind_b g p K_Assign | None => true end && (length (g_children n) <=? 1) && negb (g_try n)
  | K_Fn => args_then g (g_children n)
  | K_Item => match g_ty n with None => true | Some _ => false end
  | K_Call => match g_ty n with None => true | Some _ => false end &&
      forallb (fun c => at_ g c (fun cn => is_kind (g_kind cn) K_CallArg && negb (g_try cn) && (length (g_children cn) =? 1))) (g_children n)
  | _ => true
  end.
Definition near (g : graph) : bool := forallb (fun i => at_ g i (near_b g i)) (seq 0 (length g)).
Lemma kind_b_ok : forall g i k, kind_b g i k = true <-> kind_at g i k.
Proof.
  intros g i k. unfold kind_b, at_, kind_at, is_node. split.
  - destruct (nth_error g i) as [n|]; [|discriminate]. intros H. apply is_kind_iff in H. eauto.
  - intros (n & -> & H). now apply is_kind_iff.
Qed.
Lemma distinct_ok : forall l, distinct l = true -> NoDup l.
Proof.
  induction l as [|x l IH]; simpl; intros H; constructor; apply andb_true_iff in H; destruct H as [A B]; auto.
  intros X. apply negb_true_iff in A. assert (existsb (Nat.eqb x) l = true) by (apply existsb_exists; exists x; rewrite Nat.eqb_refl; auto). congruence.
Qed.
Lemma args_then_ok : forall g l, args_then g l = true -> exists args rest, l = args ++ rest /\
    (forall c, In c args -> kind_at g c K_Arg) /\ (forall c, In c rest -> ~ kind_at g c K_Arg).
Proof.
  induction l as [|c l IH]; cbn [args_then]; intros H; [exists [], []; repeat split; intros ? []|]. destruct (kind_b g c K_Arg) eqn:X.
  - destruct (IH H) as (args & rest & -> & A & B). exists (c :: args), rest. repeat split; auto. intros d [<- |D]; auto. now apply kind_b_ok.
  - exists [], (c :: l). repeat split; [intros ? []|]. rewrite forallb_forall in H. intros d D Y. apply H in D. apply kind_b_ok in Y. now rewrite Y in D.
Qed.
(** The rest of [well_formed]: variables and calls. *)
Lemma near_wf : forall K g, near g = true ->
  (forall i n d, is_node g i n -> g_kind n = K_Item -> g_decl n = Some d ->
    (exists k, kind_at g d k /\ binder k) \/ (d < i /\ exists a l, declares g a l d)) ->
  (forall i n, is_node g i n -> g_kind n = K_Call ->
    (forall d, g_decl n = Some d -> exists f, is_node g d f /\ g_kind f = K_Fn /\
       forall c j, supplies g n c j -> exists a, nth_error (g_children f) j = Some a /\ kind_at g a K_Arg) /\
    (forall sigs ps, choices K g n sigs -> sigs <> [] -> params_are K g n ps -> fitting sigs ps /\ length (g_children n) <= length ps /\
      (forall c cn x, In c (g_children n) -> is_node g c cn -> In x (g_children cn) -> ~ kind_at g x K_Swizzle))) ->
  well_formed K g.
Proof.
  intros K g NE IT CA.
  assert (forall i n, is_node g i n -> near_b g i n = true) as N.
  { intros i n H. unfold near in NE. rewrite forallb_forall in NE. assert (In i (seq 0 (length g))) as X.
    { apply in_seq. unfold is_node in H. assert (nth_error g i <> None) as Y by congruence. apply nth_error_Some in Y. lia. }
    apply NE in X. unfold at_ in X. unfold is_node in H. now rewrite H in X. }
  split; intros i n.
  - intros H. pose proof (N i n H) as B. unfold near_b in B. rewrite !andb_true_iff in B. destruct B as (((B1 & B2) & _) & _).
    split; [now apply distinct_ok|]. intros c C. rewrite forallb_forall in B2. apply B2 in C. unfold parent_b, at_ in C.
    destruct (nth_error g c) as [cn|] eqn:X; [|discriminate]. exists cn. split; auto. destruct (g_parent cn); [|discriminate]. apply Nat.eqb_eq in C. now subst.
  - intros p H P. pose proof (N i n H) as B. unfold near_b in B. rewrite !andb_true_iff, P in B. destruct B as ((_ & B) & _).
    apply andb_true_iff in B. destruct B as (B1 & B2). apply Nat.ltb_lt in B1. split; auto. unfold at_ in B2. destruct (nth_error g p) as [pn|] eqn:X; [|discriminate].
    exists pn. split; auto. apply existsb_exists in B2. destruct B2 as (x & X1 & X2). apply Nat.eqb_eq in X2. now subst.
  - intros H KK. pose proof (N i n H) as B. unfold near_b in B. rewrite !andb_true_iff, KK in B. destruct B as (_ & B). rewrite !andb_true_iff in B. destruct B as ((B1 & B2) & B3).
    repeat split; [|now apply Nat.leb_le|now apply negb_true_iff]. intros p P. rewrite P in B1. now apply kind_b_ok.
  - intros H KK. split; [|eauto]. pose proof (N i n H) as B. unfold near_b in B. rewrite !andb_true_iff, KK in B. destruct B as (_ & B). destruct (g_ty n); [discriminate|auto].
  - intros H KK. pose proof (N i n H) as B. unfold near_b in B. rewrite !andb_true_iff, KK in B. destruct B as (_ & B). now apply args_then_ok.
  - intros H KK. pose proof (N i n H) as B. unfold near_b in B. rewrite !andb_true_iff, KK in B. destruct B as (_ & B). apply andb_true_iff in B. destruct B as (B1 & B2).
    split; [destruct (g_ty n); [discriminate|auto]|]. split; [apply (CA i n H KK)|]. intros c C. rewrite forallb_forall in B2. apply B2 in C. unfold at_ in C.
    destruct (nth_error g c) as [cn|] eqn:X; [|discriminate]. rewrite !andb_true_iff in C. destruct C as ((C1 & C2) & C3). apply is_kind_iff in C1.
    apply negb_true_iff in C2. apply Nat.eqb_eq in C3. destruct (g_children cn) as [|x [|? ?]] eqn:Y; try discriminate. exists cn, x. auto.
  - intros sigs ps H KK C NEM P. eapply (proj2 (CA i n H KK)); eauto.
Qed.

(** [fn f(a: sec[f64]) -> bool { x := a < 2  return x }] *)
Definition stale : graph :=
  [ named (nd K_Fn None [1; 2] (Some TBool)) "f" None;
    named (nd K_Arg (Some 0) [] (Some (TSecret TF64))) "a" None;
    nd K_Block (Some 0) [3; 13] None;
    nd K_Expr (Some 2) [4] None;
    set_op (nd K_Assign (Some 3) [5; 7] None) OpAssign;
    nd K_Left (Some 4) [6] None; use_ "x" 5 None;
    nd K_Right (Some 4) [8] None;
    named (nd K_Call (Some 7) [9; 11] None) "less" None;
    nd K_CallArg (Some 8) [10] None; use_ "a" 9 (Some 1);
    nd K_CallArg (Some 8) [12] None; nd K_Expr (Some 11) [] (Some TF64);
    nd K_Expr (Some 2) [14] None; nd K_Return (Some 13) [15] None; use_ "x" 14 (Some 6) ].

(** Signatures of the operators fit a declaration with parameters of any type. *)
Definition solid (p : ty) : Prop := In p [TF64; TStr; TBool; TVec4; TMat4] \/ exists q, p = TSecret q /\ In q [TF64; TStr; TBool; TVec4; TMat4].
Lemma solid_left : forall q t, In q [TF64; TStr; TBool; TVec4; TMat4] -> goes_with t q = true -> goes_with t TAny = true.
Proof.
  intros q t Q. induction t as [| | | | | | | | | |a IH|a IH|a IH|a IH|a IH|a IH|n a IH|l a HL IH] using ty_ind'; intros H; auto.
  all: try (simpl in Q; decompose [or] Q; subst; try discriminate H; try contradiction; fail).
  all: rewrite gw_adhoc_l in *; auto; try (intros (? & X)); try discriminate; simpl in Q; decompose [or] Q; subst; try reflexivity; try discriminate; contradiction.
Qed.
Lemma solid_any : forall p a, solid p -> goes_with p a = true -> goes_with TAny a = true.
Proof.
  assert (forall q a, In q [TF64; TStr; TBool; TVec4; TMat4] -> goes_with q a = true -> goes_with TAny a = true) as B.
  { intros q a Q. induction a as [| | | | | | | | | |a IH|a IH|a IH|a IH|a IH|a IH|n a IH|l a HL IH] using ty_ind'; intros H; auto.
    - simpl in Q; decompose [or] Q; subst; try discriminate H; contradiction.
    - rewrite goes_with_eq in H |- *. unfold gw_body in *. simpl in *. apply IH. decompose [or] Q; subst; try exact H; contradiction.
    - assert (is_adhoc q = false /\ ~ secret q /\ q <> TVoid /\ q <> TUnreachable) as (A1 & A2 & A3 & A4).
      { simpl in Q; decompose [or] Q; subst; try contradiction; repeat split; try discriminate; intros (? & X); discriminate. }
      rewrite gw_adhoc_r, gw_adhoc_l in H by auto. rewrite gw_adhoc_r, gw_adhoc_l; try discriminate; auto; [|intros (? & X); discriminate].
      eapply solid_left; eauto. }
  intros p a [Q|(q & -> & Q)] H; [eapply B; eauto|].
  destruct a; auto; try discriminate H.
  - rewrite goes_with_eq in H |- *. unfold gw_body in *. simpl in *. eapply B; eauto.
  - rewrite goes_with_eq in H. unfold gw_body in H. simpl in H. rewrite goes_with_eq in H. unfold gw_body in H. simpl in H.
    rewrite gw_adhoc_r, gw_adhoc_l; try discriminate; auto; [|intros (? & X); discriminate]. 
    assert (is_adhoc q = false /\ ~ secret q /\ q <> TVoid /\ q <> TUnreachable) as (A1 & A2 & A3 & A4).
    { simpl in Q; decompose [or] Q; subst; try contradiction; repeat split; try discriminate; intros (? & X); discriminate. }
    eapply (solid_left q); auto. rewrite <- H. symmetry. apply gw_adhoc_l; auto.
Qed.
Lemma fit_any : forall n sigs, (forall s, In s sigs -> svars s = [] /\ n <= length (sargs s) /\ forall p, In p (sargs s) -> solid p) ->
  fitting sigs (repeat TAny n).
Proof.
  intros n sigs H ts t j a p R A P.
  assert (j < n /\ p = TAny) as [J ->].
  { assert (nth_error (repeat TAny n) j <> None) as X by congruence. apply nth_error_Some in X. rewrite repeat_length in X. split; auto.
    apply nth_error_In, repeat_spec in P. auto. }
  assert (exists s tv tv', In s sigs /\ match_args [] ts (sargs s) tv = TypeModel.AOk tv') as (s & tv & tv' & S & M).
  { assert (refine_loop sigs ts = RFound t) as L by (destruct sigs; [discriminate|exact R]). clear R. induction sigs as [|s sigs IH]; simpl in L; [discriminate|].
    destruct (H s (or_introl eq_refl)) as (V & _). rewrite V in L. cbn [length repeat] in L. destruct (match_args [] ts (sargs s) []) as [tv| | |] eqn:M; try discriminate.
    - exists s, [], tv. split; [now left|auto].
    - assert (forall s', In s' sigs -> svars s' = [] /\ n <= length (sargs s') /\ forall p, In p (sargs s') -> solid p) as H' by (intros s' X; apply H; now right).
      destruct (IH H' L) as (s' & tv & tv' & X & Y). exists s', tv, tv'. split; [now right|auto]. }
  destruct (H s S) as (_ & LE & SO). pose proof (proj1 (match_mono ts (sargs s) tv) (ex_intro _ tv' M)) as F. clear M R H S.
  assert (exists q, In q (sargs s) /\ goes_with q a = true) as (q & Q & G); [|eapply solid_any; eauto].
  clear SO P. revert n LE j J A F. generalize (sargs s) as ps. clear s tv tv'. induction ts as [|x ts IH]; intros [|q ps] n L j J A F; destruct j; simpl in *; try discriminate; try lia.
  - injection A as ->. inversion F as [|? ? (b & B1 & B2 & _) _]; subst. simpl in *. injection B1 as <-. eauto.
  - inversion F as [|? ? _ F']; subst. destruct n; [lia|]. destruct (IH ps n ltac:(lia) j ltac:(lia) A F') as (r & R1 & R2). eauto.
Qed.
Lemma less_fits : fitting [mkSig [] [TSecret TF64; TF64] (TSecret TBool); mkSig [] [TF64; TF64] TBool; mkSig [] [TStr; TStr] TBool] [TAny; TAny].
Proof.
  apply (fit_any 2). intros s S. simpl in S. decompose [or] S; try contradiction; subst; repeat split; auto; intros p P; simpl in P; decompose [or] P; try contradiction; subst;
    unfold solid; simpl; eauto 12.
Qed.
Lemma less_call : forall g n, g_decl n = None -> g_alias n = None -> g_name n = Some "less" -> length (g_children n) = 2 ->
  (forall c cn x, In c (g_children n) -> is_node g c cn -> In x (g_children cn) -> ~ kind_at g x K_Swizzle) ->
  (forall d, g_decl n = Some d -> exists f, is_node g d f /\ g_kind f = K_Fn /\
     forall c j, supplies g n c j -> exists a, nth_error (g_children f) j = Some a /\ kind_at g a K_Arg) /\
  (forall sigs ps, choices prelude_ g n sigs -> sigs <> [] -> params_are prelude_ g n ps -> fitting sigs ps /\ length (g_children n) <= length ps /\
    (forall c cn x, In c (g_children n) -> is_node g c cn -> In x (g_children cn) -> ~ kind_at g x K_Swizzle)).
Proof.
  intros g n D A N L W. split; [congruence|]. intros sigs ps [(d & f & X & _)|(f & (_ & y & Y & T) & ->)] _ [(d' & f' & X' & _)|(f' & (_ & y' & Y' & T') & ->)]; try congruence.
  rewrite A in *. rewrite N in Y, Y'. injection Y as <-. injection Y' as <-. injection T as <-. injection T' as <-. rewrite L. simpl. repeat split; auto using less_fits.
Qed.
Ltac no_swizzle := let C := fresh in let N := fresh in let X := fresh in let Y := fresh in
  intros c cn x C N X (xn & Y & ?); simpl in C; decompose [or] C; try contradiction; subst; injection N as <-; simpl in X; decompose [or] X; try contradiction; subst;
  injection Y as <-; discriminate.
Lemma sample_wf : well_formed prelude_ (sample TBool).
Proof.
  apply near_wf; [reflexivity| |].
  - intros i n d N KK D. unfold is_node in N.
    assert (d = 1 \/ d = 6 /\ 6 < i) as [-> |[-> LT]].
    { do 30 (destruct i as [|i]; [injection N as <-; try discriminate; injection D as <-; lia|]). destruct i; discriminate. }
    + left; exists K_Arg; split; [eexists; split; reflexivity|]; unfold binder; simpl; tauto.
    + right; split; auto; exists 4, 5; do 3 eexists; repeat split; exists [], [7]; repeat split; [eexists; split; reflexivity|intros ? []].
  - intros i n N KK. unfold is_node in N.
    do 30 (destruct i as [|i]; [injection N as <-; try discriminate KK; apply less_call; auto; no_swizzle|]). destruct i; discriminate.
Qed.
Lemma stale_wf : well_formed prelude_ stale.
Proof.
  apply near_wf; [reflexivity| |].
  - intros i n d N KK D. unfold is_node in N.
    assert (d = 1 \/ d = 6 /\ 6 < i) as [-> |[-> LT]].
    { do 16 (destruct i as [|i]; [injection N as <-; try discriminate; injection D as <-; lia|]). destruct i; discriminate. }
    + left; exists K_Arg; split; [eexists; split; reflexivity|]; unfold binder; simpl; tauto.
    + right; split; auto; exists 4, 5; do 3 eexists; repeat split; exists [], [7]; repeat split; [eexists; split; reflexivity|intros ? []].
  - intros i n N KK. unfold is_node in N.
    do 16 (destruct i as [|i]; [injection N as <-; try discriminate KK; apply less_call; auto; no_swizzle|]). destruct i; discriminate.
Qed.

(** The sample is well formed; the rules give types to the comparison, the condition and the declared variable. *)
Example C51_example : exists g', typecheck prelude_ 20 100 (sample TBool) = TOk g' /\ well_formed prelude_ (sample TBool) /\
  derives prelude_ g' 18 TBool /\ derives prelude_ g' 17 TBool /\ derives prelude_ g' 6 TF64 /\
  declares (sample TBool) 4 5 6 /\ ty_at g' 7 = Some TF64 /\ supplies (sample TBool) (nth 18 (sample TBool) (nd K_Fn None [] None)) 21 1.
Proof.
  eexists. split; [vm_compute; reflexivity|]. split; [apply sample_wf|]. repeat split.
  - eapply (D_chosen _ _ 18 _ _ [Some TF64; Some TF64]); try reflexivity.
    + right. eexists. split; [|reflexivity]. split; auto. eexists. split; reflexivity.
    + discriminate.
    + repeat constructor; do 2 eexists; repeat split; reflexivity.
    + vm_compute. reflexivity.
  - match goal with |- derives _ ?g _ _ => change TBool with (behind (nth 17 g (nd K_Fn None [] None)) TBool) end.
    eapply (D_pass _ _ 17 _ 18 _ TBool); try reflexivity; [unfold passing; simpl; tauto|intros [X _]; discriminate|discriminate].
  - eapply (D_declared _ _ 6 _ 5); try reflexivity. eexists. split; reflexivity.
  - do 3 eexists; repeat split; exists [], [7]; repeat split; [eexists; split; reflexivity|intros ? []].
  - exists [19], [], [1], 1. repeat split; auto.
    + repeat constructor. do 2 eexists. repeat split. right. split; auto. intros (x & X & Y). injection X as <-. discriminate.
    + do 2 eexists. repeat split. right. split; auto. intros (x & X & Y). injection X as <-. discriminate.
Qed.

(** The condition of the sample is a node as in [C51_exact]. *)
Example C51_exact_example : exists g' n, typecheck prelude_ 20 100 (sample TBool) = TOk g' /\ is_node g' 17 n /\ ruled n /\ ~ choosing prelude_ g' 17 /\
  ty_at (sample TBool) 17 = None /\ ty_at g' 17 = Some TBool.
Proof.
  do 2 eexists. split; [vm_compute; reflexivity|]. split; [reflexivity|]. repeat split.
  - left. split; [unfold passing; simpl; tauto|discriminate].
  - intros (m & l & M & X & _). injection M as <-. discriminate.
Qed.

(** A finding: a declared variable may keep a type that the right side no longer has. In
    [x := a < 2] with a secret [a], the comparison first gets the type [bool] that [less] declares, the variable takes it,
    and when the comparison turns out to be [sec[bool]] the assignment is silently left undone. *)
Theorem C51_declaration_refuted : exists g', well_formed prelude_ stale /\ typecheck prelude_ 20 100 stale = TOk g' /\
  declares stale 4 5 6 /\ first_of stale (nth 4 stale (nd K_Fn None [] None)) K_Right 7 /\
  ty_at g' 7 = Some (TSecret TBool) /\ ty_at g' 6 = Some TBool.
Proof.
  eexists. split; [apply stale_wf|]. split; [vm_compute; reflexivity|]. repeat split.
  - do 3 eexists; repeat split; exists [], [7]; repeat split; [eexists; split; reflexivity|intros ? []].
  - exists [5], []. repeat split; [eexists; split; reflexivity|]. intros d [<- |[]] (x & X & Y). injection X as <-. discriminate.
Qed.
Print Assumptions C51_declaration_refuted.
