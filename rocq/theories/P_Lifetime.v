(** * C29, C30, C31, C32: lifetimes. *)
From Coq Require Import String List Bool Arith Lia.
From Verif Require Import Syntax LifetimeModel LifetimeSpec LifetimeProofs.
Import ListNotations.
Local Open Scope string_scope.
Local Open Scope nat_scope.
Local Open Scope list_scope.

(** ** C29: the order *)

Theorem C29_converse : forall a b, outlives a b <-> partial_cmp b a = Some Lt.
Proof. intros a b. unfold outlives. rewrite (cmp_sym a b). destruct (partial_cmp a b) as [[]|]; cbn; split; congruence. Qed.
Print Assumptions C29_converse.
Theorem C29_strict : forall a b, ~ (outlives a b /\ outlives b a) /\ ~ outlives a a.
Proof.
  intros a b. split.
  - intros [H1 H2]. apply C29_converse in H1. unfold outlives in H2. congruence.
  - intros H. pose proof H as H2. apply C29_converse in H. unfold outlives in H2. congruence.
Qed.
Print Assumptions C29_strict.

(** The names an accepted module has are those of its functions. *)
Lemma check_proper : forall fuel nodes fs m, NoDup fs -> all_sigs nodes fs -> check_args fuel nodes fs = AOk m -> proper nodes m.
Proof.
  intros fuel nodes fs m ND HA H. unfold check_args in H. destruct (dup_fns_ok nodes fs HA) as [[E G]|[(i & E) _]]; rewrite E in H; cbn [then_] in H; [|discriminate].
  destruct (arg_fns_sound nodes fuel fs [] m ND HA G (fun _ _ _ => eq_refl) H) as [S1 S2].
  intros f x c j A. destruct (in_dec Nat.eq_dec f fs) as [I|NI].
  - destruct (HA f I) as (args & s & FS). destruct (S1 f args s I FS) as (K & _). apply K in A. destruct A as (Na & _).
    destruct FS as (fn & N & Ar & HS). destruct (arg_node nodes f args s HS _ _ Na) as (y & l & n & _ & Nn & _ & _ & P). eauto.
  - rewrite (S2 f x NI) in A. discriminate.
Qed.
(** Outliving is transitive among the lifetimes the checker gives to variables. *)
Theorem C29_transitive : forall fuel nodes fs m a b c, NoDup fs -> all_sigs nodes fs -> check_args fuel nodes fs = AOk m ->
  lifetime_of nodes m a -> lifetime_of nodes m b -> lifetime_of nodes m c ->
  outlives a b -> outlives b c -> outlives a c.
Proof.
  intros fuel nodes fs m a b c ND HA H Ka Kb Kc H1 H2. unfold outlives in *.
  rewrite (cmp_trans nodes m (check_proper _ _ _ _ ND HA H) a b c Gt Gt); auto; discriminate.
Qed.
Print Assumptions C29_transitive.
(** A local outlives exactly the later ones; nothing but a local is outlived by a local. *)
Theorem C29_locals : forall i j, outlives (Local i) (Local j) <-> i < j.
Proof. intros i j. unfold outlives. cbn. split; [intros H; inversion H; apply Nat.compare_gt_iff; auto|intros H; f_equal; apply Nat.compare_gt_iff; auto]. Qed.
Print Assumptions C29_locals.
Theorem C29_above_locals : forall l i, (forall j, l <> Local j) -> outlives l (Local i) /\ ~ outlives (Local i) l.
Proof. intros [x|x|x|x] i H; try (exfalso; eapply H; reflexivity); unfold outlives; cbn; split; congruence. Qed.
Print Assumptions C29_above_locals.

Lemma declared_chain : forall nodes f args s m, has_sig nodes f args s -> NoDup (map fst s) -> knows f args s m ->
  forall j k, declared_plus s j k -> forall cj ck, nth_error args j = Some cj -> nth_error args k = Some ck ->
  forall b l, chain nodes m b (cj :: l) -> exists pre post, l = pre ++ ck :: post /\ chain nodes m b (ck :: post).
Proof.
  intros nodes f args s m HS ND KN. assert (forall j k, declared s j k -> forall cj ck, nth_error args j = Some cj -> nth_error args k = Some ck ->
     forall b l, chain nodes m b (cj :: l) -> exists post, l = ck :: post /\ chain nodes m b (ck :: post)) as One.
  { intros j k (x & l & y & A & B & C) cj ck Nj Nk b l' Ch. destruct (arg_node nodes f args s HS _ _ Nj) as (x' & l2 & n & Ns & Nn & _ & L & P).
    rewrite A in Ns. inversion Ns; subst.
    inversion Ch as [c n' N' L'|c n' N' L'|b0 c n' l0 p c' jj rest N' L' D' P' G' C']; subst; rewrite Nn in N'; inversion N'; subst.
    - congruence.
    - congruence.
    - assert (l0 = l) by congruence. assert (p = f) by congruence. subst. exists rest.
      assert (arg_get m f l = Some (ck, k)) as G2 by (apply KN; eauto). rewrite G' in G2. inversion G2; subst. auto. }
  induction 1 as [j k D|i j k D P IH]; intros ci ck Ni Nk b l Ch.
  - destruct (One _ _ D _ _ Ni Nk _ _ Ch) as (post & -> & C2). exists [], post. auto.
  - assert (exists cj, nth_error args j = Some cj) as (cj & Nj).
    { destruct D as (x & lx & y & _ & _ & C). destruct (sig_node nodes f args s HS _ _ _ C) as (c & n & Nc & _). eauto. }
    destruct (One _ _ D _ _ Ni Nj _ _ Ch) as (post & -> & C2). destruct (IH _ _ Nj Nk _ _ C2) as (pre & post2 & -> & C3).
    exists (cj :: pre), post2. auto.
Qed.
(** What the signature declares, the comparison finds. *)
Theorem C29_declared : forall fuel nodes fs m f args s j k cj ck nj nk lj lk fj fk, NoDup fs -> all_sigs nodes fs -> check_args fuel nodes fs = AOk m ->
  In f fs -> fn_sig nodes f args s -> nth_error args j = Some cj -> nth_error args k = Some ck ->
  nth_error nodes cj = Some nj -> nth_error nodes ck = Some nk ->
  arg_lifetime fj cj nj nodes m = LOk lj -> arg_lifetime fk ck nk nodes m = LOk lk ->
  declared_plus s j k -> outlives lj lk.
Proof.
  intros fuel nodes fs m f args s j k cj ck nj nk lj lk fj fk ND HA H I FS Nj Nk Nnj Nnk Aj Ak DP.
  pose proof (check_proper _ _ _ _ ND HA H) as PR. unfold check_args in H.
  destruct (dup_fns_ok nodes fs HA) as [[E G]|[(i & E) _]]; rewrite E in H; cbn [then_] in H; [|discriminate].
  destruct (arg_fns_sound nodes fuel fs [] m ND HA G (fun _ _ _ => eq_refl) H) as [S1 S2]. destruct (S1 f args s I FS) as (K & _).
  pose proof (G f args s I FS) as NDs. destruct FS as (fn & N & Ar & HS).
  destruct (arg_lifetime_chain nodes m PR _ _ _ _ Nnj Aj) as (bj & cj' & Cj & Hj & ->). destruct cj' as [|c1 rj]; inversion Hj; subst c1.
  destruct (arg_lifetime_chain nodes m PR _ _ _ _ Nnk Ak) as (bk & ck' & Ck & Hk & ->). destruct ck' as [|c1 rk]; inversion Hk; subst c1.
  destruct (declared_chain nodes f args s m HS NDs K j k DP cj ck Nj Nk bj rj Cj) as (pre & post & -> & Cp).
  destruct (chain_det _ _ _ _ Cp _ _ Ck eq_refl) as [-> EQ]. inversion EQ; subst post.
  assert (compare_argument_outlives (cj :: pre ++ ck :: rk) (ck :: rk) = Some Gt) as CG.
  { rewrite cao_some by (exists ck; split; [right; apply in_or_app; right; left; auto|left; auto]). f_equal. apply Nat.compare_gt_iff. cbn. rewrite app_length. cbn. lia. }
  unfold outlives. destruct bk; exact CG.
Qed.
Print Assumptions C29_declared.

(** Over arbitrary lists of arguments it would not be transitive; no signature gives these. *)
Theorem C29_lists_refuted : exists a b c, outlives a b /\ outlives b c /\ ~ outlives a c.
Proof. exists (Argument [1; 2; 3]), (Argument [3; 4]), (Argument [4]). unfold outlives. cbn. repeat split; congruence. Qed.

(** fn f(x: 'z, y: 'w, w: 'z, z): node 0 is the function. *)
Definition arg_ (f : nat) (x : string) (l : option string) : node := Node K_Arg [x] l (Some f) [] None [] None.
Definition fn_ (args : list nat) : node := Node K_Fn ["f"] None None args None [] None.
Definition wide : list node :=
  [fn_ [1; 2; 3; 4]; arg_ 0 "x" (Some "z"); arg_ 0 "y" (Some "w"); arg_ 0 "w" (Some "z"); arg_ 0 "z" None].
Definition wide_sig : sig := [("x", Some "z"); ("y", Some "w"); ("w", Some "z"); ("z", None)].
Lemma wide_has : fn_sig wide 0 [1; 2; 3; 4] wide_sig.
Proof. eexists. split; [reflexivity|]. split; [reflexivity|]. repeat constructor; eexists; repeat split; reflexivity. Qed.
Example C29_example : exists m, check_args 5 wide [0] = AOk m /\
  arg_lifetime 5 2 (arg_ 0 "y" (Some "w")) wide m = LOk (Argument [2; 3; 4]) /\
  arg_lifetime 5 3 (arg_ 0 "w" (Some "z")) wide m = LOk (Argument [3; 4]) /\ outlives (Argument [2; 3; 4]) (Argument [3; 4]).
Proof. eexists. split; [reflexivity|]. repeat split. Qed.
(** The verdict goes by the length of the declared chain: [y] is said to outlive [x], which no
    declaration says; so [x = y] is accepted. *)
Theorem C29_length_refuted : exists nodes fs m s f args, check_args 5 nodes fs = AOk m /\ fn_sig nodes f args s /\
  exists j k cj ck nj nk lj lk, nth_error args j = Some cj /\ nth_error args k = Some ck /\ nth_error nodes cj = Some nj /\ nth_error nodes ck = Some nk /\
    arg_lifetime 5 cj nj nodes m = LOk lj /\ arg_lifetime 5 ck nk nodes m = LOk lk /\
    outlives lj lk /\ ~ declared_plus s j k /\ compare_lifetimes (LOk lk) (LOk lj) nodes = COk.
Proof.
  exists wide, [0]. eexists. exists wide_sig, 0, [1; 2; 3; 4]. split; [reflexivity|]. split; [apply wide_has|].
  exists 1, 0, 2, 1. do 4 eexists. do 6 (split; [reflexivity|]). split; [reflexivity|]. split; [|reflexivity].
  assert (forall j k, declared_plus wide_sig j k -> j = 1 \/ j = 2 -> k = 2 \/ k = 3) as H.
  { assert (forall j k, declared wide_sig j k -> j = 1 \/ j = 2 -> k = 2 \/ k = 3) as D.
    { intros j k (x & l & y & A & B & C) Hj. destruct Hj as [-> | ->]; cbn in A; inversion A; subst;
        destruct k as [|[|[|[|k]]]]; cbn in C; try (inversion C; auto; fail); destruct k; discriminate. }
    assert (forall k, declared wide_sig 3 k -> False) as D3 by (intros k (x & l & y & A & _); discriminate).
    induction 1 as [j k Dj|i j k Dj P IH]; intros Hj; [eauto|]. destruct (D _ _ Dj Hj) as [-> | ->]; [apply IH; auto|].
    exfalso. inversion P; subst; eapply D3; eauto. }
  intros DP. destruct (H _ _ DP); auto; discriminate.
Qed.

(** ** C30: cyclic signatures *)

(** With fuel for the longest signature the checks give an answer, and they accept exactly the
    modules whose argument names are unique, whose lifetimes name arguments, and where no argument
    before the first ['return] leads into a cycle. *)
Theorem C30_exact : forall fuel nodes fs, NoDup fs -> all_sigs nodes fs -> (forall f args s, In f fs -> fn_sig nodes f args s -> length args < fuel) ->
  ((exists m, check_args fuel nodes fs = AOk m) \/ exists e, check_args fuel nodes fs = AErr e) /\
  ((exists m, check_args fuel nodes fs = AOk m) <->
   forall f args s, In f fs -> fn_sig nodes f args s -> good_names s /\ good_lifetimes s /\ forall i, before_return s i -> ~ reaches_cycle s i).
Proof.
  intros fuel nodes fs ND HA HF. unfold check_args. destruct (dup_fns_ok nodes fs HA) as [[E G]|[(i & E) (f & args & s & I & FS & NG)]]; rewrite E; cbn [then_].
  - destruct (arg_fns_decides nodes fuel fs [] ND HA G (fun _ _ _ => eq_refl) HF) as [[(m & E2) G2]|[(e & E2) (f & args & s & I & FS & NG)]]; rewrite E2.
    + split; [eauto|]. split; eauto. intros _ f args s I FS. split; [eauto|]. apply (G2 f args s); auto.
    + split; [eauto|]. split; [intros (m & H); discriminate|]. intros H. exfalso. apply NG. apply (H f args s); auto.
  - split; [eauto|]. split; [intros (m & H); discriminate|]. intros H. exfalso. apply NG. apply (H f args s); auto.
Qed.
Print Assumptions C30_exact.
(** In an accepted module the lifetime of an argument before the first ['return] is found, within
    the fuel of the check. *)
Theorem C30_terminates_partial : forall fuel nodes fs m f args s i c n, NoDup fs -> all_sigs nodes fs -> check_args fuel nodes fs = AOk m ->
  In f fs -> fn_sig nodes f args s -> nth_error args i = Some c -> nth_error nodes c = Some n ->
  (forall k x, k < i -> nth_error s k <> Some (x, Some "return")) ->
  exists l, arg_lifetime fuel c n nodes m = LOk l.
Proof.
  intros fuel nodes fs m f args s i c n ND HA H I FS Na Nn BR. unfold check_args in H.
  destruct (dup_fns_ok nodes fs HA) as [[E G]|[(j & E) _]]; rewrite E in H; cbn [then_] in H; [|discriminate].
  destruct (arg_fns_sound nodes fuel fs [] m ND HA G (fun _ _ _ => eq_refl) H) as [S1 S2]. destruct (S1 f args s I FS) as (K & GL & S3).
  destruct FS as (fn & N & Ar & HS). destruct (arg_node nodes f args s HS _ _ Na) as (x & l & n' & Ns & Nn' & _ & L & P).
  rewrite Nn in Nn'. inversion Nn'; subst n'. 
  destruct l as [l|]; [|unfold arg_lifetime; rewrite L; eauto]. destruct (String.eqb_spec l "return") as [->|NR]; [unfold arg_lifetime; rewrite L; cbn; eauto|].
  apply (S3 i c n); auto. intros k y Lk E2. destruct (Nat.eq_dec k i) as [->|D]; [rewrite Ns in E2; inversion E2; congruence|]. apply (BR k y); auto; lia.
Qed.
Print Assumptions C30_terminates_partial.
(** A cycle before the first ['return] is rejected, whatever the fuel. *)
Theorem C30_rejects_partial : forall fuel nodes fs f args s i, NoDup fs -> all_sigs nodes fs -> In f fs -> fn_sig nodes f args s ->
  reaches_cycle s i -> (forall k x, k <= i -> nth_error s k <> Some (x, Some "return")) -> forall m, check_args fuel nodes fs <> AOk m.
Proof.
  intros fuel nodes fs f args s i ND HA I FS R BR m H. unfold check_args in H.
  destruct (dup_fns_ok nodes fs HA) as [[E G]|[(j & E) _]]; rewrite E in H; cbn [then_] in H; [|discriminate].
  destruct (arg_fns_sound nodes fuel fs [] m ND HA G (fun _ _ _ => eq_refl) H) as [S1 S2]. destruct (S1 f args s I FS) as (K & GL & S3).
  destruct FS as (fn & N & Ar & HS). destruct (reaches_next s i R) as (k & (x & l & y & A & _) & _).
  destruct (sig_node nodes f args s HS _ _ _ A) as (c & n & Na & Nn & _). destruct (S3 i c n BR Na Nn) as [NR _]. auto.
Qed.
Print Assumptions C30_rejects_partial.
(** Any cycle that is accepted makes the search for the lifetime endless. *)
Theorem C30_endless : forall fuel nodes fs m f args s i c n, NoDup fs -> all_sigs nodes fs -> check_args fuel nodes fs = AOk m ->
  In f fs -> fn_sig nodes f args s -> nth_error args i = Some c -> nth_error nodes c = Some n ->
  reaches_cycle s i -> forall fuel', arg_lifetime fuel' c n nodes m = LOof.
Proof.
  intros fuel nodes fs m f args s i c n ND HA H I FS Na Nn R fuel'. unfold check_args in H.
  destruct (dup_fns_ok nodes fs HA) as [[E G]|[(j & E) _]]; rewrite E in H; cbn [then_] in H; [|discriminate].
  destruct (arg_fns_sound nodes fuel fs [] m ND HA G (fun _ _ _ => eq_refl) H) as [S1 S2]. destruct (S1 f args s I FS) as (K & GL & S3).
  pose proof (G f args s I FS) as NDs. destruct FS as (fn & N & Ar & HS). destruct (reaches_next s i R) as (k & (x & l & y & A & B & C) & RK).
  destruct (arg_node nodes f args s HS _ _ Na) as (x' & l' & n' & Ns & Nn' & _ & L & P). rewrite Nn in Nn'. inversion Nn'; subst n'.
  rewrite A in Ns. inversion Ns as [[Ex El]]. unfold arg_lifetime. rewrite L, P, <- El. destruct (String.eqb_spec l "return"); [congruence|].
  destruct (sig_node nodes f args s HS _ _ _ C) as (ck & nk & Nk & _). eapply (arg_loop_forever nodes f args s m HS K); [apply K; eauto|auto].
Qed.
Print Assumptions C30_endless.
(** fn f(a: 'return, b: 'c, c: 'b): accepted, because ['return] ends the check; the lifetime of [b]
    is never found. *)
Definition loop_ : list node := [fn_ [1; 2; 3]; arg_ 0 "a" (Some "return"); arg_ 0 "b" (Some "c"); arg_ 0 "c" (Some "b")].
Definition loop_sig : sig := [("a", Some "return"); ("b", Some "c"); ("c", Some "b")].
Lemma loop_has : fn_sig loop_ 0 [1; 2; 3] loop_sig.
Proof. eexists. split; [reflexivity|]. split; [reflexivity|]. repeat constructor; eexists; repeat split; reflexivity. Qed.
Theorem C30_return_refuted : exists m, check_args 10 loop_ [0] = AOk m /\ forall fuel, arg_lifetime fuel 2 (arg_ 0 "b" (Some "c")) loop_ m = LOof.
Proof.
  eexists. split; [reflexivity|]. apply (C30_endless 10 loop_ [0] _ 0 [1; 2; 3] loop_sig 1).
  - repeat constructor. intros [].
  - intros f [<-|[]]. exists [1; 2; 3], loop_sig. apply loop_has.
  - reflexivity.
  - left. auto.
  - apply loop_has.
  - reflexivity.
  - reflexivity.
  - left. apply dp_more with 2; [|constructor].
    + exists "b", "c", (Some "b"). repeat split; discriminate || auto.
    + exists "c", "b", (Some "c"). repeat split; discriminate || auto.
Qed.
Print Assumptions C30_return_refuted.
(** Without the first argument it is rejected. *)
Example C30_example : check_args 10 [fn_ [1; 2]; arg_ 0 "b" (Some "c"); arg_ 0 "c" (Some "b")] [0] = AErr (ACyclic 2) /\
  (exists m, check_args 10 wide [0] = AOk m).
Proof. split; [reflexivity|eexists; reflexivity]. Qed.

(** ** C31: composite values *)

(** Accepting means that the right side outlives the left side. *)
Theorem C31_accepts : forall l r nodes, compare_lifetimes (LOk l) (LOk r) nodes = COk <-> outlives r l.
Proof.
  intros l r nodes. rewrite C29_converse. unfold compare_lifetimes. 
  assert (forall i e, named nodes i (CErr e) <> COk) as NN. { intros i e. unfold named. destruct (nth_error nodes i) as [n|]; [destruct (n_name n)|]; discriminate. }
  destruct (partial_cmp l r) as [[]|] eqn:E.
  - assert (match l with Local _ => True | _ => True end) as _ by (destruct l; auto).
    split; [|congruence]. destruct l as [x|x|x|x], r as [[|y ys]|[|y ys]|y|y]; intros H; try discriminate; exfalso; eapply NN; eauto.
  - split; auto. destruct l, r; auto.
  - split; [|congruence]. destruct l as [x|x|x|x], r as [[|y ys]|[|y ys]|y|y]; intros H; try discriminate; exfalso; eapply NN; eauto.
  - split; [|congruence]. intros H. exfalso.
    assert (forall i j e, named nodes i (named nodes j (CErr e)) <> COk) as N2. { intros i j e. unfold named at 1. destruct (nth_error nodes i) as [n|]; [destruct (n_name n)|]; try discriminate. apply NN. }
    assert (forall i j k e, named nodes i (named nodes j (named nodes k (CErr e))) <> COk) as N3. { intros i j k e. unfold named at 1. destruct (nth_error nodes i) as [n|]; [destruct (n_name n)|]; try discriminate. apply N2. }
    destruct l as [[|x xs]|[|x xs]|x|x], r as [[|y ys]|[|y ys]|y|y]; try discriminate; try (eapply NN; eauto; fail); try (eapply N2; eauto; fail);
      destruct (nth_error nodes y) as [rn|]; try discriminate; destruct (n_parent rn); try discriminate; eapply N3; eauto.
Qed.
Print Assumptions C31_accepts.

Section Composite.
Variable nodes : list node.
Variable m : arg_names.
Hypothesis PR : proper nodes m.

Lemma children_of : forall fuel rec self cs k min l, (forall n l, rec n = LOk l -> lifetime_of nodes m l) ->
  (match min with Some a => lifetime_of nodes m a | None => True end) ->
  children_lifetime fuel rec nodes m self cs k min = LOk l -> lifetime_of nodes m l.
Proof.
  intros fuel rec self cs. induction cs as [|c cs IH]; intros k min l HR HM H; cbn [children_lifetime] in H.
  - destruct min; inversion H; subst; auto.
  - destruct (nth_error nodes c) as [cn|]; [|discriminate].
    assert (forall k', match rec cn with
        | LOk l => match join min l with None => LUnify | Some min => children_lifetime fuel rec nodes m self cs k' min end
        | LNone => children_lifetime fuel rec nodes m self cs k' min
        | r => r end = LOk l -> lifetime_of nodes m l) as Look.
    { intros k' HL. destruct (rec cn) as [l1| | | |] eqn:R; try discriminate; [|eapply IH; eauto].
      destruct (join min l1) as [min'|] eqn:J; [|discriminate]. destruct (join_geq nodes m PR min l1 min' HM (HR _ _ R) J) as (x & -> & Hx & _).
      eapply IH; [exact HR| |exact HL]. cbn. destruct Hx as [-> | ->]; [eapply HR; eauto|exact HM]. }
    destruct (child_counts (n_kind self) (n_kind cn)); try discriminate; [eapply Look; eauto|eapply IH; eauto|].
    destruct (call_arg_counts fuel nodes m self k) as [r|[|]] eqn:C; [|eapply Look; eauto|eapply IH; eauto].
    exfalso. subst r. clear -C. unfold call_arg_counts in C. destruct (n_decl self) as [d|]; [|discriminate].
    destruct (nth_error nodes d) as [f|]; [|discriminate]. destruct (nth_error (arg_children nodes f) k) as [a|]; [|discriminate].
    destruct (nth_error nodes a) as [n|]; [|discriminate]. destruct (arg_lifetime fuel a n nodes m) as [[]| | | |]; discriminate.
Qed.
Lemma node_lifetime_of : forall fuel n l, node_lifetime fuel nodes m n = LOk l -> lifetime_of nodes m l.
Proof.
  induction fuel as [|fuel IH]; intros n l H; cbn [node_lifetime] in H; [discriminate|].
  destruct (negb (has_lifetime n)); [discriminate|].
  assert (children_lifetime fuel (node_lifetime fuel nodes m) nodes m n (n_children n) 0 None = LOk l -> lifetime_of nodes m l) as C.
  { apply children_of; [exact IH|exact I]. }
  destruct (n_decl n) as [d|].
  - destruct (is_kind (n_kind n) K_Item); auto. destruct (nth_error nodes d) as [a|] eqn:N; [|discriminate].
    destruct (is_kind (n_kind a) K_Arg); [eapply lo_arg; eauto|]. destruct (is_kind (n_kind a) K_Current); inversion H; constructor.
  - destruct (is_kind (n_kind n) K_Call && negb (length (n_lts n) =? 0)).
    + destruct (returns_static fuel (n_lts n) (n_lts n)) as [[[|]|]|]; try discriminate. auto.
    + destruct (is_kind (n_kind n) K_Item && match n_name n with Some x => (x =? "return")%string | None => false end); auto. inversion H. constructor.
Qed.
Lemma children_geq : forall fuel rec self cs k min l, (forall n l, rec n = LOk l -> lifetime_of nodes m l) ->
  (match min with Some a => lifetime_of nodes m a | None => True end) ->
  children_lifetime fuel rec nodes m self cs k min = LOk l ->
  (match min with Some a => geq l a | None => True end) /\
  (forall c cn, In c cs -> nth_error nodes c = Some cn -> child_counts (n_kind self) (n_kind cn) = CTake ->
     rec cn = LNone \/ exists lc, rec cn = LOk lc /\ geq l lc) /\
  (min = Some l \/ exists c cn, In c cs /\ nth_error nodes c = Some cn /\ rec cn = LOk l).
Proof.
  intros fuel rec self cs. induction cs as [|c cs IH]; intros k min l HR HM H; cbn [children_lifetime] in H.
  - destruct min as [a|]; inversion H; subst. split; [apply (geq_refl nodes m PR); auto|]. split; [intros c cn []|auto].
  - destruct (nth_error nodes c) as [cn|] eqn:N; [|discriminate].
    assert (forall k', match rec cn with
        | LOk l => match join min l with None => LUnify | Some min => children_lifetime fuel rec nodes m self cs k' min end
        | LNone => children_lifetime fuel rec nodes m self cs k' min
        | r => r end = LOk l ->
       (match min with Some a => geq l a | None => True end) /\
       (forall c' cn', In c' (c :: cs) -> nth_error nodes c' = Some cn' -> child_counts (n_kind self) (n_kind cn') = CTake ->
          rec cn' = LNone \/ exists lc, rec cn' = LOk lc /\ geq l lc) /\
       (min = Some l \/ exists c' cn', In c' (c :: cs) /\ nth_error nodes c' = Some cn' /\ rec cn' = LOk l)) as Look.
    { intros k' HL. destruct (rec cn) as [l1| | | |] eqn:R; try discriminate.
      - destruct (join min l1) as [min'|] eqn:J; [|discriminate]. destruct (join_geq nodes m PR min l1 min' HM (HR _ _ R) J) as (x & -> & Hx & G1 & G2).
        assert (lifetime_of nodes m x) as Kx by (destruct Hx as [-> | ->]; [eapply HR; eauto|exact HM]).
        pose proof (children_of _ _ _ _ _ (Some x) _ HR Kx HL) as Kl.
        destruct (IH _ (Some x) _ HR Kx HL) as (A & B & D). split; [|split].
        + destruct min as [a|]; auto. eapply (geq_trans nodes m PR); [exact Kl|exact Kx|exact HM|exact A|exact G2].
        + intros c' cn' [<-|I] N' CT; [|eapply B; eauto]. rewrite N in N'. inversion N'; subst cn'. right. exists l1. split; auto.
          eapply (geq_trans nodes m PR); [exact Kl|exact Kx|eapply HR; eauto|exact A|exact G1].
        + destruct D as [D|(c' & cn' & I & N' & D)]; [|right; exists c', cn'; split; [right; auto|auto]].
          inversion D; subst x. destruct Hx as [-> | ->]; auto. right. exists c, cn. split; [left; auto|auto].
      - destruct (IH _ _ _ HR HM HL) as (A & B & D). split; auto. split.
        + intros c' cn' [<-|I] N' CT; [|eapply B; eauto]. rewrite N in N'. inversion N'; subst cn'. left. auto.
        + destruct D as [D|(c' & cn' & I & N' & D)]; auto. right. exists c', cn'. split; [right; auto|auto]. }
    assert (forall k', child_counts (n_kind self) (n_kind cn) <> CTake -> children_lifetime fuel rec nodes m self cs k' min = LOk l ->
       (match min with Some a => geq l a | None => True end) /\
       (forall c' cn', In c' (c :: cs) -> nth_error nodes c' = Some cn' -> child_counts (n_kind self) (n_kind cn') = CTake ->
          rec cn' = LNone \/ exists lc, rec cn' = LOk lc /\ geq l lc) /\
       (min = Some l \/ exists c' cn', In c' (c :: cs) /\ nth_error nodes c' = Some cn' /\ rec cn' = LOk l)) as Skip.
    { intros k' NT HL. destruct (IH _ _ _ HR HM HL) as (A & B & D). split; auto. split.
      - intros c' cn' [<-|I] N' CT; [|eapply B; eauto]. rewrite N in N'. inversion N'; subst cn'. congruence.
      - destruct D as [D|(c' & cn' & I & N' & D)]; auto. right. exists c', cn'. split; [right; auto|auto]. }
    destruct (child_counts (n_kind self) (n_kind cn)) eqn:CC; try discriminate; [eapply Look; eauto|eapply Skip; eauto; discriminate|].
    destruct (call_arg_counts fuel nodes m self k) as [r|[|]] eqn:C; [|eapply Look; eauto|eapply Skip; eauto; discriminate].
    exfalso. subst r. clear -C. unfold call_arg_counts in C. destruct (n_decl self) as [d|]; [|discriminate].
    destruct (nth_error nodes d) as [f|]; [|discriminate]. destruct (nth_error (arg_children nodes f) k) as [a|]; [|discriminate].
    destruct (nth_error nodes a) as [n|]; [|discriminate]. destruct (arg_lifetime fuel a n nodes m) as [[]| | | |]; discriminate.
Qed.
End Composite.

(** Every lifetime the checker computes for an expression is one of those [C29_transitive] is about,
    and so are the others it compares: [Local i] and [Return []]. *)
Theorem C29_reached : forall fuel nodes fs m fuel' n l, NoDup fs -> all_sigs nodes fs -> check_args fuel nodes fs = AOk m ->
  node_lifetime fuel' nodes m n = LOk l -> lifetime_of nodes m l.
Proof. intros fuel nodes fs m fuel' n l ND HA H E. eapply node_lifetime_of; eauto. eapply check_proper; eauto. Qed.
Print Assumptions C29_reached.

(** An array or object has the lifetime of one of its parts, and it is at least as long as that of
    every part with a lifetime: the checker takes the longest, where the property asks for the
    shortest. Missing in the whole: "not longer than any part"; [C31_array_refuted]. *)
Theorem C31_longest_partial : forall fuel fs nodes m fuel' self l, NoDup fs -> all_sigs nodes fs -> check_args fuel nodes fs = AOk m ->
  n_kind self = K_Array \/ n_kind self = K_Object -> n_decl self = None -> node_lifetime (S fuel') nodes m self = LOk l ->
  (exists c cn, In c (n_children self) /\ nth_error nodes c = Some cn /\ node_lifetime fuel' nodes m cn = LOk l) /\
  forall c cn, In c (n_children self) -> nth_error nodes c = Some cn -> n_kind cn = K_ArrayItem \/ n_kind cn = K_KeyValue ->
    node_lifetime fuel' nodes m cn = LNone \/
    exists lc, node_lifetime fuel' nodes m cn = LOk lc /\ (outlives l lc \/ partial_cmp l lc = Some Eq).
Proof.
  intros fuel fs nodes m fuel' self l ND HA H HK HD E. pose proof (check_proper _ _ _ _ ND HA H) as PR.
  cbn [node_lifetime] in E. rewrite HD in E.
  assert (has_lifetime self = true) as HL by (unfold has_lifetime; destruct HK as [-> | ->]; auto). rewrite HL in E. cbn [negb] in E.
  assert (is_kind (n_kind self) K_Call = false /\ is_kind (n_kind self) K_Item = false) as [E1 E2] by (destruct HK as [-> | ->]; auto).
  rewrite E1, E2 in E. cbn [andb] in E.
  destruct (children_geq nodes m PR fuel' (node_lifetime fuel' nodes m) self (n_children self) 0 None l (node_lifetime_of nodes m PR fuel') I E) as (_ & B & D).
  split.
  - destruct D as [D|D]; [discriminate|exact D].
  - intros c cn Ic N Kc. destruct (B c cn Ic N) as [L|(lc & L & G)]; auto; [destruct HK as [-> | ->], Kc as [-> | ->]; auto|]. right. exists lc. split; auto.
Qed.
Print Assumptions C31_longest_partial.
(** With one part, or parts of one lifetime, that is the right one. *)
Theorem C31_single_partial : forall fuel fs nodes m fuel' self l, NoDup fs -> all_sigs nodes fs -> check_args fuel nodes fs = AOk m ->
  n_kind self = K_Array \/ n_kind self = K_Object -> n_decl self = None -> node_lifetime (S fuel') nodes m self = LOk l ->
  (forall c1 n1 l1 c2 n2 l2, In c1 (n_children self) -> In c2 (n_children self) -> nth_error nodes c1 = Some n1 -> nth_error nodes c2 = Some n2 ->
     node_lifetime fuel' nodes m n1 = LOk l1 -> node_lifetime fuel' nodes m n2 = LOk l2 -> l1 = l2) ->
  forall c cn lc, In c (n_children self) -> nth_error nodes c = Some cn -> node_lifetime fuel' nodes m cn = LOk lc -> ~ outlives l lc.
Proof.
  intros fuel fs nodes m fuel' self l ND HA H HK HD E Same c cn lc Ic N Ec.
  destruct (C31_longest_partial _ _ _ _ _ _ _ ND HA H HK HD E) as [(c' & cn' & I' & N' & E') _].
  rewrite (Same _ _ _ _ _ _ I' Ic N' N E' Ec). apply C29_strict. exact lc.
Qed.
Print Assumptions C31_single_partial.

(** a := ..; x := ..; b := ..; x = [a, b]. Nodes 1, 2, 3 are the declared items. *)
Definition it_ (x : string) (d : option nat) : node := Node K_Item [x] None None [] d [] None.
Definition in_ (k : kind) (cs : list nat) : node := Node k [] None None cs None [] None.
Definition store_ : list node :=
  [in_ K_Fn []; it_ "a" None; it_ "x" None; it_ "b" None;
   Node K_Assign [] None None [5; 6] None [] (Some OpSet);
   in_ K_Left [7]; in_ K_Right [8]; it_ "x" (Some 2);
   in_ K_Array [9; 10]; in_ K_ArrayItem [11]; in_ K_ArrayItem [12]; it_ "a" (Some 1); it_ "b" (Some 3);
   Node K_Assign [] None None [5; 14] None [] (Some OpSet); in_ K_Right [15]; in_ K_Array [10]].
(** [x = [a, b]] is accepted although [b] does not outlive [x]; [x = [b]] is rejected for that. *)
Theorem C31_array_refuted :
  check_mutated 10 store_ [] 4 7 = Some COk /\
  check_mutated 10 store_ [] 13 7 = Some (CErr (CShort 3)) /\
  node_lifetime 10 store_ [] (in_ K_Array [9; 10]) = LOk (Local 1) /\
  node_lifetime 10 store_ [] (in_ K_ArrayItem [12]) = LOk (Local 3) /\ outlives (Local 1) (Local 3).
Proof. repeat split. Qed.
(** The comparison panics on the return value: [return return] or [a = return] with [a: 'return]. *)
Theorem C31_return_refuted : forall nodes l, compare_lifetimes (LOk (Return l)) (LOk (Return [])) nodes = CPanicked.
Proof. intros nodes [|x l]; reflexivity. Qed.

(** ** C32: the check at run time *)

Definition least (v : value) (min : option nat) (r : option nat) : Prop :=
  match r with
  | Some r => (holds v r \/ min = Some r) /\ (forall q, holds v q -> r <= q) /\ (forall q, min = Some q -> r <= q)
  | None => min = None /\ forall q, ~ holds v q
  end.
Lemma leaf_least : forall v min, (forall q, ~ holds v q) -> least v min min.
Proof. intros v [r|] H; cbn; [|auto]. split; auto. split; [intros q Q; exfalso; eapply H; eauto|]. intros q E. inversion E. auto. Qed.
Lemma list_least : forall (A : Type) (g : A -> value) (l : list A) (V : value),
  (forall q, holds V q <-> exists x, In x l /\ holds (g x) q) -> Forall (fun x => forall min, least (g x) min (min_ref (g x) min)) l ->
  forall min, least V min ((fix go (l : list A) (min : option nat) := match l with [] => min | x :: l => go l (min_ref (g x) min) end) l min).
Proof.
  intros A g l V HV HF. 
  assert (forall min r, (fix go (l : list A) (min : option nat) := match l with [] => min | x :: l => go l (min_ref (g x) min) end) l min = r ->
    match r with
    | Some r => ((exists x, In x l /\ holds (g x) r) \/ min = Some r) /\ (forall x q, In x l -> holds (g x) q -> r <= q) /\ (forall q, min = Some q -> r <= q)
    | None => min = None /\ forall x q, In x l -> ~ holds (g x) q
    end) as H.
  { clear HV. induction HF as [|x l Hx HF IH]; intros min r E.
    - subst r. destruct min; [|split; auto; intros x q []]. split; auto. split; [intros x q []|]. intros q E. inversion E. auto.
    - specialize (IH _ _ E). specialize (Hx min). destruct r as [r|].
      + destruct IH as (A1 & A2 & A3). destruct (min_ref (g x) min) as [m1|] eqn:M; cbn in Hx.
        * destruct Hx as (B1 & B2 & B3). pose proof (A3 _ eq_refl) as Lr. split; [|split].
          { destruct A1 as [(y & I & Hy)|A1]; [left; exists y; split; [right; auto|auto]|]. inversion A1; subst. destruct B1 as [B1|B1]; auto. left. exists x. split; [left; auto|auto]. }
          { intros y q [<-|I] Hq; [specialize (B2 _ Hq); lia|eauto]. }
          { intros q Eq. specialize (B3 _ Eq). lia. }
        * destruct Hx as (-> & B). split; [|split; [|discriminate]].
          { left. destruct A1 as [(y & I & Hy)|A1]; [exists y; split; [right; auto|auto]|discriminate]. }
          { intros y q [<-|I] Hq; [exfalso; eapply B; eauto|eauto]. }
      + destruct IH as (A1 & A2). rewrite A1 in Hx. cbn in Hx. destruct Hx as (-> & B). split; auto.
        intros y q [<-|I]; [apply B|apply A2; auto]. }
  intros min. specialize (H min _ eq_refl). unfold least.
  destruct ((fix go (l : list A) (min : option nat) := match l with [] => min | x :: l => go l (min_ref (g x) min) end) l min) as [r|].
  - destruct H as (A1 & A2 & A3). split; [destruct A1 as [A1|A1]; auto; left; apply HV; auto|]. split; auto. intros q Hq. apply HV in Hq. destruct Hq as (x & I & Hx). eauto.
  - destruct H as (A1 & A2). split; auto. intros q Hq. apply HV in Hq. destruct Hq as (x & I & Hx). eapply A2; eauto.
Qed.
Fixpoint min_ref_least (v : value) : forall min, least v min (min_ref v min).
Proof.
  destruct v; intros min; cbn [min_ref]; try (apply leaf_least; intros q Q; inversion Q; fail).
  - destruct min as [r|].
    + destruct (Nat.ltb_spec i r).
      * cbn. split; [left; constructor|]. split; [intros q Q; inversion Q; auto|]. intros q E. inversion E; subst. lia.
      * cbn. split; [right; auto|]. split; [intros q Q; inversion Q; subst; auto|]. intros q E. inversion E; subst. lia.
    + split; [left; constructor|]. split; [intros q Q; inversion Q; auto|discriminate].
  - apply (list_least value (fun v => v)).
    + intros q. split; [intros Q; inversion Q; subst; eauto|intros (x & I & Q); econstructor; eauto].
    + induction l as [|v l IH]; constructor; auto. 
  - assert (forall l min, (fix go (l : list (string * value)) (min : option nat) := match l with [] => min | (_, v) :: l => go l (min_ref v min) end) l min =
      (fix go (l : list (string * value)) (min : option nat) := match l with [] => min | x :: l => go l (min_ref (snd x) min) end) l min) as EQ.
    { clear. induction l as [|[k v] l IH]; intros min; auto. }
    rewrite EQ. apply (list_least (string * value) snd).
    + intros q. split; [intros Q; inversion Q; subst; eexists; split; eauto|intros ([k x] & I & Q); econstructor; eauto].
    + clear EQ. induction l as [|[k v] l IH]; constructor; auto.
Qed.

Lemma sig_index_nth : forall s j x, NoDup (map fst s) -> match sig_index s j x with
  | Some k => exists i y, k = j + i /\ nth_error s i = Some (x, y)
  | None => ~ In x (map fst s) end.
Proof.
  induction s as [|[y o] s IH]; intros j x ND; cbn [sig_index map fst]; [intros []|]. inversion ND as [|? ? NI ND2]; subst.
  specialize (IH (S j) x ND2). destruct (sig_index s (S j) x) as [k|].
  - destruct IH as (i & z & -> & N). exists (S i), z. split; [lia|auto].
  - destruct (String.eqb_spec y x) as [->|D]; [exists 0, o; split; auto; lia|]. intros [E|I]; auto.
Qed.
(** The arguments that fail. *)
Lemma check_from_ok : forall s args, NoDup (map fst s) -> length args = length s -> forall rest i, (forall k, nth_error rest k = nth_error s (i + k)) ->
  (check_from s rest i args = KOk /\ forall k x l, i <= k -> nth_error s k = Some (x, Some l) ->
     exists r, nth_error args k = Some (VRef r) /\ (l <> "return" -> exists n y v, nth_error s n = Some (l, y) /\ nth_error args n = Some v /\ forall q, holds v q -> r < q)) \/
  ((exists e, check_from s rest i args = KErr e) /\ ~ args_outlive holds s args).
Proof.
  intros s args ND HL. assert (forall n l y n' y', nth_error s n = Some (l, y) -> nth_error s n' = Some (l, y') -> n = n') as Uniq.
  { intros n l y n' y' A B. eapply NoDup_nth_error; eauto; [apply nth_error_Some; rewrite (map_nth_error fst _ _ A); discriminate|].
    rewrite (map_nth_error fst _ _ A), (map_nth_error fst _ _ B). auto. }
  induction rest as [|[x [l|]] rest IH]; intros i HB; cbn [check_from].
  - left. split; auto. intros k x l Lk N. exfalso. specialize (HB (k - i)). replace (i + (k - i)) with k in HB by lia. rewrite N in HB. destruct (k - i); discriminate.
  - pose proof (HB 0) as Ns. rewrite Nat.add_0_r in Ns. cbn in Ns. symmetry in Ns.
    assert (forall k, nth_error rest k = nth_error s (S i + k)) as HB2. { intros k. specialize (HB (S k)). cbn in HB. rewrite HB. f_equal. lia. }
    assert (i < length args) as Li by (rewrite HL; apply nth_error_Some; congruence).
    destruct (nth_error args i) as [v|] eqn:Na; [|apply nth_error_None in Na; lia].
    assert (forall P : Prop, (match v with VRef r => (l <> "return" -> exists n y v, nth_error s n = Some (l, y) /\ nth_error args n = Some v /\ forall q, holds v q -> r < q) | _ => False end) ->
       (forall k x l, S i <= k -> nth_error s k = Some (x, Some l) ->
         exists r, nth_error args k = Some (VRef r) /\ (l <> "return" -> exists n y v, nth_error s n = Some (l, y) /\ nth_error args n = Some v /\ forall q, holds v q -> r < q)) ->
       (forall k x l, i <= k -> nth_error s k = Some (x, Some l) ->
         exists r, nth_error args k = Some (VRef r) /\ (l <> "return" -> exists n y v, nth_error s n = Some (l, y) /\ nth_error args n = Some v /\ forall q, holds v q -> r < q))) as Ext.
    { intros _ Hv HR k y l' Lk N. destruct (Nat.eq_dec k i) as [->|D]; [|eapply HR; eauto; lia]. rewrite Ns in N. inversion N; subst.
      destruct v; try contradiction. eauto. }
    destruct v as [r| | | | | | | | | | | | | | | | | | ]; try (right; split; [eauto|]; intros H; destruct (H _ _ _ Ns) as (r & E & _); congruence).
    destruct (String.eqb_spec l "return") as [->|NR].
    + destruct (IH (S i) HB2) as [[E G]|G]; [left|right; auto]. split; auto. apply (Ext True); auto. congruence.
    + pose proof (sig_index_nth s 0 l ND) as SI. destruct (sig_index s 0 l) as [ind|].
      * destruct SI as (j & y & E & N). cbn in E. subst ind. assert (j < length args) as Lj by (rewrite HL; apply nth_error_Some; congruence).
        destruct (nth_error args j) as [w|] eqn:Nw; [|apply nth_error_None in Nw; lia]. cbn [min_ref].
        pose proof (min_ref_least w None) as ML. destruct (min_ref w None) as [a|]; cbn in ML.
        { destruct ML as ([Ha|Ha] & Hm & _); [|discriminate]. destruct (Nat.leb_spec a r) as [LE|LE].
          - right. split; [eauto|]. intros H. destruct (H _ _ _ Ns) as (r' & E & H'). rewrite Na in E. inversion E; subst r'.
            destruct (H' NR) as (n & y' & v & N' & Nv & HH). rewrite (Uniq _ _ _ _ _ N' N) in Nv. rewrite Nw in Nv. inversion Nv; subst v. specialize (HH _ Ha). lia.
          - destruct (IH (S i) HB2) as [[E G]|G]; [left|right; auto]. split; auto. apply (Ext True); auto. intros _. exists j, y, w. repeat split; auto. intros q Hq. specialize (Hm _ Hq). lia. }
        { destruct ML as (_ & Hn). destruct (IH (S i) HB2) as [[E G]|G]; [left|right; auto]. split; auto. apply (Ext True); auto. intros _. exists j, y, w. repeat split; auto. intros q Hq. exfalso. eapply Hn; eauto. }
      * right. split; [eauto|]. intros H. destruct (H _ _ _ Ns) as (r' & E & H'). destruct (H' NR) as (n & y' & v & N' & _). apply SI. apply in_map_iff. exists (l, y'). split; auto. eapply nth_error_In; eauto.
  - pose proof (HB 0) as Ns. rewrite Nat.add_0_r in Ns. cbn in Ns. symmetry in Ns.
    assert (forall k, nth_error rest k = nth_error s (S i + k)) as HB2. { intros k. specialize (HB (S k)). cbn in HB. rewrite HB. f_equal. lia. }
    destruct (IH (S i) HB2) as [[E G]|G]; [left|right; auto]. split; auto.
    intros k y l' Lk N. destruct (Nat.eq_dec k i) as [->|D]; [rewrite Ns in N; inversion N|]. eapply G; eauto. lia.
Qed.
(** The check accepts exactly the argument lists in which every argument with a lifetime is a
    reference older than every reference in the argument it must outlive, where references are
    looked for in arrays and objects; otherwise it reports an error. Missing in the whole:
    references inside options, results and secrets; [C32_option_refuted]. *)
Theorem C32_check_partial : forall s args, good_names s -> length args = length s ->
  (check s args = KOk <-> args_outlive holds s args) /\ (check s args = KOk \/ exists e, check s args = KErr e).
Proof.
  intros s args ND HL. unfold check.
  destruct (existsb (fun a => match snd a with Some _ => true | None => false end) s) eqn:E.
  - destruct (check_from_ok s args ND HL s 0 (fun k => eq_refl)) as [[C G]|[(e & C) G]]; rewrite C.
    + split; auto. split; auto. intros _ i x l N. eapply G; eauto. lia.
    + split; [|eauto]. split; [discriminate|contradiction].
  - split; auto. split; auto. intros _ i x l N. exfalso. assert (existsb (fun a : string * option string => match snd a with Some _ => true | None => false end) s = true); [|congruence].
    apply existsb_exists. exists (x, Some l). split; auto. eapply nth_error_In; eauto.
Qed.
Print Assumptions C32_check_partial.
(** f(a: 'b, b) *)
Definition two_ : sig := [("a", Some "b"); ("b", None)].
Example C32_example :
  check two_ [VRef 3; VArray [VRef 5; VObject [("k", VRef 4)]]] = KOk /\
  check two_ [VRef 4; VArray [VRef 5; VObject [("k", VRef 4)]]] = KErr (KOutlive 0 1) /\
  check two_ [VStr "x"; VArray []] = KErr (KNoRef 0) /\ good_names two_.
Proof. repeat split. repeat constructor; intros H; repeat (destruct H as [H|H]; try discriminate); auto. Qed.
(** A reference inside an option is not seen: [a] in slot 7 is accepted as outliving [some(..)] of
    slot 2. *)
Theorem C32_option_refuted : exists s args, good_names s /\ length args = length s /\ check s args = KOk /\ ~ args_outlive holds_any s args.
Proof.
  exists two_, [VRef 7; VSome (VRef 2)]. split; [apply C32_example|]. repeat split. intros H. destruct (H 0 "a" "b" eq_refl) as (r & E & H2). inversion E; subst r.
  destruct H2 as (k & y & v & N & Nv & HH); [discriminate|]. destruct k as [|[|k]]; cbn in N; try (inversion N; fail); [|destruct k; discriminate].
  cbn in Nv. inversion Nv; subst v. specialize (HH 2). assert (7 < 2) by (apply HH; repeat constructor). lia.
Qed.
