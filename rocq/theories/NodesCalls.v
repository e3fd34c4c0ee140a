(** * The other checks: functions, arguments, signatures, calls and ranges. Lemmas. *)
From Coq Require Import String List Bool Arith ZArith Lia.
From Verif Require Import Syntax Float64 TypeModel LifetimeModel PrintModel NodesModel NodesSpec NodesProofs NodesScope.
Import ListNotations.
Local Open Scope string_scope.
Local Open Scope nat_scope.
Local Open Scope list_scope.

Definition there (g : fgraph) (l : list nat) : Prop := forall c, In c l -> exists n, nth_error g c = Some n.
Lemma there_children : forall g i n, tree_ok g -> nth_error g i = Some n -> there g (f_children n).
Proof. intros g i n T E c C. destruct (to_child _ T _ _ _ E C) as (m & M & _). eauto. Qed.
Lemma there_tl : forall g c l, there g (c :: l) -> there g l.
Proof. intros g c l H a A. apply H. now right. Qed.

(** ** Links do not matter *)
Lemma bare_kind_at : forall g g' k c, bare g = bare g' -> kind_at g k c = kind_at g' k c.
Proof.
  intros g g' k c B. unfold kind_at. destruct (nth_error g c) as [n|] eqn:E.
  - destruct (bare_data _ _ _ _ B E) as (n' & -> & S). change (f_kind n') with (f_kind (strip n')). rewrite S. reflexivity.
  - destruct (nth_error g' c) as [n'|] eqn:E'; auto. destruct (bare_data _ _ _ _ (eq_sym B) E') as (n & E2 & _). congruence.
Qed.
Lemma bare_parts : forall g g' k n n', bare g = bare g' -> strip n = strip n' -> parts g k n = parts g' k n'.
Proof.
  intros g g' k n n' B S. unfold parts. replace (f_children n') with (f_children n) by (change (f_children (strip n) = f_children (strip n')); now rewrite S).
  apply filter_ext. intros c. now apply bare_kind_at.
Qed.
Lemma bare_letters : forall g g' s, bare g = bare g' -> letters g s = letters g' s.
Proof.
  intros g g' s B. unfold letters. destruct (nth_error g s) as [n|] eqn:E.
  - destruct (bare_data _ _ _ _ B E) as (n' & -> & S). replace (f_children n') with (f_children n) by (change (f_children (strip n) = f_children (strip n')); now rewrite S).
    f_equal. apply filter_ext. intros c. now rewrite !(bare_kind_at g g').
  - destruct (nth_error g' s) as [n'|] eqn:E'; auto. destruct (bare_data _ _ _ _ (eq_sym B) E') as (n & E2 & _). congruence.
Qed.
Lemma bare_width : forall g g' a, bare g = bare g' -> width g a = width g' a.
Proof.
  intros g g' s B. unfold width. destruct (nth_error g s) as [n|] eqn:E.
  - destruct (bare_data _ _ _ _ B E) as (n' & -> & S). rewrite (bare_parts g g' K_Swizzle n n' B (eq_sym S)). destruct (parts g' K_Swizzle n'); auto. now apply bare_letters.
  - destruct (nth_error g' s) as [n'|] eqn:E'; auto. destruct (bare_data _ _ _ _ (eq_sym B) E') as (n & E2 & _). congruence.
Qed.
Lemma bare_values : forall g g' n n', bare g = bare g' -> strip n = strip n' -> values g n = values g' n'.
Proof.
  intros g g' n n' B S. unfold values. rewrite (bare_parts g g' _ n n' B S). induction (parts g' K_CallArg n') as [|a l IH]; auto. simpl. rewrite IH. f_equal. now apply bare_width.
Qed.
Lemma bare_function : forall g g' f x, bare g = bare g' -> function g f x -> function g' f x.
Proof.
  intros g g' f x B (n & E & K & N). destruct (bare_data _ _ _ _ B E) as (n' & E' & S). exists n'. split; auto.
  change (f_kind (strip n') = K_Fn /\ f_name (strip n') = Some x). now rewrite S.
Qed.
Lemma bare_tree : forall g g', bare g = bare g' -> tree_ok g -> tree_ok g'.
Proof.
  intros g g' B [T1 T2 T3]. split.
  - intros i n c E C. destruct (bare_data _ _ _ _ (eq_sym B) E) as (n0 & E0 & S0).
    replace (f_children n) with (f_children n0) in C by (change (f_children (strip n0) = f_children (strip n)); now rewrite S0).
    destruct (T1 _ _ _ E0 C) as (m & M & P). destruct (bare_data _ _ _ _ B M) as (m' & M' & S'). exists m'. split; auto. change (f_parent (strip m') = Some i). now rewrite S'.
  - intros i n E. destruct (bare_data _ _ _ _ (eq_sym B) E) as (n0 & E0 & S0).
    replace (f_children n) with (f_children n0) by (change (f_children (strip n0) = f_children (strip n)); now rewrite S0). eauto.
  - intros i n p E P. destruct (bare_data _ _ _ _ (eq_sym B) E) as (n0 & E0 & S0).
    replace (f_parent n) with (f_parent n0) in P by (change (f_parent (strip n0) = f_parent (strip n)); now rewrite S0).
    destruct (T3 _ _ _ E0 P) as (m & M & I). destruct (bare_data _ _ _ _ B M) as (m' & M' & S'). exists m'. split; auto. change (In i (f_children (strip m'))). now rewrite S'.
Qed.

(** ** Counting *)
Lemma find_kind_parts : forall g k l, there g l -> find_kind g k l = NOk (hd_error (filter (kind_at g k) l)).
Proof.
  intros g k. induction l as [|c l IH]; intros H; [reflexivity|]. destruct (H c (or_introl eq_refl)) as [n E]. cbn [find_kind filter]. rewrite (at_some _ _ _ E). cbn [nbind].
  unfold kind_at at 1. rewrite E. destruct (is_kind (f_kind n) k); [reflexivity|]. apply IH. eapply there_tl; eauto.
Qed.
Lemma count_kind_spec : forall g l, there g l -> count_kind g is_sw_kind l =
  NOk (length (filter (fun c => kind_at g K_Sw0 c || kind_at g K_Sw1 c || kind_at g K_Sw2 c || kind_at g K_Sw3 c) l)).
Proof.
  intros g. induction l as [|c l IH]; intros H; [reflexivity|]. destruct (H c (or_introl eq_refl)) as [n E]. cbn [count_kind filter]. rewrite (at_some _ _ _ E). cbn [nbind].
  rewrite IH by (eapply there_tl; eauto). cbn [nbind]. assert (forall k, kind_at g k c = is_kind (f_kind n) k) as KA by (intros k; unfold kind_at; now rewrite E). rewrite !KA. destruct (f_kind n); reflexivity.
Qed.
Lemma count_args_spec : forall g, tree_ok g -> forall l, there g l -> count_args g l = NOk (fold_right (fun a m => width g a + m) 0 (filter (kind_at g K_CallArg) l)).
Proof.
  intros g T. induction l as [|c l IH]; intros H; [reflexivity|]. destruct (H c (or_introl eq_refl)) as [n E]. cbn [count_args filter]. rewrite (at_some _ _ _ E). cbn [nbind].
  specialize (IH (there_tl _ _ _ H)). unfold kind_at at 1. rewrite E. destruct (is_kind (f_kind n) K_CallArg); [|exact IH].
  pose proof (there_children _ _ _ T E) as TC. rewrite (find_kind_parts _ _ _ TC). cbn [nbind fold_right]. fold (parts g K_Swizzle n). unfold width at 1. rewrite E.
  destruct (parts g K_Swizzle n) as [|s r] eqn:P; cbn [hd_error].
  - cbn [nbind]. rewrite IH. reflexivity.
  - assert (In s (f_children n)) as S by (assert (In s (parts g K_Swizzle n)) as X by (rewrite P; now left); unfold parts in X; now apply filter_In in X).
    destruct (TC _ S) as [m M]. rewrite (at_some _ _ _ M). cbn [nbind]. rewrite (count_kind_spec _ _ (there_children _ _ _ T M)). cbn [nbind]. rewrite IH. cbn [nbind].
    unfold letters. now rewrite M.
Qed.

(** ** Different names *)
Lemma distinct_args_spec : forall g l seen, (forall c, In c l -> exists x, has_name g c x) ->
  (distinct_args g seen l = NOk tt /\ (forall c x, In c l -> has_name g c x -> ~ In x seen) /\
     (forall a a' x, In a l -> In a' l -> NoDup l -> has_name g a x -> has_name g a' x -> a = a')) \/
  (exists l1 c l2 x, distinct_args g seen l = NErr N_dup_argument c /\ l = l1 ++ c :: l2 /\ has_name g c x /\ (In x seen \/ exists c', In c' l1 /\ has_name g c' x)).
Proof.
  intros g. induction l as [|c l IH]; intros seen H.
  { left. split; [reflexivity|]. split; intros; contradiction. }
  destruct (H c (or_introl eq_refl)) as (x & n & E & NX). cbn [distinct_args]. rewrite (at_some _ _ _ E). cbn [nbind]. rewrite NX.
  assert (forall y, has_name g c y -> y = x) as CX by (intros y (n' & E' & Y); congruence).
  destruct (existsb (String.eqb x) seen) eqn:EX.
  - right. exists [], c, l, x. split; auto. split; auto. split; [exists n; auto|]. left. apply existsb_exists in EX as (y & Y & Q). apply String.eqb_eq in Q. now subst.
  - assert (~ In x seen) as NS.
    { intros I. assert (existsb (String.eqb x) seen = true); [|congruence]. apply existsb_exists. exists x. split; auto. apply String.eqb_refl. }
    destruct (IH (x :: seen)) as [(R & A & B)|(l1 & d & l2 & y & R & L & HY & D)]; [intros; apply H; now right|..].
    + left. split; auto. split.
      * intros d y [<-|I] HY; [rewrite (CX _ HY); auto|]. intros S. eapply A; eauto. now right.
      * intros a a' y I I' ND Ha Ha'. inversion_clear ND. destruct I as [<-|I], I' as [<-|I']; auto.
        -- exfalso. apply (A a' y I' Ha'). left. symmetry. auto.
        -- exfalso. apply (A a y I Ha). left. symmetry. auto.
        -- eapply B; eauto.
    + right. exists (c :: l1), d, l2, y. split; auto. split; [now rewrite L|]. split; auto. destruct D as [[<-|D]|(c' & C1 & C2)]; auto.
      * right. exists c. split; [now left|exists n; auto].
      * right. exists c'. split; auto. now right.
Qed.
Lemma distinct_functions_spec : forall g l seen, (forall c, In c l -> exists x, has_name g c x) ->
  (distinct_functions g seen l = NOk tt /\ (forall c x, In c l -> has_name g c x -> ~ In x seen) /\
     (forall a a' x, In a l -> In a' l -> NoDup l -> has_name g a x -> has_name g a' x -> a = a')) \/
  (exists l1 c l2 x, distinct_functions g seen l = NErr N_dup_function c /\ l = l1 ++ c :: l2 /\ has_name g c x /\ (In x seen \/ exists c', In c' l1 /\ has_name g c' x)).
Proof.
  intros g. induction l as [|c l IH]; intros seen H.
  { left. split; [reflexivity|]. split; intros; contradiction. }
  destruct (H c (or_introl eq_refl)) as (x & n & E & NX). cbn [distinct_functions]. rewrite (at_some _ _ _ E). cbn [nbind]. rewrite NX.
  assert (forall y, has_name g c y -> y = x) as CX by (intros y (n' & E' & Y); congruence).
  destruct (existsb (String.eqb x) seen) eqn:EX.
  - right. exists [], c, l, x. split; auto. split; auto. split; [exists n; auto|]. left. apply existsb_exists in EX as (y & Y & Q). apply String.eqb_eq in Q. now subst.
  - assert (~ In x seen) as NS.
    { intros I. assert (existsb (String.eqb x) seen = true); [|congruence]. apply existsb_exists. exists x. split; auto. apply String.eqb_refl. }
    destruct (IH (x :: seen)) as [(R & A & B)|(l1 & d & l2 & y & R & L & HY & D)]; [intros; apply H; now right|..].
    + left. split; auto. split.
      * intros d y [<-|I] HY; [rewrite (CX _ HY); auto|]. intros S. eapply A; eauto. now right.
      * intros a a' y I I' ND Ha Ha'. inversion_clear ND. destruct I as [<-|I], I' as [<-|I']; auto.
        -- exfalso. apply (A a' y I' Ha'). left. symmetry. auto.
        -- exfalso. apply (A a y I Ha). left. symmetry. auto.
        -- eapply B; eauto.
    + right. exists (c :: l1), d, l2, y. split; auto. split; [now rewrite L|]. split; auto. destruct D as [[<-|D]|(c' & C1 & C2)]; auto.
      * right. exists c. split; [now left|exists n; auto].
      * right. exists c'. split; auto. now right.
Qed.

(** ** Signatures *)
Section Signature.
  Variables (g : fgraph) (f : fnode) (ret : ty).
  Hypothesis TREE : tree_ok g.
  Variable rest : list nat.
  Hypothesis FIRST : f_children f = parts g K_Arg f ++ rest.
  Hypothesis HERE : there g (f_children f).
  Let args := parts g K_Arg f.
  Let n := length args.

  Lemma next_here : forall a c, nth_error args a = Some c -> forall k, next_arg (S k) g f a = NOk a /\ at_ (f_children f) a = NOk c /\ exists m, at_ g c = NOk m /\ nth_error g c = Some m.
  Proof.
    intros a c A k. assert (nth_error (f_children f) a = Some c) as C by (rewrite FIRST; apply nth_old; auto).
    pose proof (nth_error_In _ _ A) as I. unfold args, parts in I. apply filter_In in I as [I1 I2]. destruct (HERE _ I1) as [m M]. unfold kind_at in I2. rewrite M in I2.
    cbn [next_arg]. rewrite (at_some _ _ _ C). cbn [nbind]. rewrite (at_some _ _ _ M). cbn [nbind]. rewrite I2. split; auto. split; auto. exists m. split; auto.
  Qed.
  Lemma sig_types_spec : forall l count, there g l ->
    (sig_types g f n ret count (Nat.min count n) l = NOk (count + length (filter (kind_at g K_TyArg) l)) /\
       (forall j c a, nth_error (filter (kind_at g K_TyArg) l) j = Some c -> nth_error args (count + j) = Some a -> works_with (type_at g a) (type_at g c)) /\
       (forall c, In c l -> kind_at g K_TyRet c = true -> works_with (Some ret) (type_at g c))) \/
    (exists c, sig_types g f n ret count (Nat.min count n) l = NErr N_sig_type c /\
       ((exists j a, nth_error (filter (kind_at g K_TyArg) l) j = Some c /\ nth_error args (count + j) = Some a /\ ~ works_with (type_at g a) (type_at g c)) \/
        (In c l /\ kind_at g K_TyRet c = true /\ ~ works_with (Some ret) (type_at g c)))).
  Proof.
    induction l as [|c l IH]; intros count H.
    { left. split; [cbn; f_equal; lia|]. split; [intros [|j]; discriminate|contradiction]. }
    destruct (H c (or_introl eq_refl)) as [m M]. specialize (fun k => IH k (there_tl _ _ _ H)). cbn [sig_types]. rewrite (at_some _ _ _ M). cbn [nbind].
    assert (type_at g c = x_ty (f_data m)) as TC by (unfold type_at; now rewrite M).
    assert (f_kind m = K_TyArg \/ f_kind m = K_TyRet \/ (f_kind m <> K_TyArg /\ f_kind m <> K_TyRet)) as [K|[K|[K1 K2]]] by (destruct (f_kind m); (now left) || (right; left; reflexivity) || (right; right; split; discriminate)).
    - rewrite K. assert (kind_at g K_TyArg c = true) as KA by (unfold kind_at; rewrite M, K; reflexivity).
      assert (kind_at g K_TyRet c = false) as KR by (unfold kind_at; rewrite M, K; reflexivity).
      (* what follows when this one works *)
      assert ((forall a, nth_error args count = Some a -> works_with (type_at g a) (type_at g c)) ->
        forall r, r = sig_types g f n ret (S count) (Nat.min (S count) n) l ->
        (r = NOk (count + length (filter (kind_at g K_TyArg) (c :: l))) /\
         (forall j c0 a, nth_error (filter (kind_at g K_TyArg) (c :: l)) j = Some c0 -> nth_error args (count + j) = Some a -> works_with (type_at g a) (type_at g c0)) /\
         (forall c0, In c0 (c :: l) -> kind_at g K_TyRet c0 = true -> works_with (Some ret) (type_at g c0))) \/
        (exists c0, r = NErr N_sig_type c0 /\
         ((exists j a, nth_error (filter (kind_at g K_TyArg) (c :: l)) j = Some c0 /\ nth_error args (count + j) = Some a /\ ~ works_with (type_at g a) (type_at g c0)) \/
          (In c0 (c :: l) /\ kind_at g K_TyRet c0 = true /\ ~ works_with (Some ret) (type_at g c0))))) as NEXT.
      { intros W r ->. cbn [filter]. rewrite KA. destruct (IH (S count)) as [(R & A & B)|(c0 & R & [(j & a & A1 & A2 & A3)|(B1 & B2 & B3)])].
        - left. split; [rewrite R; f_equal; simpl; lia|]. split.
          + intros [|j] c0 a J1 J2; [injection J1 as <-; apply W; now rewrite Nat.add_0_r in J2|]. eapply A; [exact J1|]. now replace (S count + j) with (count + S j) by lia.
          + intros c0 [<-|I] KC; [congruence|auto].
        - right. exists c0. split; auto. left. exists (S j), a. split; auto. split; auto. now replace (count + S j) with (S count + j) by lia.
        - right. exists c0. split; auto. right. split; auto. now right. }
      destruct (Nat.ltb_spec (Nat.min count n) n) as [L|L].
      + assert (Nat.min count n = count) as MC by lia. rewrite MC. assert (Nat.min (S count) n = S count) as MS by lia. rewrite MS in NEXT.
        assert (exists a, nth_error args count = Some a) as [a A] by (apply nth_ex; fold n; lia).
        destruct (x_ty (f_data m)) as [t|] eqn:XT.
        * destruct (next_here count a A (length (f_children f))) as (NX & AT & am & AM & EM). rewrite NX. cbn [nbind].
          assert (count <? n = true) as LT by (apply Nat.ltb_lt; lia). rewrite LT, AT. cbn [nbind]. rewrite AM. cbn [nbind].
          assert (type_at g a = x_ty (f_data am)) as TA by (unfold type_at; now rewrite EM).
          destruct (x_ty (f_data am)) as [p|] eqn:XA.
          -- destruct (goes_with p t) eqn:GW; cbn [nbind].
             ++ apply NEXT; auto. intros a' A'. rewrite A in A'. injection A' as <-. rewrite TA, TC. exact GW.
             ++ right. exists c. split; auto. left. exists 0, a. cbn [filter]. rewrite KA, Nat.add_0_r. split; auto. split; auto. rewrite TA, TC. cbn. congruence.
          -- cbn [nbind]. apply NEXT; auto. intros a' A'. rewrite A in A'. injection A' as <-. rewrite TA. exact I.
        * cbn [nbind]. apply NEXT; auto. intros a' A'. rewrite TC. destruct (type_at g a'); exact I.
      + replace (Nat.min count n) with (Nat.min (S count) n) by lia. apply NEXT; auto. intros a A. pose proof (nth_lt _ _ _ A) as LA. fold n in LA. lia.
    - rewrite K. assert (kind_at g K_TyArg c = false) as KA by (unfold kind_at; rewrite M, K; reflexivity).
      assert (kind_at g K_TyRet c = true) as KR by (unfold kind_at; rewrite M, K; reflexivity). cbn [filter]. rewrite KA.
      assert (works_with (Some ret) (type_at g c) ->
        forall r, r = sig_types g f n ret count (Nat.min count n) l ->
        (r = NOk (count + length (filter (kind_at g K_TyArg) l)) /\
         (forall j c0 a, nth_error (filter (kind_at g K_TyArg) l) j = Some c0 -> nth_error args (count + j) = Some a -> works_with (type_at g a) (type_at g c0)) /\
         (forall c0, In c0 (c :: l) -> kind_at g K_TyRet c0 = true -> works_with (Some ret) (type_at g c0))) \/
        (exists c0, r = NErr N_sig_type c0 /\
         ((exists j a, nth_error (filter (kind_at g K_TyArg) l) j = Some c0 /\ nth_error args (count + j) = Some a /\ ~ works_with (type_at g a) (type_at g c0)) \/
          (In c0 (c :: l) /\ kind_at g K_TyRet c0 = true /\ ~ works_with (Some ret) (type_at g c0))))) as NEXT.
      { intros W r ->. destruct (IH count) as [(R & A & B)|(c0 & R & [X|(B1 & B2 & B3)])].
        - left. split; auto. split; auto. intros c0 [<-|I] KC; auto.
        - right. exists c0. split; auto.
        - right. exists c0. split; auto. right. split; auto. now right. }
      destruct (x_ty (f_data m)) as [t|] eqn:XT.
      + destruct (goes_with ret t) eqn:GW.
        * apply NEXT; auto. rewrite TC. exact GW.
        * right. exists c. split; auto. right. split; [now left|]. split; auto. rewrite TC. cbn. congruence.
      + apply NEXT; auto. rewrite TC. exact I.
    - assert (kind_at g K_TyArg c = false) as KA by (unfold kind_at; rewrite M; now apply is_kind_false).
      assert (kind_at g K_TyRet c = false) as KR by (unfold kind_at; rewrite M; now apply is_kind_false). cbn [filter]. rewrite KA.
      replace (match f_kind m with K_TyArg => _ | K_TyRet => _ | _ => _ end) with (sig_types g f n ret count (Nat.min count n) l) by (destruct (f_kind m); congruence || reflexivity).
      destruct (IH count) as [(R & A & B)|(c0 & R & [X|(B1 & B2 & B3)])].
      + left. split; auto. split; auto. intros c0 [<-|I] KC; [congruence|auto].
      + right. exists c0. split; auto.
      + right. exists c0. split; auto. right. split; auto. now right.
  Qed.
  Hypothesis RET : x_ty (f_data f) = Some ret.
  Lemma sigs_fit_spec : forall l, there g l ->
    (sigs_fit g f n ret l = NOk tt /\ forall s sn, In s l -> kind_at g K_Ty s = true -> nth_error g s = Some sn -> sig_ok g f sn) \/
    (exists e c s sn, sigs_fit g f n ret l = NErr e c /\ In s l /\ kind_at g K_Ty s = true /\ nth_error g s = Some sn /\
       ((e = N_sig_type /\ exists j a, nth_error (parts g K_TyArg sn) j = Some c /\ nth_error args j = Some a /\ ~ works_with (type_at g a) (type_at g c)) \/
        (e = N_sig_type /\ In c (parts g K_TyRet sn) /\ ~ works_with (Some ret) (type_at g c)) \/
        (e = N_sig_count /\ c = s /\ length (parts g K_TyArg sn) <> n))).
  Proof.
    induction l as [|s l IH]; intros H.
    { left. split; [reflexivity|contradiction]. }
    destruct (H s (or_introl eq_refl)) as [m M]. specialize (IH (there_tl _ _ _ H)). cbn [sigs_fit]. rewrite (at_some _ _ _ M). cbn [nbind].
    assert (kind_at g K_Ty s = is_kind (f_kind m) K_Ty) as KS by (unfold kind_at; now rewrite M).
    destruct (is_kind (f_kind m) K_Ty).
    - pose proof (there_children _ _ _ TREE M) as TC. destruct (sig_types_spec (f_children m) 0 TC) as [(R & A & B)|(c & R & X)]; cbn [Nat.min] in R; rewrite R; cbn [nbind].
      + cbn [plus] in *. fold (parts g K_TyArg m) in *. destruct (Nat.eqb_spec (length (parts g K_TyArg m)) n) as [Q|Q].
        * destruct IH as [(R' & Y)|(e & c & s' & sn & R' & I & Y)].
          -- left. split; auto. intros s' sn [<-|I] K E; [|eauto]. rewrite M in E. injection E as <-. split; auto.
             ++ intros c I. apply filter_In in I as [I1 I2]. rewrite RET. auto.
          -- right. exists e, c, s', sn. split; auto. split; [now right|auto].
        * right. exists N_sig_count, s, s, m. split; auto. split; [now left|]. split; auto. split; auto.
      + right. exists N_sig_type, c, s, m. split; auto. split; [now left|]. split; auto. split; auto. destruct X as [X|(X1 & X2 & X3)]; [left; auto|].
        right; left. split; auto. split; auto. apply filter_In. auto.
    - destruct IH as [(R' & Y)|(e & c & s' & sn & R' & I & Y)].
      + left. split; auto. intros s' sn [<-|I] K E; [congruence|eauto].
      + right. exists e, c, s', sn. split; auto. split; [now right|auto].
  Qed.
End Signature.

Lemma for_all_spec : forall (F : fnode -> nres unit) g (P : fnode -> Prop) (Q : fnode -> nerr -> nat -> Prop) l,
  (forall i, In i l -> exists n, nth_error g i = Some n /\ ((F n = NOk tt /\ P n) \/ exists e c, F n = NErr e c /\ Q n e c)) ->
  (for_all F g l = NOk tt /\ forall i n, In i l -> nth_error g i = Some n -> P n) \/
  (exists e c i n, for_all F g l = NErr e c /\ In i l /\ nth_error g i = Some n /\ Q n e c).
Proof.
  intros F g P Q. induction l as [|i l IH]; intros H.
  - left. split; [reflexivity|contradiction].
  - destruct (H i (or_introl eq_refl)) as (n & E & C). cbn [for_all]. rewrite (at_some _ _ _ E). cbn [nbind]. destruct C as [(R & HP)|(e & c & R & HQ)]; rewrite R; cbn [nbind].
    + destruct IH as [(R' & A)|(e & c & j & m & R' & I & A)]; [intros; apply H; now right|..].
      * left. split; auto. intros j m [<-|I] M; [congruence|eauto].
      * right. exists e, c, j, m. split; auto. split; [now right|auto].
    + right. exists e, c, i, n. split; auto. split; [now left|auto].
Qed.
Lemma fn_kinds : forall g k i, In i (of_kind g (fun x => is_kind x k)) <-> exists n, nth_error g i = Some n /\ f_kind n = k.
Proof. intros g k i. rewrite of_kind_spec. split; intros (n & E & K); exists n; split; auto; now apply is_kind_true. Qed.
Lemma of_kind_nodup : forall g p, NoDup (of_kind g p).
Proof.
  intros g p. unfold of_kind.
  assert (forall k (h : fgraph), NoDup (map fst (filter (fun x : nat * fnode => p (f_kind (snd x))) (combine (seq k (length h)) h)))) as X; [|apply X].
  intros k h. revert k. induction h as [|a h IH]; intros k; [constructor|]. cbn [length seq combine filter]. destruct (p (f_kind (snd (k, a)))); [|apply IH].
  cbn [map fst]. constructor; [|apply IH]. intros I. apply in_map_iff in I as ((j, n) & J & I). simpl in J. subst j. apply filter_In in I as [I _].
  apply in_combine_l in I. apply in_seq in I. lia.
Qed.
Lemma args_parts : forall g n, args_of g n = parts g K_Arg n.
Proof. reflexivity. Qed.

Definition of_functions (e : nerr) : Prop := In e [N_dup_argument; N_sig_void; N_sig_type; N_sig_count; N_dup_function].
Section Checks.
  Variables (K : outside) (g : fgraph).
  Hypothesis TREE : tree_ok g.
  Hypothesis FIT : calls_fit g.
  Let fs := of_kind g (fun k => is_kind k K_Fn).

  Lemma arg_names : forall f n c, nth_error g f = Some n -> In c (parts g K_Arg n) -> exists x, has_name g c x.
  Proof.
    intros f n c E I. unfold parts in I. apply filter_In in I as [I K1]. destruct (there_children _ _ _ TREE E _ I) as [m M]. unfold kind_at in K1. rewrite M in K1.
    apply is_kind_true in K1. pose proof (cf_named _ FIT _ _ M) as N. rewrite K1 in N. destruct (f_name m) as [x|] eqn:X; [exists x, m; auto|]. exfalso. apply N; simpl; auto.
  Qed.
  Lemma check_args : (for_all (fun f => distinct_args g [] (args_of g f)) g fs = NOk tt /\ arguments_differ g) \/
    (exists e c, for_all (fun f => distinct_args g [] (args_of g f)) g fs = NErr e c /\ of_functions e /\ wrong K g e c).
  Proof.
    destruct (for_all_spec (fun f => distinct_args g [] (args_of g f)) g
      (fun n => (exists i, nth_error g i = Some n) -> forall a a' x, In a (parts g K_Arg n) -> In a' (parts g K_Arg n) -> has_name g a x -> has_name g a' x -> a = a')
      (fun n e c => (exists i, nth_error g i = Some n) -> e = N_dup_argument /\ exists a' x, In c (parts g K_Arg n) /\ In a' (parts g K_Arg n) /\ c <> a' /\ has_name g c x /\ has_name g a' x) fs) as [(R & A)|(e & c & i & n & R & I & E & A)].
    - intros i I. apply fn_kinds in I as (n & E & _). exists n. split; auto. rewrite args_parts.
      assert (NoDup (parts g K_Arg n)) as ND by (apply NoDup_filter, (to_nodup _ TREE _ _ E)).
      destruct (distinct_args_spec g (parts g K_Arg n) []) as [(R & _ & B)|(l1 & c & l2 & x & R & L & HX & D)]; [intros; eapply arg_names; eauto|left|right].
      + split; auto. intros _ a a' x I I' H H'. eapply B; eauto.
      + exists N_dup_argument, c. split; auto. intros _. split; auto. destruct D as [[]|(c' & C1 & C2)]. exists c', x. rewrite L. split; [apply in_elt|].
        split; [apply in_or_app; auto|]. split; auto. intros <-. rewrite L in ND. apply NoDup_remove_2 in ND. apply ND. apply in_or_app. auto.
    - left. split; auto. intros f n a a' x E KF I I' H H'. eapply (A f n); eauto. apply fn_kinds. eauto.
    - right. exists e, c. split; auto. destruct A as (-> & a' & x & A1 & A2 & A3 & A4 & A5); [eauto|]. split; [unfold of_functions; simpl; auto 10|]. apply fn_kinds in I as (n' & E' & KF). rewrite E in E'. injection E' as <-. eapply Wr_argument; eauto.
  Qed.
  Lemma check_sigs : (for_all (sig_check g) g fs = NOk tt /\ signatures_fit g) \/ (exists e c, for_all (sig_check g) g fs = NErr e c /\ of_functions e /\ wrong K g e c).
  Proof.
    destruct (for_all_spec (sig_check g) g
      (fun n => x_ty (f_data n) <> None -> forall s sn, In s (parts g K_Ty n) -> nth_error g s = Some sn -> x_ty (f_data n) <> Some TVoid /\ sig_ok g n sn)
      (fun n e c => (exists i, nth_error g i = Some n /\ f_kind n = K_Fn) -> of_functions e /\ wrong K g e c) fs) as [(R & A)|(e & c & i & n & R & I & E & A)].
    - intros f I. apply fn_kinds in I as (n & E & KF). exists n. split; auto. unfold sig_check. destruct (x_ty (f_data n)) as [t|] eqn:T.
      + assert (t = TVoid \/ t <> TVoid) as [-> | NV] by (destruct t; (now left) || (right; discriminate)).
        * rewrite (find_kind_parts _ _ _ (there_children _ _ _ TREE E)). cbn [nbind]. fold (parts g K_Ty n). destruct (parts g K_Ty n) as [|s r] eqn:P; cbn [hd_error].
          -- left. split; auto. intros _ s sn [].
          -- right. exists N_sig_void, s. split; auto. intros _. split; [unfold of_functions; simpl; auto 10|]. eapply Wr_void; eauto. rewrite P. now left.
        * replace (match t with TVoid => _ | _ => sigs_fit g n (length (args_of g n)) t (f_children n) end) with (sigs_fit g n (length (args_of g n)) t (f_children n)) by (destruct t; congruence || reflexivity).
          destruct (cf_first _ FIT _ _ E KF) as [r FR]. rewrite args_parts.
          destruct (sigs_fit_spec g n t TREE r FR (there_children _ _ _ TREE E) T (f_children n) (there_children _ _ _ TREE E)) as [(R & A)|(e & c & s & sn & R & I & KS & ES & A)].
          -- left. split; auto. intros _ s sn I ES. split; [congruence|]. unfold parts in I. apply filter_In in I as [I1 I2]. eauto.
          -- right. exists e, c. split; auto. intros _. assert (In s (parts g K_Ty n)) as IP by (apply filter_In; auto).
             destruct A as [(-> & j & a & A1 & A2 & A3)|[(-> & A1 & A2)|(-> & -> & A)]]; (split; [unfold of_functions; simpl; auto 10|]); [apply (Wr_type K g f n s sn j c a); auto; congruence|apply (Wr_ret K g f n s sn c); auto; rewrite T; auto; discriminate|apply (Wr_count K g f n s sn); auto; congruence].
      + left. split; auto. congruence.
    - left. split; auto. intros f n s sn E KF T I ES. apply (A f n) with (s := s); auto. apply fn_kinds. eauto.
    - right. exists e, c. split; auto. apply A. apply fn_kinds in I as (n' & E' & KF). rewrite E in E'. injection E' as <-. eauto.
  Qed.
  Lemma function_names : forall f, In f fs -> exists x, has_name g f x.
  Proof.
    intros f I. apply fn_kinds in I as (n & E & KF). pose proof (cf_named _ FIT _ _ E) as N. rewrite KF in N. destruct (f_name n) as [x|] eqn:X; [exists x, n; auto|]. exfalso. apply N; simpl; auto.
  Qed.
  Lemma function_in : forall f x, function g f x <-> In f fs /\ has_name g f x.
  Proof.
    intros f x. split.
    - intros (n & E & KF & N). split; [apply fn_kinds; eauto|exists n; auto].
    - intros [I (n & E & N)]. apply fn_kinds in I as (n' & E' & KF). rewrite E in E'. injection E' as <-. exists n. auto.
  Qed.
  Lemma check_functions : (distinct_functions g [] fs = NOk tt /\ functions_differ g) \/ (exists e c, distinct_functions g [] fs = NErr e c /\ of_functions e /\ wrong K g e c).
  Proof.
    destruct (distinct_functions_spec g fs [] function_names) as [(R & _ & B)|(l1 & c & l2 & x & R & L & HX & D)].
    - left. split; auto. intros f f' x F F'. apply function_in in F as [F1 F2]. apply function_in in F' as [F1' F2']. eapply B; eauto. apply of_kind_nodup.
    - right. exists N_dup_function, c. split; auto. split; [unfold of_functions; simpl; auto 10|]. destruct D as [[]|(c' & C1 & C2)]. apply (Wr_function K g c c' x).
      + apply function_in. split; auto. rewrite L. apply in_elt.
      + apply function_in. split; auto. rewrite L. apply in_or_app. auto.
      + intros <-. pose proof (of_kind_nodup g (fun k => is_kind k K_Fn)) as ND. fold fs in ND. rewrite L in ND. apply NoDup_remove_2 in ND. apply ND. apply in_or_app. auto.
  Qed.

  (** ** Calls *)
  Lemma same_name_some : forall a x, same_name a (Some x) = true <-> a = Some x.
  Proof. intros [y|] x; simpl; [rewrite String.eqb_eq|]; split; congruence. Qed.
  Lemma function_named_spec : forall g1 x l, bare g1 = bare g -> (forall f, In f l -> In f fs) ->
    match function_named g1 x l with Some f => function g f x | None => forall f, In f l -> ~ function g f x end.
  Proof.
    intros g1 x l B. induction l as [|f l IH]; intros H; cbn [function_named]; [contradiction|]. specialize (IH (fun f I => H f (or_intror I))).
    assert (exists n1 n, nth_error g1 f = Some n1 /\ nth_error g f = Some n /\ strip n1 = strip n /\ f_kind n = K_Fn) as (n1 & n & E1 & E & S & KF).
    { specialize (H f (or_introl eq_refl)). apply fn_kinds in H as (n & E & KF). destruct (bare_data _ _ _ _ (eq_sym B) E) as (n1 & E1 & S). exists n1, n. auto. }
    assert (f_name n1 = f_name n) as NN by (change (f_name (strip n1) = f_name (strip n)); now rewrite S). rewrite E1, NN. destruct (same_name (f_name n) (Some x)) eqn:SN.
    - apply same_name_some in SN. exists n. auto.
    - destruct (function_named g1 x l) as [f'|]; auto. intros f' [<-|I]; auto. intros (n' & E' & _ & N'). rewrite E in E'. injection E' as <-.
      apply same_name_some in N'. congruence.
  Qed.
  Lemma link_call_spec : forall g1 c n, bare g1 = bare g -> nth_error g c = Some n -> nth_error g1 c = Some n -> f_decl n = None -> f_lts n = [] -> f_kind n = K_Call ->
    (exists h n', link_call K fs c g1 = NOk (upd g1 c h) /\ n' = h n /\ strip n' = strip n /\ (forall m, strip (h m) = strip m) /\ calls K g n (f_decl n') (f_lts n')) \/
    (exists e, link_call K fs c g1 = NErr e c /\ wrong K g e c).
  Proof.
    intros g1 c n B E E1 ND NL KC. unfold link_call. rewrite (at_some _ _ _ E1). cbn [nbind].
    assert (tree_ok g1) as T1 by (apply (bare_tree g); auto).
    rewrite (count_args_spec _ T1 _ (there_children _ _ _ T1 E1)). cbn [nbind]. fold (parts g1 K_CallArg n). fold (values g1 n). rewrite (bare_values g1 g n n B eq_refl).
    pose proof (cf_named _ FIT _ _ E) as NN. rewrite KC in NN. destruct (f_name n) as [x|] eqn:NX; [clear NN|exfalso; apply NN; simpl; auto].
    destruct (x_alias (f_data n)) as [a|] eqn:AL.
    - destruct (o_alias K a x) as [l|] eqn:OA.
      + left. exists (with_lts l), (with_lts l n). split; auto. split; auto. split; [reflexivity|]. split; [reflexivity|]. cbn. rewrite ND. eapply Ca_alias; eauto.
      + right. exists N_alias. split; auto. eapply Wr_alias; eauto.
    - pose proof (function_named_spec g1 x fs B (fun f H => H)) as FN. destruct (function_named g1 x fs) as [f|].
      + pose proof FN as (fn & EF & _). destruct (bare_data _ _ _ _ (eq_sym B) EF) as (fn1 & EF1 & SF). rewrite (at_some _ _ _ EF1). cbn [nbind]. rewrite args_parts, (bare_parts g1 g _ fn1 fn B SF).
        destruct (Nat.eqb_spec (length (parts g K_Arg fn)) (values g n)) as [Q|Q].
        * left. exists (with_decl f), (with_decl f n). split; auto. split; auto. split; [reflexivity|]. split; [reflexivity|]. cbn. rewrite NL. eapply Ca_file; eauto.
        * right. exists N_count. split; auto. eapply (Wr_values K g c n x); eauto 8.
      + assert (forall f, ~ function g f x) as NF by (intros f F; eapply FN; eauto; now apply function_in in F). destruct (o_fun K x) as [l|] eqn:OF.
        * destruct (Nat.eqb_spec (length l) (values g n)) as [Q|Q].
          -- left. exists (with_lts l), (with_lts l n). split; auto. split; auto. split; [reflexivity|]. split; [reflexivity|]. cbn. rewrite ND. eapply Ca_outside; eauto.
          -- right. exists N_count. split; auto. eapply (Wr_values K g c n x (length l)); eauto. right. split; eauto. intros (f & F). eapply NF; eauto.
        * right. exists N_function. split; auto. eapply Wr_name; eauto. intros (f & F). eapply NF; eauto.
  Qed.
  Lemma link_calls_spec : forall l g1, bare g1 = bare g -> NoDup l ->
    (forall c, In c l -> exists n, nth_error g c = Some n /\ nth_error g1 c = Some n /\ f_decl n = None /\ f_lts n = [] /\ f_kind n = K_Call) ->
    (exists g2, each (link_call K fs) l g1 = NOk g2 /\ bare g2 = bare g /\ (forall j, ~ In j l -> nth_error g2 j = nth_error g1 j) /\
       forall c n, In c l -> nth_error g c = Some n -> exists n', nth_error g2 c = Some n' /\ calls K g n (f_decl n') (f_lts n')) \/
    (exists e c, each (link_call K fs) l g1 = NErr e c /\ wrong K g e c).
  Proof.
    induction l as [|c l IH]; intros g1 B ND H.
    - left. exists g1. split; [reflexivity|]. split; auto. split; auto. contradiction.
    - inversion ND; subst. destruct (H c (or_introl eq_refl)) as (n & E & E1 & D & L & KC). cbn [each].
      destruct (link_call_spec g1 c n B E E1 D L KC) as [(h & n' & R & -> & S & SH & CA)|(e & R & W)]; rewrite R; cbn [nbind].
      + destruct (IH (upd g1 c h)) as [(g2 & R2 & B2 & O & C)|(e & d & R2 & W)].
        * rewrite bare_upd; auto.
        * auto.
        * intros d I. destruct (H d (or_intror I)) as (m & M & M1 & X). exists m. split; auto. split; auto. rewrite upd_other; auto. congruence.
        * left. exists g2. split; auto. split; auto. split.
          -- intros j J. rewrite O by (intro; apply J; now right). apply upd_other. intros ->. apply J. now left.
          -- intros d m [<-|I] M; [|eauto]. exists (h n). split; [rewrite O by auto; now apply upd_same|]. congruence.
        * right. eauto.
      + right. eauto.
  Qed.
  Lemma link_in_spec : forall g1 c n, bare g1 = bare g -> nth_error g c = Some n -> nth_error g1 c = Some n -> f_decl n = None -> f_lts n = [] -> f_kind n = K_In ->
    (exists h n', link_in K fs c g1 = NOk (upd g1 c h) /\ n' = h n /\ (forall m, strip (h m) = strip m) /\ f_decl n' = None /\ listens K g n (f_lts n')) \/
    (link_in K fs c g1 = NOk g1 /\ listens K g n []) \/
    (exists e, link_in K fs c g1 = NErr e c /\ wrong K g e c).
  Proof.
    intros g1 c n B E E1 ND NL KC. unfold link_in. rewrite (at_some _ _ _ E1). cbn [nbind].
    pose proof (cf_named _ FIT _ _ E) as NN. rewrite KC in NN. destruct (f_name n) as [x|] eqn:NX; [clear NN|exfalso; apply NN; simpl; auto].
    destruct (x_alias (f_data n)) as [a|] eqn:AL.
    - destruct (o_alias K a x) as [l|] eqn:OA.
      + left. exists (with_lts l), (with_lts l n). split; auto. split; auto. split; [reflexivity|]. split; [exact ND|]. eapply Li_alias; eauto.
      + right; right. exists N_alias. split; auto. eapply Wr_alias; eauto.
    - pose proof (function_named_spec g1 x fs B (fun f H => H)) as FN. right. destruct (function_named g1 x fs) as [f|].
      + left. split; auto. eapply Li_name; eauto.
      + assert (forall f, ~ function g f x) as NF by (intros f F; eapply FN; eauto; now apply function_in in F). destruct (o_fun K x) as [l|] eqn:OF.
        * left. split; auto. eapply Li_name; eauto. right. congruence.
        * right. exists N_function. split; auto. eapply Wr_name; eauto. intros (f & F). eapply NF; eauto.
  Qed.
  Lemma link_ins_spec : forall l g1, bare g1 = bare g -> NoDup l ->
    (forall c, In c l -> exists n, nth_error g c = Some n /\ nth_error g1 c = Some n /\ f_decl n = None /\ f_lts n = [] /\ f_kind n = K_In) ->
    (exists g2, each (link_in K fs) l g1 = NOk g2 /\ bare g2 = bare g /\ (forall j, ~ In j l -> nth_error g2 j = nth_error g1 j) /\
       forall c n, In c l -> nth_error g c = Some n -> exists n', nth_error g2 c = Some n' /\ f_decl n' = None /\ listens K g n (f_lts n')) \/
    (exists e c, each (link_in K fs) l g1 = NErr e c /\ wrong K g e c).
  Proof.
    induction l as [|c l IH]; intros g1 B ND H.
    - left. exists g1. split; [reflexivity|]. split; auto. split; auto. contradiction.
    - inversion ND; subst. destruct (H c (or_introl eq_refl)) as (n & E & E1 & D & L & KC). cbn [each].
      destruct (link_in_spec g1 c n B E E1 D L KC) as [(h & n' & R & -> & SH & DD & CA)|[(R & CA)|(e & R & W)]]; rewrite R; cbn [nbind].
      + destruct (IH (upd g1 c h)) as [(g2 & R2 & B2 & O & C)|(e & d & R2 & W)].
        * rewrite bare_upd; auto.
        * auto.
        * intros d I. destruct (H d (or_intror I)) as (m & M & M1 & X). exists m. split; auto. split; auto. rewrite upd_other; auto. congruence.
        * left. exists g2. split; auto. split; auto. split.
          -- intros j J. rewrite O by (intro; apply J; now right). apply upd_other. intros ->. apply J. now left.
          -- intros d m [<-|I] M; [|eauto]. exists (h n). split; [rewrite O by auto; now apply upd_same|]. split; auto. congruence.
        * right. eauto.
      + destruct (IH g1) as [(g2 & R2 & B2 & O & C)|(e & d & R2 & W)]; auto.
        * intros d I. apply H. now right.
        * left. exists g2. split; auto. split; auto. split.
          -- intros j J. apply O. intro. apply J. now right.
          -- intros d m [<-|I] M; [|eauto]. exists n. rewrite E in M. injection M as <-. split; [rewrite O by auto; auto|]. split; auto. now rewrite L.
        * right. eauto.
      + right. eauto.
  Qed.
End Checks.

(** ** Ranges *)
Lemma bare_order : forall g g', bare g = bare g' -> in_order g -> in_order g'.
Proof.
  intros g g' B [O1 O2]. split.
  - intros i n p E P. destruct (bare_data _ _ _ _ (eq_sym B) E) as (n0 & E0 & S0). apply (O1 _ _ _ E0). change (f_parent (strip n0) = Some p). now rewrite S0.
  - intros i n E. destruct (bare_data _ _ _ _ (eq_sym B) E) as (n0 & E0 & S0).
    replace (f_children n) with (f_children n0) by (change (f_children (strip n0) = f_children (strip n)); now rewrite S0). eauto.
Qed.
Lemma bare_use : forall g g' c, bare g = bare g' -> index_use g c -> index_use g' c.
Proof.
  intros g g' c B H. induction H as [c n p pn E P EP KP|c n p pn E P EP KP H IH];
    destruct (bare_data _ _ _ _ B E) as (n' & E' & S'); destruct (bare_data _ _ _ _ B EP) as (pn' & EP' & SP');
    assert (f_parent n' = Some p) as P' by (change (f_parent (strip n') = Some p); now rewrite S').
  - eapply Iu_id; eauto. change (f_kind (strip pn') = K_Id). now rewrite SP'.
  - eapply Iu_up; eauto. change (f_kind (strip pn') = K_Val \/ f_kind (strip pn') = K_Expr \/ ((f_kind (strip pn') = K_Mul \/ f_kind (strip pn') = K_Add) /\ length (f_children (strip pn')) <= 1)). now rewrite SP'.
Qed.
Lemma under_index_spec : forall g, tree_ok g -> in_order g -> forall fuel c n, nth_error g c = Some n -> c < fuel ->
  exists b, under_index fuel g c = NOk b /\ (b = true <-> index_use g c).
Proof.
  intros g T O. induction fuel as [|fuel IH]; intros c n E L; [lia|]. cbn [under_index]. rewrite (at_some _ _ _ E). cbn [nbind].
  destruct (f_parent n) as [p|] eqn:P.
  2: { exists false. split; auto. split; [discriminate|]. intros H. inversion H; congruence. }
  destruct (to_parent _ T _ _ _ E P) as (pn & EP & _). rewrite (at_some _ _ _ EP). cbn [nbind]. pose proof (io_parent _ O _ _ _ E P) as PL.
  destruct (IH p pn EP) as (b & R & B); [lia|].
  assert (forall k, f_kind pn = k -> k <> K_Id -> k <> K_Val -> k <> K_Expr -> ((k = K_Mul \/ k = K_Add) -> 1 < length (f_children pn)) -> ~ index_use g c) as NO.
  { intros k KK N1 N2 N3 N4 H. inversion H; subst.
    - assert (p0 = p) by congruence. subst. congruence.
    - assert (p0 = p) by congruence. subst. assert (pn0 = pn) by congruence. subst. match goal with U : _ \/ _ \/ _ |- _ => rename U into UU end. destruct UU as [X|[X|[X Y]]]; try congruence. specialize (N4 X). lia. }
  assert ((f_kind pn = K_Val \/ f_kind pn = K_Expr \/ ((f_kind pn = K_Mul \/ f_kind pn = K_Add) /\ length (f_children pn) <= 1)) -> (b = true <-> index_use g c)) as UP.
  { intros U. rewrite B. split; [intros H; eapply Iu_up; eauto|]. intros H. inversion H; subst.
    - assert (p0 = p) by congruence. subst. assert (pn0 = pn) by congruence. subst. destruct U as [U|[U|[[U|U] _]]]; congruence.
    - assert (p0 = p) by congruence. subst. auto. }
  destruct (f_kind pn) eqn:KK;
    try (exists false; split; [reflexivity|]; split; [discriminate|]; intros H; exfalso; eapply NO; eauto; try discriminate; intros [?|?]; discriminate);
    try (exists b; split; [exact R|apply UP; auto]; fail);
    try (exists true; split; [reflexivity|]; split; auto; intros _; eapply Iu_id; eauto; fail).
  all: destruct (Nat.ltb_spec 1 (length (f_children pn)));
    [exists false; split; [reflexivity|]; split; [discriminate|]; intros H'; exfalso; eapply NO; eauto; discriminate
    |exists b; split; [exact R|apply UP; right; right; auto]].
Qed.
Lemma used_as_index_spec : forall g loop x items, tree_ok g -> in_order g -> there g items ->
  exists b, used_as_index g loop x items = NOk b /\
    (b = true <-> exists c n, In c items /\ nth_error g c = Some n /\ f_decl n = Some loop /\ f_name n = Some x /\ index_use g c).
Proof.
  intros g loop x items T O. induction items as [|i items IH]; intros H; cbn [used_as_index].
  { exists false. split; auto. split; [discriminate|intros (c & n & [] & _)]. }
  destruct (H i (or_introl eq_refl)) as [n E]. rewrite (at_some _ _ _ E). cbn [nbind]. destruct (IH (there_tl _ _ _ H)) as (b & R & B).
  destruct ((match f_decl n with Some d => d =? loop | None => false end) && same_name (f_name n) (Some x)) eqn:C.
  - apply andb_prop in C as [C1 C2]. apply same_name_some in C2. assert (f_decl n = Some loop) as D by (destruct (f_decl n) as [d|]; [|discriminate]; apply Nat.eqb_eq in C1; now subst).
    destruct (under_index_spec g T O (S (length g)) i n E) as (b' & R' & B'); [pose proof (nth_lt _ _ _ E); lia|]. rewrite R'. cbn [nbind]. destruct b'.
    + exists true. split; auto. split; auto. intros _. exists i, n. split; [now left|]. split; auto. split; auto. split; auto. now apply B'.
    + exists b. split; auto. rewrite B. split; intros (c & m & I & M); exists c, m; [split; [now right|auto]|]. destruct I as [<-|I]; auto.
      destruct M as (_ & _ & _ & M). apply B' in M. discriminate.
  - exists b. split; auto. rewrite B. split; intros (c & m & I & M); exists c, m; [split; [now right|auto]|]. destruct I as [<-|I]; auto.
    destruct M as (M1 & M2 & M3 & _). rewrite E in M1. injection M1 as <-. rewrite M2, Nat.eqb_refl in C. simpl in C. apply same_name_some in M3. congruence.
Qed.

Section Ranges.
  Variables (K : outside) (g g1 : fgraph) (items : list nat).
  Hypothesis TREE : tree_ok g.
  Hypothesis ORDER : in_order g.
  Hypothesis BARE : bare g1 = bare g.
  Hypothesis ITEMS : forall i, In i items <-> (exists n, nth_error g i = Some n /\ f_kind n = K_Item) /\ ~ declared g i.
  Hypothesis LINKED : forall j x, In j items -> has_name g j x -> x <> "return" -> exists n d, nth_error g1 j = Some n /\ f_decl n = Some d /\ refers g j x d.
  Hypothesis RETURN : forall j n, In j items -> has_name g j "return" -> nth_error g1 j = Some n -> f_decl n = None.

  Lemma known_iff : forall loop x, range_known g loop x <-> exists c n, In c items /\ nth_error g1 c = Some n /\ f_decl n = Some loop /\ f_name n = Some x /\ index_use g1 c.
  Proof.
    intros loop x. split.
    - intros (c & (HN & NR & ND & n & E & KI) & R & U). assert (In c items) as I by (apply ITEMS; eauto).
      destruct (LINKED c x I HN NR) as (n1 & d & E1 & D & RD). exists c, n1. split; auto. split; auto. split; [rewrite D; f_equal; eapply refers_fun; eauto|].
      split; [|apply (bare_use g); auto]. destruct (bare_data _ _ _ _ BARE E1) as (n0 & E0 & S0). change (f_name (strip n1) = Some x). rewrite <- S0. destruct HN as (m & M & NM). rewrite M in E0. injection E0 as <-. exact NM.
    - intros (c & n1 & I & E1 & D & N & U). destruct (bare_data _ _ _ _ BARE E1) as (n0 & E0 & S0).
      assert (has_name g c x) as HN by (exists n0; split; auto; change (f_name (strip n0) = Some x); now rewrite S0).
      destruct (string_dec x "return") as [-> | NR]; [rewrite (RETURN _ _ I HN E1) in D; discriminate|].
      destruct (LINKED c x I HN NR) as (n2 & d & E2 & D2 & RD). rewrite E1 in E2. injection E2 as <-. assert (d = loop) by congruence. subst d.
      exists c. split; [|split; auto; apply (bare_use g1); auto]. apply ITEMS in I as [I1 I2]. split; auto.
  Qed.
  Lemma there_items : there g1 items.
  Proof. intros c C. apply ITEMS in C as [(n & E & _) _]. destruct (bare_data _ _ _ _ (eq_sym BARE) E) as (n1 & E1 & _). eauto. Qed.
  Lemma ranges_names_spec : forall loop l,
    (ranges_names g1 loop items l = NOk tt /\ forall x, In x l -> range_known g loop x) \/
    (exists x, ranges_names g1 loop items l = NErr N_range loop /\ In x l /\ ~ range_known g loop x).
  Proof.
    intros loop. pose proof (bare_tree _ _ (eq_sym BARE) TREE) as T1. pose proof (bare_order _ _ (eq_sym BARE) ORDER) as O1.
    induction l as [|x l IH]; cbn [ranges_names]; [left; split; [reflexivity|contradiction]|].
    destruct (used_as_index_spec g1 loop x items T1 O1 there_items) as (b & R & B). rewrite R. cbn [nbind]. rewrite <- known_iff in B. destruct b.
    - destruct IH as [(R' & A)|(y & R' & I & A)].
      + left. split; auto. intros y [<-|I]; auto. now apply B.
      + right. exists y. split; auto. split; [now right|auto].
    - right. exists x. split; auto. split; [now left|]. intros X. apply B in X. discriminate.
  Qed.
  Lemma index_loop_iff : forall k, is_decl_loop k = true <-> index_loop k.
  Proof. intros k. unfold index_loop. destruct k; simpl; split; intros H; try discriminate; auto 12; repeat (destruct H as [H|H]; [discriminate|]); contradiction. Qed.
  Lemma ranges_spec : forall l, (forall i, In i l -> exists n, nth_error g i = Some n /\ index_loop (f_kind n)) ->
    (ranges g1 items l = NOk tt /\ forall i x, In i l -> open_loop g i x -> range_known g i x) \/
    (exists i, ranges g1 items l = NErr N_range i /\ wrong K g N_range i).
  Proof.
    pose proof (bare_tree _ _ (eq_sym BARE) TREE) as T1.
    induction l as [|i l IH]; intros H; cbn [ranges]; [left; split; [reflexivity|contradiction]|].
    destruct (H i (or_introl eq_refl)) as (n & E & KI). destruct (bare_data _ _ _ _ (eq_sym BARE) E) as (n1 & E1 & S1). rewrite (at_some _ _ _ E1). cbn [nbind].
    rewrite (find_kind_parts _ _ _ (there_children _ _ _ T1 E1)). cbn [nbind]. fold (parts g1 K_End n1). rewrite (bare_parts g1 g K_End n1 n BARE S1).
    specialize (IH (fun i I => H i (or_intror I))).
    assert (x_names (f_data n1) = x_names (f_data n)) as XN by (change (x_names (f_data (strip n1)) = x_names (f_data (strip n))); now rewrite S1).
    destruct (parts g K_End n) as [|e r] eqn:PE; cbn [hd_error].
    - rewrite XN. destruct (ranges_names_spec i (x_names (f_data n))) as [(R & A)|(x & R & I & A)]; rewrite R; cbn [nbind].
      + destruct IH as [(R' & A')|(j & R' & A')]; [|right; eauto]. left. split; auto. intros j x [<-|I] O; [|eauto].
        destruct O as (n' & E' & _ & _ & IX). rewrite E in E'. injection E' as <-. auto.
      + right. exists i. split; auto. apply (Wr_range K g i x); auto. exists n. auto.
    - destruct IH as [(R' & A')|(j & R' & A')]; [|right; eauto]. left. split; auto. intros j x [<-|I] O; [|eauto].
      destruct O as (n' & E' & _ & P' & _). rewrite E in E'. injection E' as <-. congruence.
  Qed.
End Ranges.

(** ** Assignments *)
Lemma mutated_items_spec : forall g, calls_fit g -> forall l, (forall n, In n l -> In n g) -> mutated_items g l = NOk tt.
Proof.
  intros g F. induction l as [|n l IH]; intros H; [reflexivity|]. cbn [mutated_items]. rewrite IH by (intros; apply H; now right).
  destruct (In_nth_error _ _ (H n (or_introl eq_refl))) as [i E]. destruct (x_op (f_data n)) as [op|] eqn:O; auto.
  destruct (cf_left _ F _ _ E) as (l0 & ln & C & EL & CL); [congruence|]. destruct (f_children n) as [|a r]; [discriminate|]. injection C as ->.
  destruct (f_children ln) as [|b r'] eqn:CC; [congruence|]. destruct op; auto; cbn; rewrite (at_some _ _ _ EL); cbn; rewrite CC; reflexivity.
Qed.
Lemma declared_item_ok : forall g i n, tree_ok g -> nth_error g i = Some n -> exists o, declared_item g n = NOk o.
Proof.
  intros g i n T E. unfold declared_item. destruct (x_op (f_data n)) as [[]|]; eauto. destruct (f_children n) as [|l r] eqn:C; eauto.
  destruct (to_child _ T _ _ l E) as (ln & EL & _); [rewrite C; now left|]. rewrite (at_some _ _ _ EL). cbn [nbind]. destruct (f_children ln) as [|it r'] eqn:CL; eauto.
  destruct (to_child _ T _ _ it EL) as (m & M & _); [rewrite CL; now left|]. rewrite (at_some _ _ _ M). cbn [nbind]. eauto.
Qed.
Lemma declares_iff : forall g a an i, nth_error g a = Some an -> (declares g a i <-> declared_item g an = NOk (Some i)) \/ (forall o, declared_item g an <> NOk o).
Proof.
  intros g a an i E. destruct (declared_item g an) as [o|e j| |] eqn:D; try (right; intros o'; discriminate). left. split.
  - intros (an' & l & ln & n & E' & X). rewrite E in E'. injection E' as <-. f_equal. apply (declared_item_spec _ _ _ D). exists l, ln, n. exact X.
  - intros Q. injection Q as ->. destruct (proj1 (declared_item_spec _ _ _ D i) eq_refl) as (l & ln & n & X). exists an, l, ln, n. auto.
Qed.
Lemma ascending_iff : forall l, ascending l = true <-> forall i j a b, i < j -> nth_error l i = Some a -> nth_error l j = Some b -> a <= b.
Proof.
  induction l as [|x l IH]; [split; auto; intros _ [|i]; discriminate|]. destruct l as [|y l].
  - split; auto. intros _ [|i] [|[|j]] a b L A B; try discriminate; lia.
  - change (ascending (x :: y :: l)) with ((x <=? y) && ascending (y :: l)). rewrite andb_true_iff, IH, Nat.leb_le. split.
    + intros [L H] [|i] [|j] a b IJ A B; try lia.
      * injection A as <-. destruct j as [|j]; [injection B as <-; auto|]. specialize (H 0 (S j) y b ltac:(lia) eq_refl B). lia.
      * apply (H i j); auto. lia.
    + intros H. split; [apply (H 0 1); auto|]. intros i j a b IJ A B. apply (H (S i) (S j)); auto. lia.
Qed.
Lemma declared_items_ok : forall g, tree_ok g -> exists l, declared_items g g = NOk l /\ (ascending l = true <-> locals_in_order g).
Proof.
  intros g T.
  assert (forall k h, (forall i n, nth_error h i = Some n -> nth_error g (k + i) = Some n) ->
    exists l, declared_items g h = NOk l /\
      (forall i a, nth_error l i = Some a -> exists b, k <= b < k + length h /\ declares g b a) /\
      (forall i j a b, i < j -> nth_error l i = Some a -> nth_error l j = Some b -> exists p q, p < q /\ declares g p a /\ declares g q b) /\
      (forall p q a b, k <= p -> p < q < k + length h -> declares g p a -> declares g q b -> exists i j, i < j /\ nth_error l i = Some a /\ nth_error l j = Some b) /\
      (forall p a, k <= p < k + length h -> declares g p a -> In a l)) as X.
  { intros k h. revert k. induction h as [|n h IH]; intros k H.
    - exists []. split; auto. split; [intros [|i]; discriminate|]. split; [intros [|i]; discriminate|]. split; intros; simpl in *; lia.
    - assert (nth_error g k = Some n) as E by (rewrite <- (Nat.add_0_r k); apply H; reflexivity). destruct (declared_item_ok _ _ _ T E) as [o O].
      destruct (IH (S k)) as (l & R & A & B & C & D). { intros i m M. replace (S k + i) with (k + S i) by lia. apply H. exact M. }
      assert (forall a, declares g k a <-> o = Some a) as DK.
      { intros a. destruct (declares_iff g k n a E) as [Q|Q]; [|exfalso; eapply Q; eauto]. rewrite Q, O. split; intros Z; [now injection Z|now subst]. }
      cbn [declared_items]. rewrite O. cbn [nbind]. rewrite R. cbn [nbind]. eexists. split; [reflexivity|]. cbn [length]. destruct o as [x|].
      + split; [|split; [|split]].
        * intros [|i] a I; [injection I as <-; exists k; split; [lia|now apply DK]|]. destruct (A i a I) as (b & L & Z). exists b. split; [lia|auto].
        * intros [|i] [|j] a b L I J; try lia.
          -- injection I as <-. destruct (A j b J) as (q & LQ & Z). exists k, q. split; [lia|]. split; auto. now apply DK.
          -- eapply (B i j); eauto. lia.
        * intros p q a b LP LQ P Q. destruct (Nat.eq_dec p k) as [-> | NE].
          -- apply DK in P. injection P as <-. assert (In b l) as IB by (eapply (D q); eauto; lia). destruct (In_nth_error _ _ IB) as [j J]. exists 0, (S j). split; [lia|auto].
          -- destruct (C p q a b) as (i & j & L & I & J); auto; try lia. exists (S i), (S j). split; [lia|auto].
        * intros p a LP P. destruct (Nat.eq_dec p k) as [-> | NE]; [apply DK in P; injection P as <-; now left|]. right. apply (D p); auto. lia.
      + split; [|split; [|split]].
        * intros i a I. destruct (A i a I) as (b & L & Z). exists b. split; [lia|auto].
        * intros i j a b L I J. eapply B; eauto.
        * intros p q a b LP LQ P Q. destruct (Nat.eq_dec p k) as [-> | NE]; [apply DK in P; discriminate|]. apply (C p q); auto; lia.
        * intros p a LP P. destruct (Nat.eq_dec p k) as [-> | NE]; [apply DK in P; discriminate|]. apply (D p); auto. lia. }
  destruct (X 0 g (fun i n E => E)) as (l & R & _ & B & C & D). exists l. split; auto. rewrite ascending_iff. split.
  - intros S p q a b P Q L. assert (q < length g) as LQ by (destruct Q as (an & _ & _ & _ & E & _); eapply nth_lt; eauto).
    destruct (C p q a b) as (i & j & IJ & I & J); auto; [lia|]. eapply S; eauto.
  - intros S i j a b IJ I J. destruct (B i j a b IJ I J) as (p & q & L & P & Q). eapply S; eauto.
Qed.
Lemma used_items_ok : forall g, tree_ok g -> (exists l, used_items g = NOk l /\ locals_in_order g) \/ (used_items g = NErr N_unsorted 0 /\ ~ locals_in_order g).
Proof.
  intros g T. destruct (declared_items_ok g T) as (l & R & A). unfold used_items. rewrite R. cbn [nbind]. destruct (ascending l); cbn [negb].
  - left. eexists. split; [reflexivity|]. now apply A.
  - right. split; auto. intros Z. apply A in Z. discriminate.
Qed.

(** ** New names change nothing else *)
Section Renamed.
  Variables (g g' : fgraph).
  Hypothesis LEN : length g' = length g.
  Hypothesis NAMES : forall i n, nth_error g i = Some n -> nth_error g' i = Some (rename (new_names g i n) n).
  Definition same_but_names (n n' : fnode) : Prop := f_kind n' = f_kind n /\ f_parent n' = f_parent n /\ f_children n' = f_children n /\ x_op (f_data n') = x_op (f_data n) /\
    x_grab (f_data n') = x_grab (f_data n) /\ x_ty (f_data n') = x_ty (f_data n) /\ f_decl n' = f_decl n /\ f_lts n' = f_lts n /\ (f_name n <> None -> f_name n' <> None).
  Lemma new_names_some : forall i n, f_name n <> None -> new_names g i n <> [].
  Proof.
    intros i n H. unfold f_name in H. assert (x_names (f_data n) <> []) as X by (intros Z; rewrite Z in H; simpl in H; congruence).
    unfold new_names. destruct (x_names (f_data n)) as [|y l]; [congruence|].
    destruct (f_kind n); try discriminate; try (destruct (existsb id (marks g n)); discriminate). destruct (word_of g i n); discriminate.
  Qed.
  Lemma to_new : forall i n, nth_error g i = Some n -> exists n', nth_error g' i = Some n' /\ same_but_names n n'.
  Proof.
    intros i n E. exists (rename (new_names g i n) n). split; auto. unfold same_but_names. do 8 (split; [reflexivity|]).
    intros H. pose proof (new_names_some i n H) as X. cbn. unfold f_name. cbn. destruct (new_names g i n); [congruence|discriminate].
  Qed.
  Lemma to_old : forall i n', nth_error g' i = Some n' -> exists n, nth_error g i = Some n /\ same_but_names n n'.
  Proof.
    intros i n' E. assert (i < length g) as L by (rewrite <- LEN; eapply nth_lt; eauto). destruct (nth_ex _ _ L) as [n E0]. exists n. split; auto.
    destruct (to_new i n E0) as (n2 & E2 & S). rewrite E in E2. injection E2 as <-. auto.
  Qed.
  Lemma named_introduces : forall j it, introduces g' j it -> introduces g j it.
  Proof.
    intros j it (n & a & an & l & ln & m & H1 & H2 & H3 & H4 & H5 & H6 & H7 & H8 & H9).
    destruct (to_old _ _ H1) as (n0 & E1 & S1). destruct (to_old _ _ H3) as (an0 & E3 & S3). destruct (to_old _ _ H6) as (ln0 & E6 & S6). destruct (to_old _ _ H8) as (m0 & E8 & S8).
    destruct S1 as (_ & _ & C1 & _). destruct S3 as (_ & _ & C3 & O3 & _). destruct S6 as (_ & _ & C6 & _). destruct S8 as (K8 & _ & C8 & _).
    exists n0, a, an0, l, ln0, m0. rewrite <- C1, <- O3, <- C3, <- C6, <- K8, <- C8. auto 12.
  Qed.
  Lemma named_above : forall i r, above g' i r -> above g i r.
  Proof.
    intros i r H. induction H as [n p E P|a n p H IH E P]; destruct (to_old _ _ E) as (n0 & E0 & _ & P0 & _).
    - eapply Ab_parent; eauto. congruence.
    - eapply Ab_step; eauto. congruence.
  Qed.
  Lemma named_tree : tree_ok g -> tree_ok g'.
  Proof.
    intros [T1 T2 T3]. split.
    - intros i n c E C. destruct (to_old _ _ E) as (n0 & E0 & S0). destruct S0 as (_ & _ & C0 & _). rewrite C0 in C. destruct (T1 _ _ _ E0 C) as (m & M & P).
      destruct (to_new _ _ M) as (m' & M' & S'). exists m'. split; auto. destruct S' as (_ & -> & _). auto.
    - intros i n E. destruct (to_old _ _ E) as (n0 & E0 & S0). destruct S0 as (_ & _ & -> & _). eauto.
    - intros i n p E P. destruct (to_old _ _ E) as (n0 & E0 & S0). destruct S0 as (_ & P0 & _). rewrite P0 in P. destruct (T3 _ _ _ E0 P) as (m & M & I).
      destruct (to_new _ _ M) as (m' & M' & S'). exists m'. split; auto. destruct S' as (_ & _ & -> & _). auto.
  Qed.
  Lemma named_scopes : scopes_fit g -> scopes_fit g'.
  Proof.
    intros F. split.
    - apply named_tree, F.
    - destruct (sf_order _ F) as [O1 O2]. split.
      + intros i n p E P. destruct (to_old _ _ E) as (n0 & E0 & _ & P0 & _). apply (O1 i n0); auto. congruence.
      + intros i n E. destruct (to_old _ _ E) as (n0 & E0 & _ & _ & C0 & _). rewrite C0. eauto.
    - intros i n E K. destruct (to_old _ _ E) as (n0 & E0 & K0 & P0 & _). rewrite P0. apply (sf_fn _ F i n0); auto. congruence.
    - intros i n r m E K A M P. destruct (to_old _ _ E) as (n0 & E0 & K0 & _). destruct (to_old _ _ M) as (m0 & M0 & KM & PM & _). rewrite KM.
      apply (sf_item _ F i n0 r m0); auto; try congruence. now apply named_above.
    - intros i n l c r j it E K C J I. destruct (to_old _ _ E) as (n0 & E0 & K0 & _ & C0 & _). apply named_introduces in I. apply (sf_closure _ F i n0 l c r j it E0) in I; auto; congruence.
    - intros i n E K. destruct (to_old _ _ E) as (n0 & E0 & K0 & P0 & _ & _ & _ & _ & _ & _ & N0). destruct (sf_within _ F i n0 E0) as (A & p & m & B & M & C & D); [congruence|]. split; auto.
      destruct (to_new _ _ M) as (m' & M' & KM & _). exists p, m'. split; [congruence|]. split; auto. rewrite KM. auto.
    - intros i n E. destruct (to_old _ _ E) as (n0 & E0 & _ & _ & _ & _ & G0 & _). rewrite G0. apply (sf_level _ F i n0 E0).
    - intros i n E O. destruct (to_old _ _ E) as (n0 & E0 & _ & _ & C0 & O0 & _). destruct (sf_left _ F i n0 E0) as (l & ln & A & B & C); [congruence|].
      destruct (to_new _ _ B) as (ln' & B' & _ & _ & CL & _). exists l, ln'. rewrite C0, CL. auto.
  Qed.
  Lemma named_kind_at : forall k c, kind_at g' k c = kind_at g k c.
  Proof.
    intros k c. unfold kind_at. destruct (nth_error g' c) as [n'|] eqn:E.
    - destruct (to_old _ _ E) as (n & -> & -> & _). reflexivity.
    - destruct (nth_error g c) as [n|] eqn:E'; auto. destruct (to_new _ _ E') as (n' & X & _). congruence.
  Qed.
  Lemma named_calls : calls_fit g -> calls_fit g'.
  Proof.
    intros F. split.
    - intros i n E O. destruct (to_old _ _ E) as (n0 & E0 & _ & _ & C0 & O0 & _). destruct (cf_left _ F i n0 E0) as (l & ln & A & B & C); [congruence|].
      destruct (to_new _ _ B) as (ln' & B' & _ & _ & CL & _). exists l, ln'. rewrite C0, CL. auto.
    - intros i n E K. destruct (to_old _ _ E) as (n0 & E0 & K0 & _ & _ & _ & _ & _ & _ & _ & N0). rewrite K0 in K. apply N0. apply (cf_named _ F i n0 E0 K).
    - intros i n E K. destruct (to_old _ _ E) as (n0 & E0 & K0 & _ & C0 & _). destruct (cf_first _ F i n0 E0) as [r R]; [congruence|]. exists r. unfold parts in *. rewrite C0.
      rewrite (filter_ext _ (kind_at g K_Arg)) by (intros; apply named_kind_at). exact R.
  Qed.
  Lemma named_unlinked : unlinked g -> unlinked g'.
  Proof. intros U i n E. destruct (to_old _ _ E) as (n0 & E0 & _ & _ & _ & _ & _ & _ & D & L & _). rewrite D, L. eauto. Qed.
End Renamed.

(** ** All together *)
Lemma variable_in : forall g items i, (forall i, In i items <-> (exists n, nth_error g i = Some n /\ f_kind n = K_Item) /\ ~ declared g i) ->
  forall x, variable g i x -> In i items /\ has_name g i x /\ x <> "return".
Proof. intros g items i H x (A & B & C & D). split; auto. apply H. auto. Qed.

Lemma strip_fields : forall n n', strip n = strip n' -> f_kind n = f_kind n' /\ f_name n = f_name n' /\ f_children n = f_children n' /\ f_parent n = f_parent n' /\ f_data n = f_data n'.
Proof.
  intros n n' S. assert (f_data n = f_data n') as D by (change (f_data (strip n) = f_data (strip n')); now rewrite S).
  assert (f_children n = f_children n') as C by (change (f_children (strip n) = f_children (strip n')); now rewrite S).
  assert (f_parent n = f_parent n') as P by (change (f_parent (strip n) = f_parent (strip n')); now rewrite S).
  unfold f_kind, f_name. rewrite D. auto.
Qed.
Lemma bare_calls_fit : forall g g', bare g = bare g' -> calls_fit g -> calls_fit g'.
Proof.
  intros g g' B F. split.
  - intros i n E O. destruct (bare_data _ _ _ _ (eq_sym B) E) as (n0 & E0 & S0). apply strip_fields in S0 as (_ & _ & C0 & _ & D0). rewrite <- D0 in O.
    destruct (cf_left _ F _ _ E0 O) as (l & ln & A & L & C). destruct (bare_data _ _ _ _ B L) as (ln' & L' & SL). apply strip_fields in SL as (_ & _ & CL & _). exists l, ln'. rewrite <- C0, CL. auto.
  - intros i n E KN. destruct (bare_data _ _ _ _ (eq_sym B) E) as (n0 & E0 & S0). apply strip_fields in S0 as (K0 & N0 & _). rewrite <- N0. rewrite <- K0 in KN. apply (cf_named _ F _ _ E0 KN).
  - intros i n E KF. destruct (bare_data _ _ _ _ (eq_sym B) E) as (n0 & E0 & S0). rewrite <- (bare_parts g g' _ n0 n B S0). apply strip_fields in S0 as (K0 & _ & C0 & _). rewrite <- C0. rewrite <- K0 in KF. apply (cf_first _ F _ _ E0 KF).
Qed.
Lemma bare_name : forall g g' i x, bare g = bare g' -> has_name g i x -> has_name g' i x.
Proof. intros g g' i x B (n & E & N). destruct (bare_data _ _ _ _ B E) as (n' & E' & S). exists n'. split; auto. apply strip_fields in S as (_ & -> & _). auto. Qed.
Lemma bare_type : forall g g' c, bare g = bare g' -> type_at g c = type_at g' c.
Proof.
  intros g g' c B. unfold type_at. destruct (nth_error g c) as [n|] eqn:E.
  - destruct (bare_data _ _ _ _ B E) as (n' & -> & S). apply strip_fields in S as (_ & _ & _ & _ & ->). reflexivity.
  - destruct (nth_error g' c) as [n'|] eqn:E'; auto. destruct (bare_data _ _ _ _ (eq_sym B) E') as (n & E2 & _). congruence.
Qed.
Lemma bare_sig : forall g g' n sn n' sn', bare g = bare g' -> strip n = strip n' -> strip sn = strip sn' -> sig_ok g n sn -> sig_ok g' n' sn'.
Proof.
  intros g g' n sn n' sn' B S SS [A1 A2 A3]. pose proof (strip_fields _ _ S) as (_ & _ & _ & _ & D). split.
  - now rewrite <- !(bare_parts g g' _ _ _ B SS), <- (bare_parts g g' _ _ _ B S).
  - intros j c a. rewrite <- (bare_parts g g' _ _ _ B SS), <- (bare_parts g g' _ _ _ B S), <- !(bare_type g g' _ B). apply A2.
  - intros c. rewrite <- (bare_parts g g' _ _ _ B SS), <- (bare_type g g' _ B), <- D. apply A3.
Qed.
Lemma bare_arguments : forall g g', bare g = bare g' -> arguments_differ g -> arguments_differ g'.
Proof.
  intros g g' B A f n a a' x E KF I I' H H'. destruct (bare_data _ _ _ _ (eq_sym B) E) as (n0 & E0 & S0). rewrite <- (bare_parts g g' _ n0 n B S0) in *. apply strip_fields in S0 as (K0 & _).
  apply (A f n0 a a' x); auto; [congruence|apply (bare_name g'); auto..].
Qed.
Lemma bare_functions : forall g g', bare g = bare g' -> functions_differ g -> functions_differ g'.
Proof. intros g g' B A f f' x F F'. apply (A f f' x); apply (bare_function g'); auto. Qed.
Lemma bare_signatures : forall g g', bare g = bare g' -> signatures_fit g -> signatures_fit g'.
Proof.
  intros g g' B A f n s sn E KF T I ES. destruct (bare_data _ _ _ _ (eq_sym B) E) as (n0 & E0 & S0). destruct (bare_data _ _ _ _ (eq_sym B) ES) as (sn0 & ES0 & SS0).
  rewrite <- (bare_parts g g' _ n0 n B S0) in I. pose proof (strip_fields _ _ S0) as (K0 & _ & _ & _ & D0). rewrite <- D0 in *.
  destruct (A f n0 s sn0) as [X Y]; auto; [congruence|]. split; auto. eapply bare_sig; eauto.
Qed.
Lemma bare_wrong : forall K g g' e i, bare g = bare g' -> of_functions e -> wrong K g e i -> wrong K g' e i.
Proof.
  intros K g g' e i B O W. destruct W; try solve [unfold of_functions in O; simpl in O; exfalso; intuition discriminate].
  - exfalso. match goal with H : lacks _ _ _ _ |- _ => destruct H as [(-> & _)|[(-> & _)|(-> & _)]] end; unfold of_functions in O; simpl in O; intuition discriminate.
  - match goal with H : nth_error g f = Some n |- _ => destruct (bare_data _ _ _ _ B H) as (n' & E' & S') end. pose proof (strip_fields _ _ S') as (K0 & _).
    apply (Wr_argument K g' f n' a a' x); auto; try congruence; try (eapply bare_name; eauto); rewrite (bare_parts g' g _ n' n (eq_sym B) S'); auto.
  - match goal with H : nth_error g f = Some n |- _ => destruct (bare_data _ _ _ _ B H) as (n' & E' & S') end. pose proof (strip_fields _ _ S') as (K0 & _ & _ & _ & D0).
    apply (Wr_void K g' f n' s); auto; try congruence. rewrite (bare_parts g' g _ n' n (eq_sym B) S'); auto.
  - match goal with H : nth_error g f = Some n |- _ => destruct (bare_data _ _ _ _ B H) as (n' & E' & S') end. pose proof (strip_fields _ _ S') as (K0 & _ & _ & _ & D0).
    match goal with H : nth_error g s = Some sn |- _ => destruct (bare_data _ _ _ _ B H) as (sn' & ES' & SS') end.
    apply (Wr_type K g' f n' s sn' j c a); auto; try congruence; rewrite ?(bare_parts g' g _ n' n (eq_sym B) S'), ?(bare_parts g' g _ sn' sn (eq_sym B) SS'), <- ?(bare_type g g' _ B); auto.
  - match goal with H : nth_error g f = Some n |- _ => destruct (bare_data _ _ _ _ B H) as (n' & E' & S') end. pose proof (strip_fields _ _ S') as (K0 & _ & _ & _ & D0).
    match goal with H : nth_error g s = Some sn |- _ => destruct (bare_data _ _ _ _ B H) as (sn' & ES' & SS') end.
    apply (Wr_ret K g' f n' s sn' c); auto; try congruence; rewrite ?(bare_parts g' g _ n' n (eq_sym B) S'), ?(bare_parts g' g _ sn' sn (eq_sym B) SS'), <- ?(bare_type g g' _ B), ?D0; auto.
  - match goal with H : nth_error g f = Some n |- _ => destruct (bare_data _ _ _ _ B H) as (n' & E' & S') end. pose proof (strip_fields _ _ S') as (K0 & _ & _ & _ & D0).
    match goal with H : nth_error g s = Some sn |- _ => destruct (bare_data _ _ _ _ B H) as (sn' & ES' & SS') end.
    apply (Wr_count K g' f n' s sn'); auto; try congruence; rewrite ?(bare_parts g' g _ n' n (eq_sym B) S'), ?(bare_parts g' g _ sn' sn (eq_sym B) SS'); auto.
  - apply (Wr_function K g' f f' x); auto; eapply bare_function; eauto.
Qed.
Lemma bare_of_kind : forall g g' p, bare g = bare g' -> of_kind g p = of_kind g' p.
Proof.
  intros g g' p B. unfold of_kind. rewrite <- (bare_len g), <- (bare_len g'), B, !bare_len.
  assert (forall (h h' : fgraph) l, bare h = bare h' -> map fst (filter (fun x : nat * fnode => p (f_kind (snd x))) (combine l h)) = map fst (filter (fun x : nat * fnode => p (f_kind (snd x))) (combine l h'))) as X; [|now apply X].
  induction h as [|n h IH]; intros [|n' h'] [|k l] Q; try discriminate; auto. injection Q as Q1 Q2 Q3 Q4. cbn [combine filter snd].
  assert (f_kind n = f_kind n') as KN by (unfold f_kind; congruence). rewrite KN. destruct (p (f_kind n')); cbn [map]; [f_equal|]; apply IH; auto.
Qed.
Lemma linked_named : forall K g, scopes_fit g -> calls_fit g -> unlinked g -> forall r,
  r = nbind (mutated_items g g) (fun _ => nbind (used_items g) (fun items => nbind (each link_item items g) (fun g1 =>
      nbind (ranges g1 items (of_kind g is_decl_loop)) (fun _ =>
      nbind (for_all (fun f => distinct_args g1 [] (args_of g1 f)) g1 (of_kind g (fun k => is_kind k K_Fn))) (fun _ =>
      nbind (for_all (sig_check g1) g1 (of_kind g (fun k => is_kind k K_Fn))) (fun _ =>
      nbind (distinct_functions g1 [] (of_kind g (fun k => is_kind k K_Fn))) (fun _ =>
      nbind (each (link_call K (of_kind g (fun k => is_kind k K_Fn))) (of_kind g (fun k => is_kind k K_Call)) g1) (fun g2 =>
      each (link_in K (of_kind g (fun k => is_kind k K_Fn))) (of_kind g (fun k => is_kind k K_In)) g2)))))))) ->
  (exists g', r = NOk g' /\ locals_in_order g /\ right_file K g g') \/ (exists e i, r = NErr e i /\ locals_in_order g /\ wrong K g e i) \/ (r = NErr N_unsorted 0 /\ ~ locals_in_order g).
Proof.
  intros K g F FC U r ->. pose proof (sf_tree _ F) as T. rewrite (mutated_items_spec g FC g (fun n H => H)). cbn [nbind].
  destruct (used_items_ok g T) as [(items & UI & LO)|(UI & LO)]; rewrite UI; cbn [nbind]; [|right; right; auto].
  pose proof (used_items_spec _ _ UI) as ITEMS.
  destruct (link_all g F items g eq_refl) as [(g1 & R1 & B1 & O1 & V1)|(e & j & x & R1 & J & HN & NR & LK)]; [intros i I; now apply ITEMS in I as [I _]|..]; rewrite R1; cbn [nbind].
  2: { right; left. exists e, j. split; auto. split; auto. apply (Wr_variable K g e j x); auto. apply ITEMS in J as [J1 J2]. split; auto. }
  assert (forall j n, In j items -> has_name g j "return" -> nth_error g1 j = Some n -> f_decl n = None) as RET.
  { intros j n J HR E. rewrite O1 in E by auto. now apply U in E. }
  destruct (ranges_spec K g g1 items T (sf_order _ F) B1 ITEMS V1 RET (of_kind g is_decl_loop)) as [(R2 & RK)|(i & R2 & W)].
  { intros i I. apply of_kind_spec in I as (n & E & KI). exists n. split; auto. now apply index_loop_iff. }
  2: { rewrite R2. right; left. exists N_range, i. auto. }
  rewrite R2. cbn [nbind]. pose proof (bare_tree _ _ (eq_sym B1) T) as T1.
  pose proof (bare_calls_fit _ _ (eq_sym B1) FC) as FC1. set (fs := of_kind g (fun k => is_kind k K_Fn)).
  assert (fs = of_kind g1 (fun k => is_kind k K_Fn)) as FS by (apply bare_of_kind; auto).
  destruct (check_args K g1 T1 FC1) as [(R3 & A3)|(e & c & R3 & OE & W)]; rewrite <- FS in R3; rewrite R3; cbn [nbind].
  2: { right; left. exists e, c. split; auto. split; auto. apply (bare_wrong K g1); auto. }
  destruct (check_sigs K g1 T1 FC1) as [(R4 & A4)|(e & c & R4 & OE & W)]; rewrite <- FS in R4; rewrite R4; cbn [nbind].
  2: { right; left. exists e, c. split; auto. split; auto. apply (bare_wrong K g1); auto. }
  destruct (check_functions K g1 FC1) as [(R5 & A5)|(e & c & R5 & OE & W)]; rewrite <- FS in R5; rewrite R5; cbn [nbind].
  2: { right; left. exists e, c. split; auto. split; auto. apply (bare_wrong K g1); auto. }
  assert (forall j n, nth_error g j = Some n -> f_kind n <> K_Item -> nth_error g1 j = Some n) as NI.
  { intros j n E KN. rewrite O1; auto. left. intros I. apply ITEMS in I as [(n' & E' & K') _]. congruence. }
  destruct (link_calls_spec K g T FC (of_kind g (fun k => is_kind k K_Call)) g1 B1 (of_kind_nodup _ _)) as [(g2 & R6 & B2 & O2 & C2)|(e & c & R6 & W)]; try fold fs in R6.
  { intros c I. apply fn_kinds in I as (n & E & KC). exists n. split; auto. split; [apply NI; auto; congruence|]. destruct (U _ _ E). auto. }
  2: { rewrite R6. right; left. exists e, c. auto. }
  rewrite R6. cbn [nbind].
  destruct (link_ins_spec K g FC (of_kind g (fun k => is_kind k K_In)) g2 B2 (of_kind_nodup _ _)) as [(g3 & R7 & B3 & O3 & C3)|(e & c & R7 & W)]; try fold fs in R7.
  { intros c I. apply fn_kinds in I as (n & E & KC). exists n. split; auto. split; [|destruct (U _ _ E); auto].
    rewrite O2 by (intros I; apply fn_kinds in I as (n' & E' & K'); congruence). apply NI; auto; congruence. }
  2: { rewrite R7. right; left. exists e, c. auto. }
  rewrite R7. left. exists g3. split; auto. split; auto.
  assert (forall j n, nth_error g j = Some n -> f_kind n <> K_Call -> f_kind n <> K_In -> nth_error g3 j = nth_error g1 j) as NO.
  { intros j n E K1 K2. rewrite O3 by (intros I; apply fn_kinds in I as (n' & E' & K'); congruence). rewrite O2 by (intros I; apply fn_kinds in I as (n' & E' & K'); congruence). reflexivity. }
  split.
  - auto.
  - intros i x V. destruct (variable_in _ _ _ ITEMS _ V) as (I & HN & NR). destruct (V1 _ _ I HN NR) as (n & d & E & D & RF). exists n, d. split; auto.
    destruct V as (_ & _ & _ & m & M & KM). rewrite (NO _ _ M); congruence.
  - intros i x O. apply RK; auto. destruct O as (n & E & KL & _). apply of_kind_spec. exists n. split; auto. now apply index_loop_iff.
  - apply (bare_arguments g1); auto.
  - apply (bare_signatures g1); auto.
  - apply (bare_functions g1); auto.
  - intros c n E KC. destruct (C2 c n) as (n' & E' & CA); [apply fn_kinds; eauto|auto|]. exists n'. split; auto. rewrite O3; auto. intros I; apply fn_kinds in I as (n2 & E2 & K2); congruence.
  - intros c n E KC. apply C3; auto. apply fn_kinds; eauto.
  - intros i n E K1 K2 NV. rewrite (NO _ _ E); auto. rewrite O1; auto. 
    destruct (in_dec Nat.eq_dec i items) as [I|I]; [right|left; auto]. apply ITEMS in I as [(n' & E' & KI) ND]. rewrite E in E'. injection E' as <-.
    destruct (sf_within _ F _ _ E KI) as [HN _]. destruct (f_name n) as [x|] eqn:NX; [|congruence].
    destruct (string_dec x "return") as [-> | NR]; [exists n; auto|]. exfalso. apply (NV x). split; [exists n; auto|]. split; auto. split; auto. exists n; auto.
Qed.
Lemma linked_spec : forall K g0, scopes_fit g0 -> names_fit g0 -> calls_fit g0 -> unlinked g0 -> exists g,
  length g = length g0 /\ (forall i n, nth_error g0 i = Some n -> nth_error g i = Some (rename (new_names g0 i n) n)) /\
  ((exists g', linked K g0 = NOk g' /\ locals_in_order g /\ right_file K g g') \/
   (exists e i, linked K g0 = NErr e i /\ locals_in_order g /\ wrong K g e i) \/ (linked K g0 = NErr N_unsorted 0 /\ ~ locals_in_order g)).
Proof.
  intros K g0 F N C U. destruct (name_all_spec g0 (sf_tree _ F) N) as (g & R & L & A). exists g. split; auto. split; auto.
  unfold linked. rewrite R. cbn [nbind]. apply (linked_named K g); auto; [eapply named_scopes|eapply named_calls|eapply named_unlinked]; eauto.
Qed.
(** a file is not both *)
Lemma not_both : forall K g g' e i, tree_ok g -> right_file K g g' -> wrong K g e i -> False.
Proof.
  intros K g g' e i T R W. destruct W.
  - destruct (ri_variables _ _ _ R _ _ H) as (n & d & _ & _ & RF). eapply refers_lacks; eauto.
  - apply H0. apply (ri_ranges _ _ _ R); auto.
  - apply H3. eapply (ri_arguments _ _ _ R f n); eauto.
  - destruct (to_child _ T _ _ s H) as (sn & ES & _); [unfold parts in H2; now apply filter_In in H2|]. destruct (ri_signatures _ _ _ R f n s sn H H0) as [X _]; auto; congruence.
  - destruct (ri_signatures _ _ _ R f n s sn H H0) as [_ Y]; auto. apply H6. eapply (so_args _ _ _ Y); eauto.
  - destruct (ri_signatures _ _ _ R f n s sn H H0) as [_ Y]; auto. apply H5. apply (so_ret _ _ _ Y); auto.
  - destruct (ri_signatures _ _ _ R f n s sn H H0) as [_ Y]; auto. apply H4. apply (so_count _ _ _ Y).
  - apply H1. eapply (ri_functions _ _ _ R); eauto.
  - destruct H0 as [K0|K0].
    + destruct (ri_calls _ _ _ R _ _ H K0) as (n' & _ & CA). inversion CA; congruence.
    + destruct (ri_ins _ _ _ R _ _ H K0) as (n' & _ & _ & CA). inversion CA; congruence.
  - destruct (ri_calls _ _ _ R _ _ H H0) as (n' & _ & CA). inversion CA; subst; try congruence.
    + assert (x0 = x) by congruence. subst. destruct H3 as [(f' & fn' & F' & E' & ->)|(NF & _)]; [|exfalso; apply NF; eauto].
      assert (f' = f) by (eapply (ri_functions _ _ _ R); eauto). subst. congruence.
    + assert (x0 = x) by congruence. subst. destruct H3 as [(f' & fn' & F' & E' & ->)|(NF & l' & L & ->)]; [eapply H8; eauto|congruence].
  - destruct H0 as [K0|K0].
    + destruct (ri_calls _ _ _ R _ _ H K0) as (n' & _ & CA). inversion CA; subst; try congruence. apply H3. assert (x0 = x) by congruence. subst. eauto.
    + destruct (ri_ins _ _ _ R _ _ H K0) as (n' & _ & _ & CA). inversion CA; subst; try congruence. assert (x0 = x) by congruence. subst. destruct H7 as [?|?]; auto; congruence.
Qed.
