(** * Lemmas: the search for the declaration of a variable finds the nearest one. *)
From Coq Require Import String List Bool Arith ZArith Lia Sorting.Sorted.
From Verif Require Import Syntax Float64 TypeModel LifetimeModel PrintModel NodesModel NodesSpec NodesProofs.
Import ListNotations.
Local Open Scope string_scope.
Local Open Scope nat_scope.
Local Open Scope list_scope.

Lemma looping_iff : forall k, is_decl_loop k || is_decl_un_loop k || is_in_loop k = true <-> looping k.
Proof.
  intros k. unfold looping. split.
  - destruct k; intros H; try discriminate H; simpl; auto 25.
  - intros H. repeat (destruct H as [<-|H]; [reflexivity|]). contradiction.
Qed.
Lemma same_name_iff : forall a b, same_name a b = true <-> a = b.
Proof.
  intros [a|] [b|]; simpl; split; intros H; try discriminate; auto; [f_equal; now apply String.eqb_eq|injection H as ->; apply String.eqb_refl].
Qed.

Section Search.
  Variables (g : fgraph) (i : nat) (x : fnode) (name : string).
  Hypothesis FIT : scopes_fit g.
  Hypothesis NAME : f_name x = Some name.
  Hypothesis ITEM : nth_error g i = Some x.
  Hypothesis KIND : f_kind x = K_Item.

  Definition named_here (j it : nat) : Prop := introduces g j it /\ has_name g it name.

  Lemma introduces_fun : forall j it it', introduces g j it -> introduces g j it' -> it = it'.
  Proof.
    intros j it it' (n & a & an & l & ln & m & H1 & H2 & H3 & H4 & H5 & H6 & H7 & H8 & H9)
      (n' & a' & an' & l' & ln' & m' & G1 & G2 & G3 & G4 & G5 & G6 & G7 & G8 & G9). congruence.
  Qed.

  (** ** Statements before *)
  Lemma search_before_spec : forall grab js, (forall j, In j js -> exists n, nth_error g j = Some n) -> (0 <= grab)%Z ->
    (search_before g i x grab js = NOk None /\ (forall j it, In j js -> ~ named_here j it)) \/
    exists l j r it, js = l ++ j :: r /\ named_here j it /\ (forall j' it', In j' l -> ~ named_here j' it') /\
      search_before g i x grab js = if (grab =? 0)%Z then NOk (Some it) else NErr N_grab_variable i.
  Proof.
    intros grab js IN POS. induction js as [|j js IH]; [left; split; auto|].
    destruct (IN j (or_introl eq_refl)) as [n N].
    assert (forall j, In j js -> exists n, nth_error g j = Some n) as IN' by (intros; apply IN; now right). specialize (IH IN').
    assert ((forall it, ~ named_here j it) -> search_before g i x grab (j :: js) = search_before g i x grab js ->
      (search_before g i x grab (j :: js) = NOk None /\ (forall j0 it, In j0 (j :: js) -> ~ named_here j0 it)) \/
      exists l j0 r it, j :: js = l ++ j0 :: r /\ named_here j0 it /\ (forall j' it', In j' l -> ~ named_here j' it') /\
        search_before g i x grab (j :: js) = if (grab =? 0)%Z then NOk (Some it) else NErr N_grab_variable i) as SKIP.
    { intros NO E. rewrite E. destruct IH as [[A B]|(l & j0 & r & it & A & B & C & D)].
      - left. split; auto. intros j0 it [<-|I]; auto.
      - right. exists (j :: l), j0, r, it. split; [now rewrite A|]. split; auto. split; auto. intros j' it' [<-|I]; auto. }
    cbn [search_before] in SKIP |- *. rewrite (at_some _ _ _ N) in *. cbn [nbind] in *. destruct (f_children n) as [|a cs] eqn:C.
    { apply SKIP; auto. intros it [(n' & a & ? & ? & ? & ? & H1 & H2 & _) _]. rewrite N in H1. injection H1 as <-. rewrite C in H2. discriminate. }
    destruct (to_child _ (sf_tree _ FIT) _ _ a N) as (an & A & _); [rewrite C; now left|]. rewrite (at_some _ _ _ A) in *. cbn [nbind] in *.
    destruct (x_op (f_data an)) as [op|] eqn:O; [destruct op|];
      try (apply SKIP; auto; intros it [(n' & a' & an' & ? & ? & ? & H1 & H2 & H3 & H4 & _) _]; rewrite N in H1; injection H1 as <-; rewrite C in H2; injection H2 as <-; congruence).
    destruct (sf_left _ FIT _ _ A O) as (l & ln & L1 & L2 & L3). destruct (f_children an) as [|l' r'] eqn:CA; [discriminate|]. injection L1 as ->.
    cbn [at_ nth_error nbind] in *. rewrite (at_some _ _ _ L2) in *. cbn [nbind] in *. destruct (f_children ln) as [|it rest] eqn:CL; [contradiction|].
    cbn [at_ nth_error nbind] in *. destruct (to_child _ (sf_tree _ FIT) _ _ it L2) as (m & M & _); [rewrite CL; now left|]. rewrite (at_some _ _ _ M) in *. cbn [nbind] in *.
    assert (forall it', introduces g j it' -> it' = it /\ f_item_ids m = false) as UNIQ.
    { intros it' (n' & a' & an' & l0 & ln' & m' & H1 & H2 & H3 & H4 & H5 & H6 & H7 & H8 & H9).
      rewrite N in H1; injection H1 as <-; rewrite C in H2; injection H2 as <-. rewrite A in H3; injection H3 as <-. rewrite CA in H5; injection H5 as <-.
      rewrite L2 in H6; injection H6 as <-. rewrite CL in H7; injection H7 as <-. split; auto. rewrite M in H8; injection H8 as <-.
      unfold f_item_ids. destruct (is_kind (f_kind m) K_Item) eqn:K; auto. apply is_kind_true in K. destruct (f_children m) eqn:Z; auto. exfalso. apply H9. split; [auto|congruence]. }
    assert (f_item_ids m = false -> introduces g j it) as INTRO.
    { intros F. exists n, a, an, l, ln, m. split; auto. split; [now rewrite C|]. split; auto. split; auto. split; [now rewrite CA|]. split; auto. split; [now rewrite CL|]. split; auto.
      intros [K1 K2]. unfold f_item_ids in F. apply is_kind_true in K1. rewrite K1 in F. destruct (f_children m); [contradiction|discriminate]. }
    destruct (same_name (f_name m) (f_name x)) eqn:S.
    - apply same_name_iff in S. destruct (f_item_ids m) eqn:F.
      + apply SKIP; auto. intros it' [X _]. destruct (UNIQ _ X). congruence.
      + right. exists [], j, js, it. split; auto. split; [split; auto; exists m; split; congruence|]. split; [contradiction|].
        destruct (Z.ltb_spec 0 grab); destruct (Z.eqb_spec grab 0); try lia; auto.
    - apply SKIP; auto. intros it' [X (m' & Y & Z)]. destruct (UNIQ _ X) as [-> _]. rewrite M in Y. injection Y as <-.
      assert (same_name (f_name m) (f_name x) = true) by (apply same_name_iff; congruence). congruence.
  Qed.

  Lemma before_spec : forall c l, In c l -> NoDup l -> exists a r, l = a ++ c :: r /\ before c l = NOk a.
  Proof.
    intros c l. induction l as [|y l IH]; intros I N; [contradiction|]. simpl. inversion_clear N. destruct (Nat.eqb_spec y c) as [-> | NE].
    - exists [], l. auto.
    - destruct I as [->|I]; [contradiction|]. destruct (IH I H0) as (a & r & -> & ->). exists (y :: a), r. auto.
  Qed.

  (** ** Parameters *)
  Lemma search_args_spec : forall js, (forall j, In j js -> exists n, nth_error g j = Some n) ->
    (search_args g x js = NOk None /\ forall j, In j js -> ~ is_parameter g j name) \/
    exists l j r, js = l ++ j :: r /\ is_parameter g j name /\ (forall j', In j' l -> ~ is_parameter g j' name) /\ search_args g x js = NOk (Some j).
  Proof.
    induction js as [|j js IH]; intros IN; [left; split; auto|]. destruct (IN j (or_introl eq_refl)) as [n N].
    assert (forall j, In j js -> exists n, nth_error g j = Some n) as IN' by (intros; apply IN; now right). specialize (IH IN').
    assert (~ is_parameter g j name -> search_args g x (j :: js) = search_args g x js ->
     (search_args g x (j :: js) = NOk None /\ forall j0, In j0 (j :: js) -> ~ is_parameter g j0 name) \/
     exists l j0 r, j :: js = l ++ j0 :: r /\ is_parameter g j0 name /\ (forall j', In j' l -> ~ is_parameter g j' name) /\ search_args g x (j :: js) = NOk (Some j0)) as SKIP.
    { intros NO ->. destruct IH as [[A B]|(l & j0 & r & A & B & C & D)].
      - left. split; auto. intros j0 [<-|I]; auto.
      - right. exists (j :: l), j0, r. split; [now rewrite A|]. split; auto. split; auto. intros j' [<-|I]; auto. }
    cbn [search_args] in *. rewrite (at_some _ _ _ N) in *. cbn [nbind] in *.
    destruct (is_kind (f_kind n) K_Arg || is_kind (f_kind n) K_Current) eqn:K.
    - apply orb_prop in K. rewrite !is_kind_true in K. destruct (f_name n) as [y|] eqn:Y.
      + rewrite NAME in *. destruct (String.eqb_spec y name) as [-> | NE].
        * right. exists [], j, js. split; auto. split; [split; [exists n; auto|exists n; auto]|]. split; [contradiction|auto].
        * apply SKIP; auto. intros [(n' & A & B) _]. congruence.
      + apply SKIP; auto. intros [(n' & A & B) _]. congruence.
    - apply SKIP; auto. intros [_ (n' & A & B)]. rewrite N in A. injection A as <-. rewrite <- !is_kind_true in B. apply orb_false_elim in K as [K1 K2]. rewrite K1, K2 in B. destruct B; discriminate.
  Qed.

  (** ** Places *)
  Lemma outwards_fun : forall k c p l c' p' l', outwards g i k c p l -> outwards g i k c' p' l' -> c = c' /\ p = p' /\ l = l'.
  Proof.
    induction k as [|k IH]; intros c p l c' p' l' A B; inversion A; inversion B; subst.
    - assert (p = p') by congruence. subst. auto.
    - match goal with H : outwards g i k _ c _, G : outwards g i k _ c' _ |- _ => destruct (IH _ _ _ _ _ _ H G) as (-> & -> & ->) end. assert (p = p') by congruence. subst. auto.
    - match goal with H : outwards g i k _ c _, G : outwards g i k _ c' _ |- _ => destruct (IH _ _ _ _ _ _ H G) as (-> & -> & ->) end. congruence.
    - match goal with H : outwards g i k _ c _, G : outwards g i k _ c' _ |- _ => destruct (IH _ _ _ _ _ _ H G) as (-> & -> & ->) end. congruence.
    - match goal with H : outwards g i k _ c _, G : outwards g i k _ c' _ |- _ => destruct (IH _ _ _ _ _ _ H G) as (-> & -> & ->) end. assert (p = p') by congruence. subst. auto.
  Qed.
  Lemma asked_pos : forall q l, (0 <= l)%Z -> (0 <= asked g q l)%Z.
  Proof. intros q l L. unfold asked. destruct (nth_error g q) as [n|]; auto. destruct (is_kind (f_kind n) K_Grab); lia. Qed.
  Lemma outwards_pos : forall k c p l, outwards g i k c p l -> (0 <= l)%Z.
  Proof. induction 1; apply asked_pos; lia. Qed.
  Lemma outwards_child : forall k c p l, outwards g i k c p l -> exists n, nth_error g p = Some n /\ In c (f_children n).
  Proof. induction 1; eapply (to_parent _ (sf_tree _ FIT)); eauto. Qed.
  Lemma outwards_above : forall k c p l, outwards g i k c p l -> above g i p.
  Proof. induction 1; [eapply Ab_parent; eauto|eapply Ab_step; eauto..]. Qed.

  Lemma local_named : forall c p n a r, nth_error g p = Some n -> f_children n = a ++ c :: r ->
    (forall j it, In j (rev a) -> ~ named_here j it) -> forall it, ~ local_before g c p name it.
  Proof.
    intros c p n a r N C H it (n' & l & j & m & r' & N' & C' & I & HN & _). rewrite N in N'. injection N' as <-.
    pose proof (to_nodup _ (sf_tree _ FIT) _ _ N) as D. assert (a = l ++ j :: m) as ->.
    { rewrite C in C', D. replace (l ++ j :: m ++ c :: r') with ((l ++ j :: m) ++ c :: r') in C' by (rewrite <- app_assoc; reflexivity).
      clear - C' D. revert C'. generalize (l ++ j :: m). intros b E. revert b E D. induction a as [|y a IH]; intros [|z b] E D; simpl in *; auto.
      - injection E as <- ->. inversion_clear D. exfalso. apply H. apply in_app_iff. right. now left.
      - injection E as -> <-. inversion_clear D. exfalso. apply H. apply in_app_iff. right. now left.
      - injection E as <- E. inversion_clear D. f_equal. auto. }
    apply (H j it); [|split; auto]. rewrite <- in_rev. apply in_app_iff. right. now left.
  Qed.

  (** what the search gives at the place [k] when nothing was found before *)
  Definition verdict (r : nres nat) : Prop :=
    (exists p l w d, nearest g i name p l w d /\ (l = 0%Z \/ w = WLoop \/ (w = WParam /\ ~ is_closure g p)) /\ r = NOk d) \/
    (meaningless g i name /\ r = NErr N_declaration i) \/
    (exists p l d, nearest g i name p l WLocal d /\ l <> 0%Z /\ r = NErr N_grab_variable i) \/
    (exists p l d, nearest g i name p l WParam d /\ l <> 0%Z /\ is_closure g p /\ r = NErr N_grab_argument i).

  Definition none_before (k : nat) : Prop := forall k' c' p' l', k' < k -> outwards g i k' c' p' l' -> forall w' d', ~ binds g c' p' name w' d'.
  Lemma none_next : forall k c p l, none_before k -> outwards g i k c p l -> (forall w d, ~ binds g c p name w d) -> none_before (S k).
  Proof.
    intros k c p l N O B k' c' p' l' L O'. destruct (Nat.eq_dec k' k) as [-> | NE].
    - destruct (outwards_fun _ _ _ _ _ _ _ O O') as (-> & -> & ->). auto.
    - eapply N; eauto. lia.
  Qed.
  Lemma outwards_prev : forall k c p l, outwards g i (S k) c p l -> exists c' l', outwards g i k c' c l'.
  Proof. intros k c p l O. inversion O; subst; eauto. Qed.
  Lemma none_ever : forall k, none_before (S k) -> (forall c p l, ~ outwards g i (S k) c p l) -> meaningless g i name.
  Proof.
    intros k N S k' c p l w d O B. destruct (le_lt_dec k' k) as [L|L].
    - eapply N; [|exact O|exact B]. lia.
    - clear B. revert c p l O. induction k' as [|k' IH]; intros c p l O; [lia|]. destruct (Nat.eq_dec k' k) as [-> | NE]; [eapply S; eauto|].
      destruct (outwards_prev _ _ _ _ O) as (c' & l' & O'). eapply IH; [lia|exact O'].
  Qed.

  Definition left_over (p : nat) (l : Z) : Z := match nth_error g p with Some n => if is_kind (f_kind n) K_Closure then (l - 1)%Z else l | None => l end.

  Lemma search_spec : forall fuel k c p l, outwards g i k c p l -> p < fuel -> none_before k ->
    (is_closure g p -> l <> 0%Z /\ forall a, ~ parameter g p name a) ->
    verdict (search fuel g i x c p (left_over p l)).
  Proof.
    induction fuel as [|fuel IH]; intros k c p l O L N CL; [lia|].
    destruct (outwards_child _ _ _ _ O) as (pn & P & IC). pose proof (outwards_pos _ _ _ _ O) as POS.
    cbn [search]. rewrite (at_some _ _ _ P). cbn [nbind].
    assert (is_decl_loop (f_kind pn) || is_decl_un_loop (f_kind pn) || is_in_loop (f_kind pn) = true \/
            is_decl_loop (f_kind pn) || is_decl_un_loop (f_kind pn) || is_in_loop (f_kind pn) = false) as LP by (destruct (is_decl_loop (f_kind pn) || is_decl_un_loop (f_kind pn) || is_in_loop (f_kind pn)); auto).
    assert ((loops_over g p name /\ (if is_decl_loop (f_kind pn) || is_decl_un_loop (f_kind pn) || is_in_loop (f_kind pn) then
        match f_name x with None => NPanic | Some y => NOk (existsb (String.eqb y) (x_names (f_data pn))) end else NOk false) = NOk true) \/
      (~ loops_over g p name /\ (if is_decl_loop (f_kind pn) || is_decl_un_loop (f_kind pn) || is_in_loop (f_kind pn) then
        match f_name x with None => NPanic | Some y => NOk (existsb (String.eqb y) (x_names (f_data pn))) end else NOk false) = NOk false)) as HERE.
    { destruct LP as [LP|LP]; rewrite LP.
      - rewrite NAME. apply looping_iff in LP. destruct (existsb (String.eqb name) (x_names (f_data pn))) eqn:E.
        + left. split; auto. exists pn. split; auto. split; auto. apply existsb_exists in E as (y & Y & E). apply String.eqb_eq in E. now subst.
        + right. split; auto. intros (n & A & _ & B). rewrite P in A. injection A as <-. assert (existsb (String.eqb name) (x_names (f_data pn)) = true).
          { apply existsb_exists. exists name. split; auto. apply String.eqb_refl. } congruence.
      - right. split; auto. intros (n & A & B & _). rewrite P in A. injection A as <-. apply looping_iff in B. congruence. }
    destruct HERE as [[LO ->]|[NL ->]]; cbn [nbind].
    { left. exists p, l, WLoop, p. split; [|auto]. exists k, c. split; auto. split; [now constructor|auto]. }
    destruct (before_spec c (f_children pn) IC (to_nodup _ (sf_tree _ FIT) _ _ P)) as (a & r & C & ->). cbn [nbind].
    assert (forall j, In j (rev a) -> exists n, nth_error g j = Some n) as INA.
    { intros j J. rewrite <- in_rev in J. destruct (to_child _ (sf_tree _ FIT) _ _ j P) as (jn & A & _); [rewrite C; apply in_app_iff; auto|eauto]. }
    assert (0 <= left_over p l)%Z as POS'.
    { unfold left_over. rewrite P. destruct (is_kind (f_kind pn) K_Closure) eqn:K; auto. apply is_kind_true in K. destruct CL as [CL _]; [exists pn; auto|]. lia. }
    destruct (search_before_spec (left_over p l) (rev a) INA POS') as [[-> NB]|(u & j & v & it & RV & HN & NB & ->)]; cbn [nbind].
    2: { (* a statement before *)
      assert (a = rev v ++ j :: rev u) as A. { rewrite <- (rev_involutive a), RV, rev_app_distr. simpl. rewrite <- app_assoc. reflexivity. }
      assert (f_kind pn <> K_Closure) as NC.
      { intros K. destruct HN as [HN _]. eapply (sf_closure _ FIT p pn a c r j it); eauto. rewrite A. apply in_app_iff. right. now left. }
      assert (left_over p l = l) as LE. { unfold left_over. rewrite P. apply is_kind_false in NC. now rewrite NC. }
      assert (local_before g c p name it) as LB.
      { exists pn, (rev v), j, (rev u), r. split; auto. split; [rewrite C, A, <- app_assoc; reflexivity|]. destruct HN as [H1 H2]. split; auto. split; auto.
        intros j' it' J I HN'. rewrite <- in_rev in J. apply (NB j' it' J). split; auto. }
      rewrite LE. assert (nearest g i name p l WLocal it) as NR by (exists k, c; split; auto; split; [now constructor|auto]).
      destruct (Z.eqb_spec l 0); cbn [nbind].
      - left. exists p, l, WLocal, it. auto.
      - right; right; left. exists p, l, it. auto. }
    pose proof (local_named c p pn a r P C NB) as NLOC.
    destruct (f_parent pn) as [q|] eqn:Q.
    2: { (* the root *)
      pose proof (sf_item _ FIT i x p pn ITEM KIND (outwards_above _ _ _ _ O) P Q) as K.
      unfold from_args. rewrite (at_some _ _ _ P). cbn [nbind]. rewrite K. cbn [is_kind negb orb]. rewrite NAME. 
      assert (forall j, In j (f_children pn) -> exists n, nth_error g j = Some n) as INC.
      { intros j J. destruct (to_child _ (sf_tree _ FIT) _ _ j P J) as (jn & A & _); eauto. }
      change (negb (is_kind K_Fn K_Fn || is_kind K_Fn K_Closure)) with false. cbv iota.
      destruct (search_args_spec (f_children pn) INC) as [[-> NP]|(u & j & v & E & IP & NP & ->)]; cbn [nbind].
      - right; left. split; auto. assert (none_before (S k)) as N'.
        { apply (none_next k c p l); auto. intros w d B. inversion B as [B1|it B1 B2|aa B1 B2 B3]; subst; [auto|eapply NLOC; eauto|].
          destruct B3 as (n & u & v & B4 & _ & B5 & B6 & _). rewrite P in B4. injection B4 as <-. apply (NP d); auto. rewrite B5. apply in_app_iff. right. now left. }
        apply (none_ever k); auto. intros c' p' l' O'. inversion O'; subst; match goal with H : outwards g i k _ c' _ |- _ => destruct (outwards_fun _ _ _ _ _ _ _ O H) as (-> & -> & ->) end; congruence.
      - left. exists p, l, WParam, j. split; [|split; auto].
        + exists k, c. split; auto. split; auto. constructor; auto. exists pn, u, v. split; auto.
        + right; right. split; auto. intros (n & A & B). congruence. }
    (* outwards *)
    pose proof (io_parent _ (sf_order _ FIT) _ _ _ P Q) as QP. destruct (to_parent _ (sf_tree _ FIT) _ _ _ P Q) as (qn & QN & PQ).
    rewrite (at_some _ _ _ QN). cbn [nbind].
    assert (outwards g i (S k) p q (asked g q (left_over p l))) as O'.
    { unfold left_over. rewrite P. destruct (is_kind (f_kind pn) K_Closure) eqn:K.
      - apply is_kind_true in K. eapply Ow_closure; eauto. apply CL. exists pn; auto.
      - apply is_kind_false in K. eapply Ow_step; eauto. }
    assert ((if is_kind (f_kind qn) K_Grab then if (x_grab (f_data qn) =? 0)%Z then 1%Z else x_grab (f_data qn) else left_over p l) = asked g q (left_over p l)) as ->.
    { unfold asked. rewrite QN. destruct (is_kind (f_kind qn) K_Grab); auto. pose proof (sf_level _ FIT _ _ QN). destruct (Z.eqb_spec (x_grab (f_data qn)) 0); lia. }
    set (l' := asked g q (left_over p l)) in *.
    assert (none_before (S k)) as N'.
    { apply (none_next k c p l); auto. intros w d B. inversion B as [B1|it B1 B2|aa B1 B2 B3]; subst; [auto|eapply NLOC; eauto|].
      destruct B3 as (n & u & v & B4 & B4' & B5 & B6 & B7). rewrite P in B4. injection B4 as <-. destruct B4' as [B4'|B4'].
      - pose proof (sf_fn _ FIT _ _ P B4'). congruence.
      - destruct CL as [_ CL]; [exists pn; auto|]. apply (CL d). exists pn, u, v. split; auto. }
    destruct (is_kind (f_kind qn) K_Closure) eqn:K.
    2: { replace l' with (left_over q l') by (unfold left_over; now rewrite QN, K). apply (IH (S k) p q l'); auto; [lia|]. intros (n & A & B). rewrite QN in A. injection A as <-. apply is_kind_true in B. congruence. }
    pose proof K as K'. apply is_kind_true in K'.
    assert (forall j, In j (f_children qn) -> exists n, nth_error g j = Some n) as INC.
    { intros j J. destruct (to_child _ (sf_tree _ FIT) _ _ j QN J) as (jn & A & _); eauto. }
    assert (~ loops_over g q name) as NLQ.
    { intros (n & A & B & _). rewrite QN in A. injection A as <-. rewrite K' in B. unfold looping in B. simpl in B. repeat (destruct B as [B|B]; [discriminate|]). contradiction. }
    assert (forall it, ~ local_before g p q name it) as NLOCQ.
    { intros it (n & u & j & m & r' & A & B & C' & _). rewrite QN in A. injection A as <-.
      apply (sf_closure _ FIT q qn (u ++ j :: m) p r' j it); auto; [rewrite B, <- app_assoc; reflexivity|]. apply in_app_iff. right. now left. }
    assert (forall u j v, f_children qn = u ++ j :: v -> is_parameter g j name -> (forall j', In j' u -> ~ is_parameter g j' name) -> nearest g i name q l' WParam j) as PAR.
    { intros u j v E IP NP. exists (S k), p. split; auto. split; auto. constructor; auto. exists qn, u, v. split; auto. }
    assert ((forall j, In j (f_children qn) -> ~ is_parameter g j name) -> forall a, ~ parameter g q name a) as NOPAR.
    { intros NP b (n & u & v & B4 & _ & B5 & B6 & _). rewrite QN in B4. injection B4 as <-. apply (NP b); auto. rewrite B5. apply in_app_iff. right. now left. }
    destruct (Z.eqb_spec l' 0) as [Z0|NZ].
    - unfold from_args. rewrite (at_some _ _ _ QN). cbn [nbind]. rewrite K, orb_true_r. cbn [negb]. rewrite NAME.
      destruct (search_args_spec (f_children qn) INC) as [[-> NP]|(u & j & v & E & IP & NP & ->)]; cbn [nbind].
      + right; left. split; auto. assert (none_before (S (S k))) as N2.
        { apply (none_next (S k) p q l'); auto. intros w d B. inversion B as [B1|it B1 B2|aa B1 B2 B3]; subst; [auto|eapply NLOCQ; eauto|eapply NOPAR; eauto]. }
        apply (none_ever (S k)); auto. intros c' p' l2 O2. inversion O2; subst; match goal with H : outwards g i (S k) _ c' _ |- _ => destruct (outwards_fun _ _ _ _ _ _ _ O' H) as (-> & -> & X) end; congruence.
      + left. exists q, l', WParam, j. split; eauto.
    - destruct (search_args_spec (f_children qn) INC) as [[-> NP]|(u & j & v & E & IP & NP & ->)]; cbn [nbind].
      + replace (l' - 1)%Z with (left_over q l') by (unfold left_over; now rewrite QN, K). apply (IH (S k) p q l'); auto; lia.
      + right; right; right. exists q, l', j. split; [eauto|]. split; auto. split; auto. exists qn; auto.
  Qed.
End Search.

(** ** One item *)
Lemma link_spec : forall g i x name, scopes_fit g -> nth_error g i = Some x -> f_kind x = K_Item -> f_name x = Some name -> name <> "return" ->
  exists p, f_parent x = Some p /\ verdict g i name (search (S (length g)) g i x i p 0).
Proof.
  intros g i x name FIT E K N NR. destruct (sf_within _ FIT _ _ E K) as (_ & p & pn & P & PN & G1 & G2).
  apply is_kind_false in G1. pose proof G2 as G3. apply is_kind_false in G3. exists p. split; auto.
  replace 0%Z with (left_over g p 0) by (unfold left_over; now rewrite PN, G3).
  apply (search_spec g i x name FIT N E K (S (length g)) 0); auto.
  + replace 0%Z with (asked g p 0) by (unfold asked; now rewrite PN, G1). econstructor; eauto.
  + apply nth_lt in PN. lia.
  + intros k' c' p' l' L. lia.
  + intros (n & A & B). congruence.
Qed.

(** ** The search looks at data, parents and children only *)
Definition strip (n : fnode) : fnode := FNode (f_data n) (f_parent n) (f_children n) None [].
Lemma bare_nth : forall g i, nth_error (bare g) i = option_map strip (nth_error g i).
Proof. intros. apply nth_error_map. Qed.
Lemma bare_at : forall g i, at_ (bare g) i = nbind (at_ g i) (fun n => NOk (strip n)).
Proof. intros. unfold at_. rewrite bare_nth. destruct (nth_error g i); reflexivity. Qed.
Lemma search_before_bare : forall g i x l js, search_before (bare g) i (strip x) l js = search_before g i x l js.
Proof.
  intros g i x l js. induction js as [|j js IH]; auto. cbn [search_before]. rewrite IH, bare_at. destruct (at_ g j) as [n| | |]; auto. cbn [nbind]. cbn [strip f_children].
  destruct (f_children n) as [|a r]; auto. rewrite bare_at. destruct (at_ g a) as [an| | |]; auto. cbn [nbind strip f_data f_children]. destruct (x_op (f_data an)) as [[]|]; auto.
  destruct (at_ (f_children an) 0) as [lf| | |]; auto. cbn [nbind]. rewrite bare_at. destruct (at_ g lf) as [ln| | |]; auto. cbn [nbind strip f_children].
  destruct (at_ (f_children ln) 0) as [it| | |]; auto. cbn [nbind]. rewrite bare_at. destruct (at_ g it) as [m| | |]; auto.
Qed.
Lemma search_args_bare : forall g x js, search_args (bare g) (strip x) js = search_args g x js.
Proof.
  intros g x js. induction js as [|j js IH]; auto. cbn [search_args]. rewrite IH, bare_at. destruct (at_ g j) as [n| | |]; auto.
Qed.
Lemma from_args_bare : forall g i x p, from_args (bare g) i (strip x) p = from_args g i x p.
Proof. intros. unfold from_args. rewrite bare_at. destruct (at_ g p) as [n| | |]; auto. cbn [nbind]. rewrite search_args_bare. reflexivity. Qed.
Lemma search_bare : forall fuel g i x c p l, search fuel (bare g) i (strip x) c p l = search fuel g i x c p l.
Proof.
  induction fuel as [|fuel IH]; intros; auto. cbn [search]. rewrite bare_at. destruct (at_ g p) as [pn| | |]; auto. cbn [nbind].
  change (f_kind (strip pn)) with (f_kind pn). change (f_name (strip x)) with (f_name x). change (f_data (strip pn)) with (f_data pn). change (f_children (strip pn)) with (f_children pn).
  change (f_parent (strip pn)) with (f_parent pn).
  match goal with |- nbind ?a _ = nbind ?a _ => destruct a as [[]| | |]; auto end. cbn [nbind].
  destruct (before c (f_children pn)); auto. cbn [nbind]. rewrite search_before_bare. destruct (search_before g i x l (rev a)) as [[it|]| | |]; auto. cbn [nbind].
  destruct (f_parent pn) as [q|]; [|apply from_args_bare]. rewrite bare_at. destruct (at_ g q) as [qn| | |]; auto. cbn [nbind].
  change (f_kind (strip qn)) with (f_kind qn). change (f_data (strip qn)) with (f_data qn). change (f_children (strip qn)) with (f_children qn).
  rewrite from_args_bare, search_args_bare, !IH. destruct (is_kind (f_kind qn) K_Closure); auto.
Qed.
Lemma search_same : forall g g' i x x' fuel c p l, bare g = bare g' -> nth_error g i = Some x -> nth_error g' i = Some x' ->
  search fuel g i x c p l = search fuel g' i x' c p l.
Proof.
  intros g g' i x x' fuel c p l B E E'. rewrite <- (search_bare fuel g i x), <- (search_bare fuel g' i x'), B.
  assert (strip x = strip x') as ->; auto. assert (Some (strip x) = Some (strip x')) as X; [|congruence].
  change (Some (strip x)) with (option_map strip (Some x)). change (Some (strip x')) with (option_map strip (Some x')). rewrite <- E, <- E', <- !bare_nth. now rewrite B.
Qed.
Lemma bare_len : forall g, length (bare g) = length g.
Proof. intros. apply map_length. Qed.
Lemma bare_upd : forall g i f, (forall n, strip (f n) = strip n) -> bare (upd g i f) = bare g.
Proof.
  intros g i f H. apply nth_ext with (d := strip (FNode (blank K_Fn None) None [] None [])) (d' := strip (FNode (blank K_Fn None) None [] None [])).
  - rewrite !bare_len. apply upd_len.
  - intros j J. apply nth_error_nth' with (d := strip (FNode (blank K_Fn None) None [] None [])) in J as J'. 
    assert (nth_error (bare (upd g i f)) j = nth_error (bare g) j) as X.
    { rewrite !bare_nth, upd_nth. destruct (Nat.eqb_spec j i) as [-> | N]; auto. destruct (nth_error g i); auto. simpl. now rewrite H. }
    rewrite X in J'. symmetry. now apply nth_error_nth.
Qed.

(** ** All items *)
Lemma verdict_cases : forall g i x r, verdict g i x r -> (exists d, r = NOk d /\ refers g i x d) \/ (exists e, r = NErr e i /\ lacks g i x e).
Proof.
  intros g i x r [(p & l & w & d & A & B & C)|[(A & B)|[(p & l & d & A & B & C)|(p & l & d & A & B & C & D)]]].
  - left. exists d. split; auto. exists p, l, w. auto.
  - right. exists N_declaration. split; auto. left. auto.
  - right. exists N_grab_variable. split; auto. right; left. split; auto. exists p, l, d. auto.
  - right. exists N_grab_argument. split; auto. right; right. split; auto. exists p, l, d. auto.
Qed.
Lemma bare_data : forall g g' i n, bare g = bare g' -> nth_error g i = Some n -> exists n', nth_error g' i = Some n' /\ strip n' = strip n.
Proof.
  intros g g' i n B E. pose proof (bare_nth g i) as X. rewrite B, bare_nth, E in X. destruct (nth_error g' i) as [n'|]; [|discriminate].
  exists n'. split; auto. simpl in X. congruence.
Qed.
Lemma link_item_eq : forall g i x, nth_error g i = Some x -> link_item i g =
  if same_name (f_name x) (Some "return") then NOk g else
  match f_parent x with None => NPanic | Some p => nbind (search (S (length g)) g i x i p 0) (fun d => NOk (upd g i (with_decl d))) end.
Proof.
  intros g i x E. unfold link_item. rewrite (at_some _ _ _ E). cbn [nbind]. destruct (f_name x) as [y|]; [|reflexivity].
  unfold same_name. destruct (String.eqb_spec y "return") as [-> | N]; [reflexivity|].
  repeat match goal with |- context [match ?s with "" => _ | String _ _ => _ end] => destruct s; try reflexivity | |- context [match ?a with Ascii.Ascii _ _ _ _ _ _ _ _ => _ end] => destruct a end.
  all: repeat match goal with |- context [if ?b then _ else _] => destruct b; try reflexivity end.
  all: try contradiction.
Qed.

Lemma link_all : forall g0, scopes_fit g0 -> forall items g, bare g = bare g0 ->
  (forall i, In i items -> exists n, nth_error g0 i = Some n /\ f_kind n = K_Item) ->
  (exists g', each link_item items g = NOk g' /\ bare g' = bare g0 /\ (forall j, ~ In j items \/ has_name g0 j "return" -> nth_error g' j = nth_error g j) /\
     forall j x, In j items -> has_name g0 j x -> x <> "return" -> exists n d, nth_error g' j = Some n /\ f_decl n = Some d /\ refers g0 j x d) \/
  (exists e j x, each link_item items g = NErr e j /\ In j items /\ has_name g0 j x /\ x <> "return" /\ lacks g0 j x e).
Proof.
  intros g0 FIT. induction items as [|i items IH]; intros g B IT.
  { left. exists g. split; auto. split; auto. split; auto. contradiction. }
  destruct (IT i (or_introl eq_refl)) as (x0 & E0 & K0). destruct (bare_data _ g _ _ (eq_sym B) E0) as (x & E & SX).
  assert (forall i, In i items -> exists n, nth_error g0 i = Some n /\ f_kind n = K_Item) as IT' by (intros; apply IT; now right).
  assert (f_name x = f_name x0) as NX by (change (f_name x) with (f_name (strip x)); rewrite SX; reflexivity).
  assert (f_parent x = f_parent x0) as PX by (change (f_parent x) with (f_parent (strip x)); rewrite SX; reflexivity).
  destruct (sf_within _ FIT _ _ E0 K0) as (HN & _). destruct (f_name x0) as [name|] eqn:N0; [|contradiction].
  cbn [each]. rewrite (link_item_eq _ _ _ E), NX, PX.
  destruct (string_dec name "return") as [-> | NR].
  - assert (same_name (Some "return") (Some "return") = true) as -> by (apply same_name_iff; auto). cbn [nbind].
    destruct (IH g B IT') as [(g' & R & B' & O & L)|(e & j & y & R & J & A)].
    + left. exists g'. split; auto. split; auto. split; [intros j [J|J]; apply O; auto; left; intro; apply J; now right|].
      intros j y [<-|J] HY NY; auto. destruct HY as (n & A1 & A2). rewrite E0 in A1. injection A1 as <-. congruence.
    + right. exists e, j, y. split; auto. split; [now right|auto].
  - assert (same_name (Some name) (Some "return") = false) as ->.
    { destruct (same_name (Some name) (Some "return")) eqn:S; auto. apply same_name_iff in S. congruence. }
    destruct (link_spec g0 i x0 name FIT E0 K0 N0 NR) as (p & P & V). rewrite P. 
    assert (length g = length g0) as LG by (rewrite <- (bare_len g), B; apply bare_len).
    rewrite (search_same g g0 i x x0), LG; auto.
    destruct (verdict_cases _ _ _ _ V) as [(d & -> & RF)|(e & -> & LK)]; cbn [nbind].
    + assert (bare (upd g i (with_decl d)) = bare g0) as B1 by (rewrite bare_upd; auto).
      destruct (IH _ B1 IT') as [(g' & R & B' & O & L)|(e & j & y & R & J & A)].
      * left. exists g'. split; auto. split; auto. split.
        { intros j J. assert (j <> i) as NI.
          { intros ->. destruct J as [J|(n & A1 & A2)]; [apply J; now left|]. rewrite E0 in A1. injection A1 as <-. congruence. }
          rewrite O by (destruct J as [J|J]; auto; left; intro; apply J; now right). apply upd_other. auto. }
        intros j y [<-|J] HY NY; auto. destruct (in_dec Nat.eq_dec i items) as [I|I]; [auto|].
        exists (with_decl d x), d. split; [rewrite O by auto; apply upd_same; auto|]. split; auto.
        destruct HY as (n & A1 & A2). rewrite E0 in A1. injection A1 as <-. congruence.
      * right. exists e, j, y. split; auto. split; [now right|auto].
    + right. exists e, i, name. split; auto. split; [now left|]. split; [exists x0; auto|auto].
Qed.

(** ** Which items *)
Lemma declared_item_spec : forall g n o, declared_item g n = NOk o -> forall it, o = Some it <->
  exists l ln m, x_op (f_data n) = Some OpAssign /\ hd_error (f_children n) = Some l /\ nth_error g l = Some ln /\ hd_error (f_children ln) = Some it /\
    nth_error g it = Some m /\ ~ (f_kind m = K_Item /\ f_children m <> []).
Proof.
  intros g n o H it. unfold declared_item in H. destruct (x_op (f_data n)) as [op|] eqn:O; [|injection H as <-; split; [discriminate|intros (l & ln & m & A & _); discriminate]].
  assert (op <> OpAssign -> o = None) as X. { intros NE. destruct op; try congruence; injection H as <-; auto. }
  assert (op = OpAssign \/ op <> OpAssign) as [-> | NE] by (destruct op; (left; reflexivity) || (right; discriminate)).
  2: { rewrite (X NE). split; [discriminate|intros (l & ln & m & A & _); congruence]. }
  clear X. destruct (f_children n) as [|l r]; [injection H as <-; split; [discriminate|intros (l & ln & m & _ & A & _); discriminate]|].
  unfold at_ in H. destruct (nth_error g l) as [ln|] eqn:L; [|discriminate]. cbn [nbind] in H. destruct (f_children ln) as [|it' r'] eqn:C.
  { injection H as <-. split; [discriminate|]. intros (l' & ln' & m & _ & A & B & D & _). injection A as <-. rewrite L in B. injection B as <-. rewrite C in D. discriminate. }
  destruct (nth_error g it') as [m|] eqn:M; [|discriminate]. cbn [nbind] in H. injection H as <-.
  assert (f_item_ids m = true <-> (f_kind m = K_Item /\ f_children m <> [])) as IDS.
  { unfold f_item_ids. rewrite andb_true_iff, is_kind_true. destruct (f_children m); intuition congruence. }
  destruct (f_item_ids m) eqn:F.
  - split; [discriminate|]. intros (l' & ln' & m' & _ & A & B & D & E & G). injection A as <-. rewrite L in B. injection B as <-. rewrite C in D. injection D as <-.
    rewrite M in E. injection E as <-. exfalso. apply G. now apply IDS.
  - split.
    + intros A. injection A as <-. exists l, ln, m. split; auto. split; auto. split; auto. split; [now rewrite C|]. split; auto. intros G. apply IDS in G. congruence.
    + intros (l' & ln' & m' & _ & A & B & D & E & G). injection A as <-. rewrite L in B. injection B as <-. rewrite C in D. injection D as <-. reflexivity.
Qed.
Lemma declared_items_spec : forall g L l, declared_items g L = NOk l -> forall it, In it l <-> exists n, In n L /\ declared_item g n = NOk (Some it).
Proof.
  induction L as [|n L IH]; intros l H it; cbn [declared_items] in H.
  - injection H as <-. split; [contradiction|intros (n & [] & _)].
  - destruct (declared_item g n) as [o| | |] eqn:D; try discriminate. cbn [nbind] in H. destruct (declared_items g L) as [r| | |] eqn:R; try discriminate. cbn [nbind] in H. injection H as <-.
    specialize (IH r eq_refl it). split.
    + intros I. destruct o as [j|]; [destruct I as [->|I]|]; [exists n; split; [now left|auto]|..]; apply IH in I as (m & M1 & M2); exists m; split; auto; now right.
    + intros (m & [->|M1] & M2).
      * rewrite D in M2. injection M2 as ->. now left.
      * destruct o; [right|]; apply IH; eauto.
Qed.
Lemma of_kind_spec : forall g P i, In i (of_kind g P) <-> exists n, nth_error g i = Some n /\ P (f_kind n) = true.
Proof.
  intros g P i. unfold of_kind. rewrite in_map_iff. split.
  - intros ([j n] & <- & H). apply filter_In in H as [H1 H2]. simpl in *. exists n. split; auto.
    assert (forall k (h : fgraph), In (j, n) (combine (seq k (length h)) h) -> k <= j /\ nth_error h (j - k) = Some n) as X.
    { intros k h. revert k. induction h as [|a h IH]; intros k I; [contradiction|]. destruct I as [I|I].
      - injection I as <- <-. rewrite Nat.sub_diag. auto.
      - apply IH in I as [A B]. split; [lia|]. replace (j - k) with (S (j - S k)) by lia. auto. }
    destruct (X 0 g H1) as [_ Y]. now rewrite Nat.sub_0_r in Y.
  - intros (n & E & K). exists (i, n). split; auto. apply filter_In. split; auto.
    assert (forall k (h : fgraph) j, nth_error h j = Some n -> In (k + j, n) (combine (seq k (length h)) h)) as X.
    { intros k h. revert k. induction h as [|a h IH]; intros k [|j] A; try discriminate; simpl in *.
      - injection A as ->. left. f_equal. lia.
      - right. replace (k + S j) with (S k + j) by lia. auto. }
    exact (X 0 g i E).
Qed.
Lemma declared_items_each : forall g L l, declared_items g L = NOk l -> forall n, In n L -> exists o, declared_item g n = NOk o.
Proof.
  induction L as [|m L IH]; intros l H n I; [contradiction|]. cbn [declared_items] in H.
  destruct (declared_item g m) as [o| | |] eqn:D; try discriminate. cbn [nbind] in H. destruct (declared_items g L) as [r| | |] eqn:R; try discriminate.
  destruct I as [<-|I]; eauto.
Qed.
Lemma used_items_spec : forall g l, used_items g = NOk l -> forall i, In i l <-> (exists n, nth_error g i = Some n /\ f_kind n = K_Item) /\ ~ declared g i.
Proof.
  intros g l H i. unfold used_items in H. destruct (declared_items g g) as [ds| | |] eqn:D; try discriminate. cbn [nbind] in H. destruct (negb (ascending ds)); [discriminate|]. injection H as <-.
  rewrite filter_In, of_kind_spec. setoid_rewrite is_kind_true. 
  assert (In i ds <-> declared g i) as X.
  { rewrite (declared_items_spec _ _ _ D). split.
    - intros (n & I & E). apply In_nth_error in I as [a A].
      destruct (proj1 (declared_item_spec _ _ _ E i) eq_refl) as (l & ln & m & B1 & B2 & B3 & B4 & B5 & B6). exists a, n, l, ln, m. auto 10.
    - intros (a & an & l & ln & n & A & B1 & B2 & B3 & B4 & B5 & B6). exists an. apply nth_error_In in A. split; auto.
      destruct (declared_items_each _ _ _ D _ A) as [o O]. rewrite O. f_equal. apply (declared_item_spec _ _ _ O). exists l, ln, n. auto 10. }
  split; intros [A B]; split; auto.
  - intros C. apply X in C. apply negb_true_iff in B. assert (existsb (Nat.eqb i) ds = true) as Y; [|congruence].
    apply existsb_exists. exists i. split; auto. apply Nat.eqb_refl.
  - apply negb_true_iff. destruct (existsb (Nat.eqb i) ds) eqn:Y; auto. apply existsb_exists in Y as (j & J & Q). apply Nat.eqb_eq in Q. subst j.
    exfalso. apply B, X, J.
Qed.

(** ** A name has one meaning *)
Lemma outwards_det : forall g i k c p l c' p' l', outwards g i k c p l -> outwards g i k c' p' l' -> c = c' /\ p = p' /\ l = l'.
Proof.
  induction k as [|k IH]; intros c p l c' p' l' A B; inversion A; inversion B; subst.
  - assert (p = p') by congruence. subst. auto.
  - match goal with H : outwards g i k _ c _, G : outwards g i k _ c' _ |- _ => destruct (IH _ _ _ _ _ _ H G) as (-> & -> & ->) end. assert (p = p') by congruence. subst. auto.
  - match goal with H : outwards g i k _ c _, G : outwards g i k _ c' _ |- _ => destruct (IH _ _ _ _ _ _ H G) as (-> & -> & ->) end. congruence.
  - match goal with H : outwards g i k _ c _, G : outwards g i k _ c' _ |- _ => destruct (IH _ _ _ _ _ _ H G) as (-> & -> & ->) end. congruence.
  - match goal with H : outwards g i k _ c _, G : outwards g i k _ c' _ |- _ => destruct (IH _ _ _ _ _ _ H G) as (-> & -> & ->) end. assert (p = p') by congruence. subst. auto.
Qed.
Lemma first_unique : forall {A} (Q : A -> Prop) l j m l' j' m', l ++ j :: m = l' ++ j' :: m' -> Q j -> Q j' ->
  (forall a, In a l -> ~ Q a) -> (forall a, In a l' -> ~ Q a) -> j = j'.
Proof.
  intros A Q. induction l as [|a l IH]; intros j m [|a' l'] j' m' E H1 H2 H3 H4; injection E as -> E; auto.
  - exfalso. apply (H4 a'); auto. now left.
  - exfalso. apply (H3 j'); auto. now left.
  - eapply IH; eauto; intros; [apply H3|apply H4]; now right.
Qed.
Lemma prefix_unique : forall {A} (c : A) l r l' r', l ++ c :: r = l' ++ c :: r' -> NoDup (l ++ c :: r) -> l = l'.
Proof.
  intros A c. induction l as [|a l IH]; intros r [|a' l'] r' E N; auto; injection E as E1 E2; subst.
  - inversion_clear N. exfalso. apply H. apply in_elt.
  - simpl in N. inversion_clear N. exfalso. apply H. apply in_elt.
  - f_equal. simpl in N. inversion_clear N. eauto.
Qed.
Lemma binds_fun : forall g c p x w d w' d', tree_ok g -> binds g c p x w d -> binds g c p x w' d' -> w = w' /\ d = d'.
Proof.
  intros g c p x w d w' d' T A B. inversion A; inversion B; subst; try contradiction; split; auto; try solve [exfalso; match goal with H : forall it, ~ local_before _ _ _ _ it, G : local_before _ _ _ _ _ |- _ => eapply H; exact G end].
  - match goal with H1 : local_before _ _ _ _ d, H2 : local_before _ _ _ _ d' |- _ => rename H1 into L1; rename H2 into L2 end.
    destruct L1 as (n & l & j & m & r & N & C & I & HN & X). destruct L2 as (n' & l' & j' & m' & r' & N' & C' & I' & HN' & X').
    rewrite N in N'. injection N' as <-.
    assert (l ++ j :: m = l' ++ j' :: m') as E.
    { apply (prefix_unique c _ r _ r'); rewrite <- !app_assoc; simpl; [congruence|]. rewrite <- C. apply (to_nodup _ T _ _ N). }
    assert (j = j').
    { apply (first_unique (fun j => exists it, introduces g j it /\ has_name g it x) (rev m) j (rev l) (rev m') j' (rev l')); eauto.
      - apply (f_equal (@rev nat)) in E. rewrite !rev_app_distr in E. simpl in E. rewrite <- !app_assoc in E. exact E.
      - intros a I1 (it & I2 & I3). rewrite <- in_rev in I1. eapply X; eauto.
      - intros a I1 (it & I2 & I3). rewrite <- in_rev in I1. eapply X'; eauto. }
    subst j'. eapply introduces_fun; eauto.
  - match goal with H1 : parameter _ _ _ d, H2 : parameter _ _ _ d' |- _ => rename H1 into L1; rename H2 into L2 end.
    destruct L1 as (n & l & r & N & _ & C & I & X). destruct L2 as (n' & l' & r' & N' & _ & C' & I' & X'). rewrite N in N'. injection N' as <-.
    apply (first_unique (fun a => is_parameter g a x) l d r l' d' r'); auto. congruence.
Qed.
Lemma nearest_fun : forall g i x p l w d p' l' w' d', tree_ok g -> nearest g i x p l w d -> nearest g i x p' l' w' d' -> p = p' /\ l = l' /\ w = w' /\ d = d'.
Proof.
  intros g i x p l w d p' l' w' d' T (k & c & O & B & N) (k' & c' & O' & B' & N').
  destruct (Nat.lt_trichotomy k k') as [L|[<-|L]].
  - exfalso. eapply N'; eauto.
  - destruct (outwards_det _ _ _ _ _ _ _ _ _ O O') as (<- & <- & <-). destruct (binds_fun _ _ _ _ _ _ _ _ T B B') as [<- <-]. auto.
  - exfalso. eapply N; eauto.
Qed.
Lemma refers_fun : forall g i x d d', tree_ok g -> refers g i x d -> refers g i x d' -> d = d'.
Proof. intros g i x d d' T (p & l & w & N & _) (p' & l' & w' & N' & _). apply (nearest_fun _ _ _ _ _ _ _ _ _ _ _ T N N'). Qed.
Lemma refers_lacks : forall g i x d e, tree_ok g -> refers g i x d -> lacks g i x e -> False.
Proof.
  intros g i x d e T (p & l & w & N & C) [(_ & M)|[(_ & p' & l' & d' & N' & L)|(_ & p' & l' & d' & N' & L & CL)]].
  - destruct N as (k & c & O & B & _). eapply M; eauto.
  - destruct (nearest_fun _ _ _ _ _ _ _ _ _ _ _ T N N') as (-> & -> & -> & ->). destruct C as [C|[C|[C _]]]; congruence.
  - destruct (nearest_fun _ _ _ _ _ _ _ _ _ _ _ T N N') as (-> & -> & -> & ->). destruct C as [C|[C|[_ C]]]; congruence.
Qed.

(** ** Names *)
Lemma str_assoc : forall a b c : string, ((a ++ b) ++ c = a ++ (b ++ c))%string.
Proof. induction a as [|x a IH]; intros b c; simpl; [reflexivity|now rewrite IH]. Qed.
Lemma concat_head : forall s t l, String.concat "," ((s ++ t)%string :: l) = (s ++ String.concat "," (t :: l))%string.
Proof. intros s t [|a l]; [reflexivity|]. cbn [String.concat]. now rewrite str_assoc. Qed.
Lemma concat_fold : forall l s, fold_left (fun s b => (s ++ "," ++ mark b)%string) l s = String.concat "," (s :: map mark l).
Proof.
  induction l as [|b l IH]; intros s; [reflexivity|]. cbn [fold_left map]. rewrite IH, concat_head.
  change (String.concat "," (s :: mark b :: map mark l)) with (s ++ "," ++ String.concat "," (mark b :: map mark l))%string. f_equal.
  change ("," ++ mark b)%string with ("," ++ mark b)%string. now rewrite concat_head.
Qed.
Lemma marked_name : forall x l, l <> [] -> mut_name x l = marked x l.
Proof. intros x [|b l] N; [congruence|]. unfold mut_name, marked. rewrite concat_fold. reflexivity. Qed.

Definition rename (l : list string) (n : fnode) : fnode := with_data (with_names l) n.
Definition when_named (i : nat) (n : fnode) : nat :=
  match f_kind n, f_parent n with K_Item, Some p => p | _, _ => i end.
Definition names_until (g0 : fgraph) (k i : nat) (n : fnode) : list string := if when_named i n <? k then new_names g0 i n else x_names (f_data n).
Definition naming (g0 : fgraph) (k : nat) (g : fgraph) : Prop :=
  length g = length g0 /\ forall i n, nth_error g0 i = Some n -> nth_error g i = Some (rename (names_until g0 k i n) n).
Lemma rename_same : forall n, rename (x_names (f_data n)) n = n.
Proof. intros [[] ? ? ? ?]. reflexivity. Qed.
Lemma rename_twice : forall l l' n, rename l (rename l' n) = rename l n.
Proof. intros l l' [[] ? ? ? ?]. reflexivity. Qed.
Lemma naming_kind : forall g0 k g, naming g0 k g -> forall i n, nth_error g0 i = Some n -> exists n', nth_error g i = Some n' /\ f_kind n' = f_kind n /\
  f_children n' = f_children n /\ f_parent n' = f_parent n /\ x_mut (f_data n') = x_mut (f_data n) /\ f_data n' = with_names (names_until g0 k i n) (f_data n).
Proof. intros g0 k g [_ N] i n E. exists (rename (names_until g0 k i n) n). rewrite (N _ _ E). auto 10. Qed.

Lemma find_kind_first : forall g0 k g l, naming g0 k g -> (forall c, In c l -> exists n, nth_error g0 c = Some n) ->
  find_kind g K_Item l = NOk (find (fun c => match nth_error g0 c with Some m => is_kind (f_kind m) K_Item | None => false end) l).
Proof.
  intros g0 k g l N. induction l as [|c l IH]; intros H; [reflexivity|]. cbn [find_kind find].
  destruct (H c (or_introl eq_refl)) as [n E]. destruct (naming_kind _ _ _ N _ _ E) as (n' & E' & K & _). rewrite E, (at_some _ _ _ E'). cbn [nbind]. rewrite K.
  destruct (is_kind (f_kind n) K_Item); auto. apply IH. intros; apply H; now right.
Qed.
Lemma mut_args_marks : forall g0 k g n, naming g0 k g -> (forall c, In c (f_children n) -> exists n, nth_error g0 c = Some n) ->
  mut_args g (f_children n) = NOk (marks g0 n).
Proof.
  intros g0 k g n N. unfold marks. induction (f_children n) as [|c l IH]; intros H; [reflexivity|]. cbn [mut_args flat_map].
  destruct (H c (or_introl eq_refl)) as [m E]. destruct (naming_kind _ _ _ N _ _ E) as (n' & E' & K & _ & _ & M & _). rewrite E, (at_some _ _ _ E'). cbn [nbind].
  rewrite IH by (intros; apply H; now right). cbn [nbind]. rewrite K, M. destruct (f_kind m); reflexivity.
Qed.
Lemma naming_start : forall g, naming g 0 g.
Proof.
  intros g. split; auto. intros i n E. unfold names_until. simpl. rewrite rename_same. auto.
Qed.
Lemma until_other : forall g0 k i n, when_named i n <> k -> names_until g0 (S k) i n = names_until g0 k i n.
Proof. intros g0 k i n N. unfold names_until. destruct (Nat.ltb_spec (when_named i n) (S k)), (Nat.ltb_spec (when_named i n) k); auto; lia. Qed.
Lemma until_now : forall g0 k i n, when_named i n = k -> names_until g0 (S k) i n = new_names g0 i n /\ names_until g0 k i n = x_names (f_data n).
Proof. intros g0 k i n <-. unfold names_until. rewrite Nat.ltb_irrefl. destruct (Nat.ltb_spec (when_named i n) (S (when_named i n))); auto; lia. Qed.
(** only one node, or one and its first item, get new names *)
Lemma naming_next : forall g0 k g, naming g0 k g -> (forall i n, nth_error g0 i = Some n -> when_named i n = k -> new_names g0 i n = x_names (f_data n)) -> naming g0 (S k) g.
Proof.
  intros g0 k g [L N] H. split; auto. intros i n E. rewrite (N _ _ E). do 2 f_equal. destruct (Nat.eq_dec (when_named i n) k) as [W|W].
  - destruct (until_now g0 _ _ _ W) as [-> ->]. symmetry. auto.
  - symmetry. now apply until_other.
Qed.
Lemma when_item : forall g0 k k0 i n, tree_ok g0 -> nth_error g0 k = Some k0 -> nth_error g0 i = Some n -> when_named i n = k ->
  (i = k /\ (f_kind n = K_Item -> f_parent n = None)) \/ (f_kind n = K_Item /\ f_parent n = Some k).
Proof.
  intros g0 k k0 i n T E0 E W. unfold when_named in W.
  assert (f_kind n = K_Item \/ f_kind n <> K_Item) as [K|K] by (destruct (is_kind (f_kind n) K_Item) eqn:I; [left; now apply is_kind_true|right; now apply is_kind_false]).
  - rewrite K in W. destruct (f_parent n) as [p|] eqn:P; [subst; right; auto|left; split; auto].
  - left. split; [|congruence]. destruct (f_kind n); auto; congruence.
Qed.

Lemma name_at_spec : forall g0 k g, tree_ok g0 -> names_fit g0 -> naming g0 k g -> k < length g0 -> exists g', name_at k g = NOk g' /\ naming g0 (S k) g'.
Proof.
  intros g0 k g T F N L. destruct (nth_ex _ _ L) as [n E]. destruct (naming_kind _ _ _ N _ _ E) as (x & X & KX & CX & PX & MX & DX).
  assert (forall c, In c (f_children n) -> exists m, nth_error g0 c = Some m) as CH.
  { intros c C. destruct (to_child _ T _ _ _ E C) as (m & M & _). eauto. }
  (* the second part *)
  assert (In (f_kind n) [K_Fn; K_Call; K_CallClosure] -> forall h, length h = length g0 ->
    (forall i m, nth_error g0 i = Some m -> nth_error h i = Some (rename (if i =? k then x_names (f_data m) else names_until g0 (S k) i m) m)) ->
    exists g', (nbind (at_ h k) (fun x => nbind (mut_args h (f_children x)) (fun ms =>
      if existsb id ms then match f_name x with None => NPanic | Some y => NOk (upd h k (with_data (with_names [mut_name y ms]))) end else NOk h))) = NOk g' /\ naming g0 (S k) g') as PART.
  { intros KIN h LH H. pose proof (H _ _ E) as HE. rewrite Nat.eqb_refl, rename_same in HE. rewrite (at_some _ _ _ HE). cbn [nbind].
    assert (mut_args h (f_children n) = NOk (marks g0 n)) as ->.
    { unfold marks. clear - CH H. induction (f_children n) as [|c l IH]; [reflexivity|]. cbn [mut_args flat_map].
      destruct (CH c (or_introl eq_refl)) as [m M]. rewrite M, (at_some _ _ _ (H _ _ M)). cbn [nbind]. rewrite IH by (intros; apply CH; now right). cbn [nbind].
      unfold f_kind, is_arg. cbn. destruct (x_kind (f_data m)); reflexivity. }
    cbn [nbind]. assert (when_named k n = k) as WK by (unfold when_named; destruct KIN as [K|[K|[K|[]]]]; rewrite <- K; reflexivity).
    assert (new_names g0 k n = if existsb id (marks g0 n) then match x_names (f_data n) with y :: _ => [marked y (marks g0 n)] | [] => [] end else x_names (f_data n)) as NN.
    { unfold new_names. destruct KIN as [K|[K|[K|[]]]]; rewrite <- K; reflexivity. }
    destruct (existsb id (marks g0 n)) eqn:EX.
    - assert (In true (marks g0 n)) as IT by (apply existsb_exists in EX as (b & B1 & B2); unfold id in B2; congruence).
      pose proof (nf_marked _ F _ _ E KIN IT) as HN. unfold f_name in *. destruct (x_names (f_data n)) as [|y r] eqn:NM; [simpl in HN; congruence|]. simpl.
      eexists. split; [reflexivity|]. split; [rewrite upd_len; auto|]. intros i m M. rewrite upd_nth. destruct (Nat.eqb_spec i k) as [-> | NE].
      + rewrite (H _ _ M), Nat.eqb_refl. rewrite E in M. injection M as <-. cbn [option_map]. f_equal. fold (rename [mut_name y (marks g0 n)] (rename (x_names (f_data n)) n)).
        rewrite rename_twice. f_equal. destruct (until_now g0 _ _ _ WK) as [-> _]. rewrite NN. f_equal. apply marked_name. intros Z. rewrite Z in IT. contradiction.
      + rewrite (H _ _ M). apply Nat.eqb_neq in NE. now rewrite NE.
    - exists h. split; auto. split; auto. intros i m M. rewrite (H _ _ M). do 2 f_equal. destruct (Nat.eqb_spec i k) as [-> | NE]; auto.
      rewrite E in M. injection M as <-. destruct (until_now g0 _ _ _ WK) as [-> _]. now rewrite NN. }
  assert (In (f_kind n) [K_Fn; K_Call; K_CallClosure] -> (forall i m, nth_error g0 i = Some m -> f_kind m = K_Item -> f_parent m = Some k -> new_names g0 i m = x_names (f_data m)) ->
     forall i m, nth_error g0 i = Some m -> nth_error g i = Some (rename (if i =? k then x_names (f_data m) else names_until g0 (S k) i m) m)) as SAME.
  { intros KIN H i m M. destruct N as [_ N]. rewrite (N _ _ M). do 2 f_equal. destruct (Nat.eqb_spec i k) as [-> | NE].
    - rewrite E in M. injection M as <-. assert (when_named k n = k) as WK by (unfold when_named; destruct KIN as [K|[K|[K|[]]]]; rewrite <- K; reflexivity).
      apply until_now with (1 := WK).
    - destruct (Nat.eq_dec (when_named i m) k) as [W|W]; [|symmetry; now apply until_other].
      destruct (when_item g0 k n i m T E M W) as [[? _]|[KI PI]]; [congruence|]. destruct (until_now g0 _ _ _ W) as [-> ->]. symmetry. auto. }
  assert (f_kind n <> K_CallClosure -> forall i m, nth_error g0 i = Some m -> f_kind m = K_Item -> f_parent m = Some k -> new_names g0 i m = x_names (f_data m)) as NOTC.
  { intros NC i m M KI PI. unfold new_names. rewrite KI. unfold word_of. rewrite PI, E. destruct (f_children m); auto. destruct (f_kind n); try reflexivity. congruence. }
  unfold name_at. rewrite (at_some _ _ _ X). cbn [nbind]. rewrite KX.
  assert (f_kind n = K_CallClosure \/ (f_kind n = K_Fn \/ f_kind n = K_Call) \/ ~ In (f_kind n) [K_Fn; K_Call; K_CallClosure]) as [K|[K|K]].
  { destruct (f_kind n); auto; right; right; intros [?|[?|[?|[]]]]; discriminate. }
  - rewrite K. assert (In (f_kind n) [K_Fn; K_Call; K_CallClosure]) as KIN by (rewrite K; simpl; auto).
    assert (when_named k n = k) as WK by (unfold when_named; rewrite K; reflexivity).
    assert (f_name x = f_name n) as NX by (unfold f_name; rewrite DX; destruct (until_now g0 _ _ _ WK) as [_ ->]; destruct (f_data n); reflexivity).
    rewrite NX. destruct (f_name n) as [w|] eqn:FN.
    + destruct (nf_word _ F _ _ _ E K FN) as (it & m & FI & M & HM). rewrite CX, (find_kind_first _ _ _ _ N CH). fold (first_item g0 n). rewrite FI. cbn [nbind].
      destruct (naming_kind _ _ _ N _ _ M) as (m' & M' & KM & CM & PM & _ & DM). rewrite (at_some _ _ _ M'). cbn [nbind]. rewrite CM.
      assert (In it (f_children n) /\ f_kind m = K_Item) as [IT KI].
      { unfold first_item in FI. apply find_some in FI as [I1 I2]. rewrite M in I2. split; auto. now apply is_kind_true. }
      assert (f_parent m = Some k) as PM0. { destruct (to_child _ T _ _ _ E IT) as (m2 & M2 & P2). congruence. }
      assert (when_named it m = k) as WM by (unfold when_named; rewrite KI, PM0; reflexivity).
      assert (forall i m1, nth_error g0 i = Some m1 -> f_kind m1 = K_Item -> f_parent m1 = Some k -> i <> it \/ f_children m <> [] -> new_names g0 i m1 = x_names (f_data m1)) as REST.
      { intros i m1 M1 K1 P1 O. unfold new_names. rewrite K1. unfold word_of. rewrite P1, E, K, FI. destruct (f_children m1) eqn:C1; auto.
        destruct (Nat.eqb_spec it i) as [<-|NE]; auto. rewrite M in M1. injection M1 as <-. destruct O; congruence. }
      destruct (f_children m) as [|c0 cs] eqn:CM0.
      * rewrite DM. destruct (until_now g0 _ _ _ WM) as [NW ->]. destruct (f_data m) as [? ? nm ? ? ? ? ? ? ?] eqn:DD. cbn [x_names with_names].
        specialize (HM eq_refl). unfold f_name in HM. rewrite DD in HM. cbn in HM. destruct nm as [|y r]; [simpl in HM; congruence|]. cbn [nbind].
        apply PART; auto; [rewrite upd_len; apply N|]. intros i m1 M1. rewrite upd_nth. destruct (Nat.eqb_spec i it) as [-> | NE].
        -- rewrite M in M1. injection M1 as <-. rewrite M'. cbn [option_map]. f_equal. destruct (Nat.eqb_spec it k) as [-> | NK]; [congruence|].
           rewrite NW. destruct N as [_ N]. rewrite (N _ _ M) in M'. injection M' as <-.
           fold (rename ((y ++ "__" ++ w)%string :: r) (rename (names_until g0 k it m) m)). rewrite rename_twice. f_equal.
           unfold new_names. rewrite KI. unfold word_of. rewrite PM0, E, K, FI, CM0, Nat.eqb_refl, FN, DD. reflexivity.
        -- destruct N as [_ N]. rewrite (N _ _ M1). do 2 f_equal. destruct (Nat.eqb_spec i k) as [-> | NE'].
           ++ rewrite E in M1. injection M1 as <-. apply until_now with (1 := WK).
           ++ destruct (Nat.eq_dec (when_named i m1) k) as [W|W]; [|symmetry; now apply until_other].
              destruct (when_item g0 k n i m1 T E M1 W) as [[? _]|[KI' PI]]; [congruence|]. destruct (until_now g0 _ _ _ W) as [-> ->]. symmetry. apply REST; auto.
      * cbn [nbind]. apply PART; auto; [apply N|]. apply SAME; auto. intros i m1 M1 K1 P1. apply REST; auto. right. discriminate.
    + cbn [nbind]. apply PART; auto; [apply N|]. apply SAME; auto. intros i m M KI PI. unfold new_names. rewrite KI. unfold word_of. rewrite PI, E, K.
      destruct (f_children m); auto. destruct (first_item g0 n) as [it|]; auto. destruct (it =? i); auto. rewrite FN. reflexivity.
  - assert (In (f_kind n) [K_Fn; K_Call; K_CallClosure]) as KIN by (destruct K as [-> | ->]; simpl; auto).
    destruct (PART KIN g (proj1 N) (SAME KIN (NOTC (ltac:(destruct K as [-> | ->]; discriminate))))) as (g' & R & Y). exists g'. split; auto.
    destruct K as [-> | ->]; exact R.
  - exists g. split.
    + destruct (f_kind n); try reflexivity; exfalso; apply K; simpl; auto.
    + apply naming_next; auto. intros i m M W. destruct (when_item g0 k n i m T E M W) as [[-> HI]|[KI PI]].
      * rewrite E in M. injection M as <-. unfold new_names. destruct (f_kind n) eqn:KK; try reflexivity; try (exfalso; apply K; simpl; now auto).
        unfold word_of. rewrite (HI eq_refl). destruct (f_children n); reflexivity.
      * apply NOTC; auto. intros C. apply K. rewrite C. simpl. auto.
Qed.
Lemma name_all_spec : forall g, tree_ok g -> names_fit g -> exists g', name_all g = NOk g' /\ length g' = length g /\
  forall i n, nth_error g i = Some n -> nth_error g' i = Some (rename (new_names g i n) n).
Proof.
  intros g T F. unfold name_all.
  assert (forall m k h, naming g k h -> k + m = length g -> exists g', each name_at (seq k m) h = NOk g' /\ naming g (length g) g') as X.
  { induction m as [|m IH]; intros k h N L.
    - exists h. split; auto. rewrite Nat.add_0_r in L. now subst.
    - cbn [seq each]. destruct (name_at_spec g k h T F N) as (h' & R & N'); [lia|]. rewrite R. cbn [nbind]. apply IH; auto. lia. }
  destruct (X (length g) 0 g (naming_start g) eq_refl) as (g' & R & L & N). exists g'. split; auto. split; auto. intros i n E. rewrite (N _ _ E). do 2 f_equal.
  unfold names_until. assert (when_named i n < length g) as W; [|apply Nat.ltb_lt in W; now rewrite W].
  unfold when_named. destruct (f_kind n); try solve [eapply nth_lt; eauto]. destruct (f_parent n) as [p|] eqn:P; [|eapply nth_lt; eauto].
  destruct (to_parent _ T _ _ _ E P) as (pn & PN & _). eapply nth_lt; eauto.
Qed.
