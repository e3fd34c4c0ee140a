(** * Lemmas about the lifetime checker. *)
From Coq Require Import String List Bool Arith Lia.
From Verif Require Import Syntax LifetimeModel LifetimeSpec.
Import ListNotations.
Local Open Scope string_scope.
Local Open Scope nat_scope.
Local Open Scope list_scope.

(** ** Comparison *)

Definition share (a b : list nat) : Prop := exists x, In x a /\ In x b.

Lemma cao_some : forall a b, share a b -> compare_argument_outlives a b = Some (length a ?= length b).
Proof.
  intros a b (x & Ia & Ib). unfold compare_argument_outlives.
  replace (existsb (fun i => existsb (Nat.eqb i) b) a) with true; auto.
  symmetry. apply existsb_exists. exists x. split; auto. apply existsb_exists. exists x. split; auto. apply Nat.eqb_refl.
Qed.
Lemma cao_inv : forall a b c, compare_argument_outlives a b = Some c -> share a b /\ c = (length a ?= length b).
Proof.
  intros a b c H. unfold compare_argument_outlives in H.
  destruct (existsb (fun i => existsb (Nat.eqb i) b) a) eqn:E; [|discriminate].
  apply existsb_exists in E. destruct E as (x & Ia & E). apply existsb_exists in E. destruct E as (y & Ib & E).
  apply Nat.eqb_eq in E. subst y. split; [exists x; auto|congruence].
Qed.
Lemma share_sym : forall a b, share a b -> share b a.
Proof. intros a b (x & A & B). exists x. auto. Qed.

Lemma cao_sym : forall a b, compare_argument_outlives b a = option_map CompOpp (compare_argument_outlives a b).
Proof.
  intros a b. destruct (compare_argument_outlives a b) eqn:E.
  - apply cao_inv in E. destruct E as [S ->]. rewrite (cao_some b a) by (apply share_sym; auto). cbn.
    rewrite Nat.compare_antisym. auto.
  - destruct (compare_argument_outlives b a) eqn:F; auto. apply cao_inv in F. destruct F as [S _].
    rewrite (cao_some a b) in E by (apply share_sym; auto). discriminate.
Qed.
Lemma cmp_sym : forall a b, partial_cmp b a = option_map CompOpp (partial_cmp a b).
Proof.
  intros [x|x|x|x] [y|y|y|y]; cbn [partial_cmp]; auto.
  - destruct x, y; auto using cao_sym.
  - apply cao_sym.
  - cbn. f_equal. apply Nat.compare_antisym.
  - rewrite (Nat.eqb_sym y x). destruct (x =? y); auto.
Qed.

(** ** Chains of arguments *)

Section Chains.
Variable nodes : list node.
Variable m : arg_names.
Hypothesis PR : proper nodes m.

Inductive chain : bool -> list nat -> Prop :=
| ch_end c n : nth_error nodes c = Some n -> n_lifetime n = None -> chain false [c]
| ch_ret c n : nth_error nodes c = Some n -> n_lifetime n = Some "return" -> chain true [c]
| ch_step b c n l p c' j rest : nth_error nodes c = Some n -> n_lifetime n = Some l -> l <> "return" ->
    n_parent n = Some p -> arg_get m p l = Some (c', j) -> chain b (c' :: rest) -> chain b (c :: c' :: rest).

Lemma chain_det : forall b1 l1, chain b1 l1 -> forall b2 l2, chain b2 l2 -> hd_error l1 = hd_error l2 -> b1 = b2 /\ l1 = l2.
Proof.
  induction 1 as [c n N L|c n N L|b c n l p c' j rest N L D P G C IH]; intros b2 l2 H2 E;
    inversion H2 as [c2 n2 N2 L2|c2 n2 N2 L2|b0 c2 n2 l2' p2 c2' j2 rest2 N2 L2 D2 P2 G2 C2]; subst; cbn in E; inversion E; subst;
    rewrite N in N2; inversion N2; subst; try (split; congruence); try (rewrite L in L2; inversion L2; subst; congruence).
  rewrite L in L2. inversion L2; subst. rewrite P in P2. inversion P2; subst. rewrite G in G2. inversion G2; subst.
  destruct (IH _ _ C2) as [-> ->]; auto.
Qed.
Lemma chain_suffix : forall b l, chain b l -> forall x, In x l -> exists pre post, l = pre ++ x :: post /\ chain b (x :: post).
Proof.
  induction 1 as [c n N L|c n N L|b c n l p c' j rest N L D P G C IH]; intros x I.
  - destruct I as [<-|[]]. exists [], []. split; auto. eapply ch_end; eauto.
  - destruct I as [<-|[]]. exists [], []. split; auto. eapply ch_ret; eauto.
  - destruct I as [<-|I].
    + exists [], (c' :: rest). split; auto. eapply ch_step; eauto.
    + destruct (IH x I) as (pre & post & E & C2). exists (c :: pre), post. split; auto. rewrite E. auto.
Qed.
Lemma share_last : forall b1 l1 b2 l2, chain b1 l1 -> chain b2 l2 -> share l1 l2 -> b1 = b2 /\ last l1 0 = last l2 0.
Proof.
  intros b1 l1 b2 l2 C1 C2 (x & I1 & I2). destruct (chain_suffix _ _ C1 x I1) as (p1 & q1 & -> & D1).
  destruct (chain_suffix _ _ C2 x I2) as (p2 & q2 & -> & D2). destruct (chain_det _ _ D1 _ _ D2) as [-> E]; auto.
  inversion E; subst. split; auto. clear. 
  assert (forall p (q : list nat), last (p ++ x :: q) 0 = last (x :: q) 0) as H.
  { induction p as [|a p IH]; intros q; auto. change ((a :: p) ++ x :: q) with (a :: (p ++ x :: q)).
    destruct (p ++ x :: q) eqn:E; [destruct p; discriminate|]. rewrite <- E. rewrite <- (IH q). rewrite E. auto. }
  rewrite !H. auto.
Qed.
Lemma chain_last_in : forall b l, chain b l -> In (last l 0) l.
Proof.
  intros b l C. assert (l <> []) as NE by (inversion C; congruence). clear C.
  induction l as [|a l IH]; [congruence|]. destruct l as [|c l]; [left; auto|]. right. apply IH. congruence.
Qed.
Lemma last_share : forall b1 l1 b2 l2, chain b1 l1 -> chain b2 l2 -> last l1 0 = last l2 0 -> share l1 l2.
Proof. intros. exists (last l1 0). split; [eapply chain_last_in; eauto|]. rewrite H1. eapply chain_last_in; eauto. Qed.

Lemma arg_loop_chain : forall fuel p name acc r, arg_loop fuel nodes m p name acc = LOk r ->
  exists b l c j, arg_get m p name = Some (c, j) /\ hd_error l = Some c /\ chain b l /\
    r = (if b then Return else Argument) (rev acc ++ l).
Proof.
  induction fuel as [|fuel IH]; intros p name acc r H; cbn [arg_loop] in H; [discriminate|].
  destruct (arg_get m p name) as [[c j]|] eqn:G; [|discriminate].
  destruct (PR _ _ _ _ G) as (n & N & P). rewrite N in H.
  destruct (n_lifetime n) as [l|] eqn:L.
  - destruct (String.eqb_spec l "return").
    + subst. inversion H; subst. exists true, [c], c, j. repeat split; auto. eapply ch_ret; eauto.
    + destruct (IH _ _ _ _ H) as (b & l2 & c2 & j2 & G2 & Hd & C & ->). destruct l2 as [|x l2]; [discriminate|]. inversion Hd; subst x.
      exists b, (c :: c2 :: l2), c, j. repeat split; auto; [eapply ch_step; eauto|]. cbn [rev]. rewrite <- app_assoc. auto.
  - inversion H; subst. exists false, [c], c, j. repeat split; auto. eapply ch_end; eauto.
Qed.
Lemma arg_lifetime_chain : forall fuel d n r, nth_error nodes d = Some n -> arg_lifetime fuel d n nodes m = LOk r ->
  exists b l, chain b l /\ hd_error l = Some d /\ r = (if b then Return else Argument) l.
Proof.
  intros fuel d n r N H. unfold arg_lifetime in H. destruct (n_lifetime n) as [l|] eqn:L.
  - destruct (String.eqb_spec l "return").
    + subst. inversion H; subst. exists true, [d]. repeat split. eapply ch_ret; eauto.
    + destruct (n_parent n) as [p|] eqn:P; [|discriminate].
      destruct (arg_loop_chain _ _ _ _ _ H) as (b & l2 & c2 & j2 & G2 & Hd & C & ->). destruct l2 as [|x l2]; [discriminate|]. inversion Hd; subst x.
      exists b, (d :: c2 :: l2). repeat split. eapply ch_step; eauto.
  - inversion H; subst. exists false, [d]. repeat split. eapply ch_end; eauto.
Qed.

(** At least as long. *)
Definition geq (a b : lifetime) : Prop := partial_cmp a b = Some Gt \/ partial_cmp a b = Some Eq.

Lemma arg_kind : forall r, lifetime_of nodes m r ->
  match r with
  | Argument l => chain false l
  | Return l => l = [] \/ chain true l
  | _ => True
  end.
Proof.
  intros r [i|i| |fuel d n l N A]; auto. destruct (arg_lifetime_chain _ _ _ _ N A) as (b & l2 & C & Hd & ->). destruct b; auto.
Qed.
Lemma cao_trans : forall b l1 l2 l3 c1 c2, chain b l1 -> chain b l2 -> chain b l3 ->
  compare_argument_outlives l1 l2 = Some c1 -> compare_argument_outlives l2 l3 = Some c2 ->
  compare_argument_outlives l1 l3 = Some (length l1 ?= length l3) /\ c1 = (length l1 ?= length l2) /\ c2 = (length l2 ?= length l3).
Proof.
  intros b l1 l2 l3 c1 c2 C1 C2 C3 H1 H2. apply cao_inv in H1. apply cao_inv in H2. destruct H1 as [S1 ->], H2 as [S2 ->].
  split; auto. apply cao_some. destruct (share_last _ _ _ _ C1 C2 S1) as [_ E1]. destruct (share_last _ _ _ _ C2 C3 S2) as [_ E2].
  eapply last_share; eauto. congruence.
Qed.
Ltac cmp_solve := repeat match goal with
  | H : Some _ = Some _ |- _ => inversion H; clear H; subst
  | H : Some _ = None |- _ => discriminate
  | H : None = Some _ |- _ => discriminate
  | H : (?x ?= ?y) = _ |- _ => first [apply Nat.compare_eq_iff in H | apply Nat.compare_gt_iff in H | apply Nat.compare_lt_iff in H]
  end.
Lemma cmp_trans : forall a b c x y, lifetime_of nodes m a -> lifetime_of nodes m b -> lifetime_of nodes m c ->
  partial_cmp a b = Some x -> partial_cmp b c = Some y -> x <> Lt -> y <> Lt ->
  partial_cmp a c = Some (match x, y with Eq, Eq => Eq | _, _ => Gt end).
Proof.
  intros a b c x y Ka Kb Kc H1 H2 Dx Dy. apply arg_kind in Ka. apply arg_kind in Kb. apply arg_kind in Kc.
  assert (forall i j k : nat, forall x y, (i ?= j) = x -> (j ?= k) = y -> x <> Lt -> y <> Lt ->
            (i ?= k) = match x, y with Eq, Eq => Eq | _, _ => Gt end) as N3.
  { intros i j k u v U V Du Dv. destruct u, v; try congruence; cmp_solve; subst; try apply Nat.compare_refl; apply Nat.compare_gt_iff; lia. }
  destruct a as [a|a|a|a], b as [b|b|b|b]; cbn [partial_cmp] in H1; try discriminate;
    destruct c as [c|c|c|c]; cbn [partial_cmp] in *; try discriminate; try (cmp_solve; congruence).
  - destruct a as [|a1 a], b as [|b1 b], c as [|c1 c]; try (cmp_solve; congruence).
    + destruct Ka as [?|Ka]; [discriminate|]. cbn in H1. apply cao_inv in H1. destruct H1 as [_ ->]. inversion H2; subst. destruct (length (a1 :: a) ?= length (b1 :: b)); congruence.
    + destruct Ka as [?|Ka]; [discriminate|]. destruct Kb as [?|Kb]; [discriminate|]. destruct Kc as [?|Kc]; [discriminate|].
      destruct (cao_trans _ _ _ _ _ _ Ka Kb Kc H1 H2) as (-> & E1 & E2). f_equal. eapply N3; eauto.
  - inversion H2; subst. destruct a, b, x; congruence.
  - destruct (cao_trans _ _ _ _ _ _ Ka Kb Kc H1 H2) as (-> & E1 & E2). f_equal. eapply N3; eauto.
  - inversion H2; subst. destruct x; congruence.
  - inversion H1; inversion H2; subst. f_equal. destruct (b ?= a) eqn:E1; try congruence; destruct (c ?= b) eqn:E2; try congruence;
      cmp_solve; subst; try apply Nat.compare_refl; apply Nat.compare_gt_iff; lia.
  - destruct (a =? b); [|discriminate]. inversion H1; inversion H2; subst. auto.
  - destruct (Nat.eqb_spec a b); [|discriminate]. subst. destruct (b =? c); [|discriminate]. cmp_solve. auto.
Qed.
End Chains.

(** ** Signatures *)

Lemma F2_nth : forall A B (R : A -> B -> Prop) l1 l2, Forall2 R l1 l2 -> forall i a, nth_error l1 i = Some a -> exists b, nth_error l2 i = Some b /\ R a b.
Proof. induction 1; intros [|i] w N; try discriminate; cbn in *; [inversion N; subst; eauto|eauto]. Qed.
Lemma F2_nth2 : forall A B (R : A -> B -> Prop) l1 l2, Forall2 R l1 l2 -> forall i b, nth_error l2 i = Some b -> exists a, nth_error l1 i = Some a /\ R a b.
Proof. induction 1; intros [|i] w N; try discriminate; cbn in *; [inversion N; subst; eauto|eauto]. Qed.
Lemma F2_len : forall A B (R : A -> B -> Prop) l1 l2, Forall2 R l1 l2 -> length l1 = length l2.
Proof. induction 1; cbn; auto. Qed.
Lemma nth_in_split : forall A (l : list A) i x, nth_error l i = Some x -> In x l.
Proof. intros. eapply nth_error_In; eauto. Qed.

Section Sig.
Variable nodes : list node.

Lemma dup_args_ok : forall f args s, has_sig nodes f args s -> forall seen,
  (NoDup (map fst s) /\ (forall x, In x seen -> ~ In x (map fst s)) /\ dup_args nodes seen args = AOk tt) \/
  (~ (NoDup (map fst s) /\ (forall x, In x seen -> ~ In x (map fst s))) /\ exists i, dup_args nodes seen args = AErr (ADuplicate i)).
Proof.
  induction 1 as [|c [x l] args s (n & N & K & P & Nm & L) H IH]; intros seen; cbn [dup_args map fst].
  - left. repeat split; auto. constructor.
  - rewrite N. cbn [fst] in Nm. rewrite Nm. destruct (existsb (String.eqb x) seen) eqn:E.
    + apply existsb_exists in E. destruct E as (y & I & E). apply String.eqb_eq in E. subst y. right. split; [|eauto].
      intros [_ D]. apply (D x I). left. auto.
    + assert (~ In x seen) as NI. { intros I. assert (existsb (String.eqb x) seen = true); [|congruence]. apply existsb_exists. exists x. split; auto. apply String.eqb_refl. }
      destruct (IH (x :: seen)) as [(ND & D & E2)|(NG & i & E2)].
      * left. rewrite E2. repeat split; auto.
        { constructor; auto. apply D. left. auto. }
        { intros y I [->|I2]; [congruence|]. apply (D y); [right; auto|auto]. }
      * right. rewrite E2. split; [|eauto]. intros [ND D]. apply NG. inversion ND; subst. split; auto.
        intros y [<-|I]; auto. intros I2. apply (D y I). right. auto.
Qed.

(** The map knows exactly the arguments of [f]. *)
Definition knows (f : nat) (args : list nat) (s : sig) (m : arg_names) : Prop :=
  forall x c j, arg_get m f x = Some (c, j) <-> nth_error args j = Some c /\ exists l, nth_error s j = Some (x, l).

Fixpoint entries (f : nat) (args : list nat) (s : sig) (j : nat) : arg_names :=
  match args, s with
  | c :: args, (x, _) :: s => ((f, x), (c, j)) :: entries f args s (S j)
  | _, _ => []
  end.
Lemma add_args_ok : forall f args s, has_sig nodes f args s -> forall j m, add_args nodes f args j m = AOk (rev (entries f args s j) ++ m).
Proof.
  induction 1 as [|c [x l] args s (n & N & K & P & Nm & L) H IH]; intros j m; cbn [add_args entries rev]; auto.
  rewrite N. cbn [fst] in Nm. rewrite Nm, IH, <- app_assoc. auto.
Qed.
Lemma arg_get_app : forall m1 m2 f x, arg_get (m1 ++ m2) f x = match arg_get m1 f x with Some r => Some r | None => arg_get m2 f x end.
Proof. induction m1 as [|[[g y] r] m1 IH]; intros; cbn; auto. destruct ((g =? f) && (y =? x)%string); auto. Qed.
Lemma arg_get_rev : forall m f x r, NoDup (map fst m) -> (arg_get (rev m) f x = Some r <-> In ((f, x), r) m).
Proof.
  induction m as [|[[g y] r0] m IH]; intros f x r ND; cbn [rev map fst] in *; [cbn; split; [discriminate|tauto]|].
  inversion ND as [|? ? NI ND2]; subst. rewrite arg_get_app. destruct (arg_get (rev m) f x) as [r1|] eqn:E.
  - apply (IH f x r1 ND2) in E. split; [intros H; inversion H; subst; right; auto|].
    intros [H|H]; [inversion H; subst; exfalso; apply NI; apply in_map_iff; exists ((f, x), r1); auto|].
    apply (IH f x r ND2) in H. apply (IH f x r1 ND2) in E. congruence.
  - cbn. destruct ((g =? f) && (y =? x)%string) eqn:E2.
    + apply andb_true_iff in E2. destruct E2 as [E2 E3]. apply Nat.eqb_eq in E2. apply String.eqb_eq in E3. subst.
      split; [intros H; inversion H; left; auto|]. intros [H|H]; [inversion H; auto|]. apply (IH f x r ND2) in H. congruence.
    + split; [discriminate|]. intros [H|H]; [inversion H; subst; rewrite Nat.eqb_refl, String.eqb_refl in E2; discriminate|].
      apply (IH f x r ND2) in H. congruence.
Qed.
Lemma entries_in : forall f args s, length args = length s -> forall j g x c k,
  In ((g, x), (c, k)) (entries f args s j) <-> g = f /\ exists i l, k = j + i /\ nth_error args i = Some c /\ nth_error s i = Some (x, l).
Proof.
  induction args as [|c0 args IH]; intros [|[x0 l0] s] HL j g x c k; try discriminate; cbn [entries].
  - split; [intros []|]. intros (_ & i & l & _ & H & _). destruct i; discriminate.
  - cbn [In]. rewrite (IH s (eq_add_S _ _ HL) (S j) g x c k). split.
    + intros [H|(-> & i & l & -> & A & B)].
      * inversion H; subst. split; auto. exists 0, l0. repeat split; auto; lia.
      * split; auto. exists (S i), l. repeat split; auto; lia.
    + intros (-> & [|i] & l & -> & A & B); cbn in A, B.
      * left. inversion A; inversion B; subst. rewrite Nat.add_0_r. auto.
      * right. split; auto. exists i, l. repeat split; auto. lia.
Qed.
Lemma entries_keys : forall f args s, length args = length s -> forall j, map fst (entries f args s j) = map (fun x => (f, x)) (map fst s).
Proof. induction args as [|c args IH]; intros [|[x l] s] HL j; try discriminate; cbn; auto. f_equal. apply IH. auto. Qed.
Lemma arg_get_other : forall f args s, length args = length s -> forall j g x, g <> f -> arg_get (rev (entries f args s j)) g x = None.
Proof.
  intros f args s HL j g x D. destruct (arg_get (rev (entries f args s j)) g x) as [r|] eqn:E; auto. exfalso.
  assert (exists r, In ((g, x), r) (entries f args s j)) as (r2 & I).
  { clear D HL. revert E. generalize (entries f args s j) as m. intros m E. exists r. apply in_rev. revert E. generalize (rev m). clear.
    induction l as [|[[h y] q] l IH]; cbn; [discriminate|]. destruct ((h =? g) && (y =? x)%string) eqn:E; [|intros; right; auto].
    apply andb_true_iff in E. destruct E as [E1 E2]. apply Nat.eqb_eq in E1. apply String.eqb_eq in E2. subst. intros H. inversion H. left. auto. }
  destruct r2. apply entries_in in I; auto. destruct I as [-> _]. congruence.
Qed.
Lemma nodup_pair : forall (f : nat) (l : list string), NoDup l -> NoDup (map (fun x => (f, x)) l).
Proof.
  induction 1 as [|x l NI ND IH]; cbn; constructor; auto. intros I. apply in_map_iff in I. destruct I as (y & E & I). inversion E; subst. auto.
Qed.
Lemma entries_knows : forall f args s m, length args = length s -> NoDup (map fst s) -> (forall x, arg_get m f x = None) ->
  knows f args s (rev (entries f args s 0) ++ m).
Proof.
  intros f args s m HL ND NM x c j. rewrite arg_get_app.
  assert (NoDup (map fst (entries f args s 0))) as ND2.
  { rewrite entries_keys by auto. apply nodup_pair. auto. }
  pose proof (arg_get_rev (entries f args s 0) f x (c, j) ND2) as R. rewrite entries_in in R by auto.
  assert (arg_get (rev (entries f args s 0)) f x = Some (c, j) <-> nth_error args j = Some c /\ exists l, nth_error s j = Some (x, l)) as R2.
  { rewrite R. split; [intros (_ & i & l & -> & A & B); eauto|intros (A & l & B); split; auto; exists j, l; auto]. }
  rewrite <- R2. destruct (arg_get (rev (entries f args s 0)) f x) eqn:E; [tauto|]. rewrite NM. tauto.
Qed.

Section Fn.
Variable f : nat.
Variable args : list nat.
Variable s : sig.
Variable m : arg_names.
Hypothesis HS : has_sig nodes f args s.
Hypothesis ND : NoDup (map fst s).
Hypothesis KN : knows f args s m.

Lemma sig_node : forall j x l, nth_error s j = Some (x, l) -> exists c n, nth_error args j = Some c /\ nth_error nodes c = Some n /\
  n_name n = Some x /\ n_lifetime n = l /\ n_parent n = Some f.
Proof. intros j x l N. destruct (F2_nth2 _ _ _ _ _ HS _ _ N) as (c & Nc & n & Nn & K & P & A & B). exists c, n. auto. Qed.
Lemma arg_node : forall j c, nth_error args j = Some c -> exists x l n, nth_error s j = Some (x, l) /\ nth_error nodes c = Some n /\
  n_name n = Some x /\ n_lifetime n = l /\ n_parent n = Some f.
Proof. intros j c N. destruct (F2_nth _ _ _ _ _ HS _ _ N) as ([x l] & Nc & n & Nn & K & P & A & B). exists x, l, n. auto. Qed.

Lemma get_none : forall l, arg_get m f l = None <-> ~ In l (map fst s).
Proof.
  intros l. split.
  - intros G I. apply in_map_iff in I. destruct I as ([y o] & E & I). cbn in E. subst y. apply In_nth_error in I. destruct I as (j & Nj).
    destruct (sig_node _ _ _ Nj) as (c & n & A & B & _). assert (arg_get m f l = Some (c, j)) by (apply KN; eauto). congruence.
  - intros NI. destruct (arg_get m f l) as [[c j]|] eqn:G; auto. apply KN in G. destruct G as (_ & o & N). exfalso. apply NI.
    apply in_map_iff. exists (l, o). split; auto. eapply nth_error_In; eauto.
Qed.
Lemma known_args_ok : forall rest base, (forall k, nth_error rest k = nth_error args (base + k)) ->
  ((forall k x l, base <= k -> nth_error s k = Some (x, Some l) -> l <> "return" -> In l (map fst s)) /\ known_args nodes f rest m = AOk tt) \/
  (~ good_lifetimes s /\ exists c, known_args nodes f rest m = AErr (AMissing c)).
Proof.
  induction rest as [|c rest IH]; intros base HB; cbn [known_args].
  - left. split; auto. intros k x l Lk N _. destruct (sig_node _ _ _ N) as (c & _ & A & _). specialize (HB (k - base)).
    replace (base + (k - base)) with k in HB by lia. rewrite A in HB. destruct (k - base); discriminate.
  - pose proof (HB 0) as H0. rewrite Nat.add_0_r in H0. cbn in H0. symmetry in H0. destruct (arg_node _ _ H0) as (x & l & n & Ns & Nn & Nm & L & P).
    rewrite Nn, L. assert (forall k, nth_error rest k = nth_error args (S base + k)) as HB2.
    { intros k. specialize (HB (S k)). cbn in HB. rewrite HB. f_equal. lia. }
    assert (forall (B : Prop), B -> (B -> In (match l with Some l => l | None => x end) (map fst s) \/ l = None \/ l = Some "return") ->
       ((forall k x l, S base <= k -> nth_error s k = Some (x, Some l) -> l <> "return" -> In l (map fst s)) ->
       (forall k x l, base <= k -> nth_error s k = Some (x, Some l) -> l <> "return" -> In l (map fst s)))) as Ext.
    { intros B HBp HI G k y lk Lk N NR. destruct (Nat.eq_dec k base) as [->|D].
      - rewrite Ns in N. inversion N; subst. destruct (HI HBp) as [I|[I|I]]; [rewrite H2 in I; exact I|congruence|congruence].
      - apply (G k y lk); auto. lia. }
    destruct l as [l|]; [destruct (String.eqb_spec l "return")|].
    + subst l. destruct (IH _ HB2) as [[G E]|[NG E]]; [left|right; auto]. split; auto. apply (Ext True); auto.
    + destruct (arg_get m f l) eqn:G0.
      * destruct (IH _ HB2) as [[G E]|[NG E]]; [left|right; auto]. split; auto. apply (Ext True); auto. intros _. left.
        destruct p as [c' j']. apply KN in G0. destruct G0 as (_ & o & N2). apply in_map_iff. exists (l, o). split; auto. eapply nth_error_In; eauto.
      * right. split; [|eauto]. intros G. apply get_none in G0. apply G0. eapply G; eauto.
    + destruct (IH _ HB2) as [[G E]|[NG E]]; [left|right; auto]. split; auto. apply (Ext True); auto.
Qed.

(** The next argument. *)
Lemma declared_det : forall j k k', declared s j k -> declared s j k' -> k = k'.
Proof.
  intros j k k' (x & l & y & A & B & C) (x' & l' & y' & A' & B' & C'). rewrite A in A'. inversion A'; subst.
  assert (nth_error (map fst s) k = Some l') as E1 by (rewrite (map_nth_error fst _ _ C); auto).
  assert (nth_error (map fst s) k' = Some l') as E2 by (rewrite (map_nth_error fst _ _ C'); auto).
  eapply NoDup_nth_error; eauto; [|congruence]. apply nth_error_Some. congruence.
Qed.
Lemma dp_snoc : forall j k, declared_plus s j k -> forall k', declared s k k' -> declared_plus s j k'.
Proof. induction 1; intros; [eapply dp_more; eauto; constructor; auto|eapply dp_more; eauto]. Qed.
Lemma dp_trans : forall i j, declared_plus s i j -> forall k, declared_plus s j k -> declared_plus s i k.
Proof. induction 1; intros; [eapply dp_more; eauto|eapply dp_more; eauto]. Qed.

Lemma on_cycle_next : forall j, on_cycle s j -> exists k, declared s j k /\ on_cycle s k.
Proof.
  intros j H. inversion H as [a b D|a b c D P]; subst.
  - exists j. auto.
  - exists b. split; auto. unfold on_cycle. eapply dp_snoc; eauto.
Qed.
Lemma reaches_next : forall j, reaches_cycle s j -> exists k, declared s j k /\ reaches_cycle s k.
Proof.
  intros j [H|(k & P & H)].
  - destruct (on_cycle_next _ H) as (k & D & C). exists k. split; auto. left. auto.
  - inversion P as [a b D|a b c D P2]; subst; [exists k; split; auto; left; auto|]. exists b. split; auto. right. eauto.
Qed.
Lemma reaches_prev : forall j k, declared s j k -> reaches_cycle s k -> reaches_cycle s j.
Proof. intros j k D [H|(k' & P & H)]; right; [exists k; split; auto; constructor; auto|exists k'; split; auto; eapply dp_more; eauto]. Qed.

Lemma set_nth_len : forall A (l : list A) i x, length (set_nth l i x) = length l.
Proof. induction l; intros [|i] x; cbn; auto. Qed.
Lemma set_nth_same : forall A (l : list A) i x, i < length l -> nth_error (set_nth l i x) i = Some x.
Proof. induction l; intros [|i] x H; cbn in *; try lia; auto. apply IHl. lia. Qed.
Lemma set_nth_diff : forall A (l : list A) i j x, i <> j -> nth_error (set_nth l i x) j = nth_error l j.
Proof. induction l; intros [|i] [|j] x H; cbn; auto; try congruence. Qed.
Definition unseen (v : list bool) : nat := length (filter negb v).
Lemma unseen_set : forall v i, nth_error v i = Some false -> unseen v = S (unseen (set_nth v i true)).
Proof.
  unfold unseen. induction v as [|b v IH]; intros [|i] N; try discriminate; cbn in *; [inversion N; subst; cbn; auto|].
  destruct b; cbn; rewrite (IH _ N); auto.
Qed.

(** One run of the loop decides whether the argument leads into a cycle. *)
Lemma cyclic_loop_ok : forall fuel visited arg ind, nth_error args ind = Some arg -> length visited = length args ->
  good_lifetimes s -> (forall v, nth_error visited v = Some true -> declared_plus s v ind) -> unseen visited < fuel ->
  (cyclic_loop fuel nodes f m visited arg ind = AOk tt /\ ~ reaches_cycle s ind) \/
  ((exists c, cyclic_loop fuel nodes f m visited arg ind = AErr (ACyclic c)) /\ reaches_cycle s ind).
Proof.
  induction fuel as [|fuel IH]; intros visited arg ind Na LV GL Vis Fu; [lia|]. cbn [cyclic_loop].
  assert (ind < length visited) as LI by (rewrite LV; apply nth_error_Some; congruence).
  destruct (nth_error visited ind) as [[|]|] eqn:Nv; [..|apply nth_error_None in Nv; lia].
  - right. split; [eauto|]. left. apply Vis. auto.
  - destruct (arg_node _ _ Na) as (x & l & n & Ns & Nn & Nm & L & P). rewrite Nn, L.
    destruct l as [l|]; [destruct (String.eqb_spec l "return")|].
    + subst. left. split; auto. intros R. destruct (reaches_next _ R) as (k & (x' & l' & y & A & B & _) & _). rewrite Ns in A. inversion A. congruence.
    + pose proof (GL _ _ _ Ns n0) as I. destruct (arg_get m f l) as [[a i]|] eqn:G; [|apply get_none in G; contradiction].
      apply KN in G. destruct G as (Na2 & o & Ns2). assert (declared s ind i) as DC by (exists x, l, o; auto).
      destruct (IH (set_nth visited ind true) a i) as [[E R]|[E R]]; auto.
      * rewrite set_nth_len. auto.
      * intros v Nv2. destruct (Nat.eq_dec ind v) as [->|D]; [constructor; auto|]. rewrite set_nth_diff in Nv2 by auto. eapply dp_snoc; eauto.
      * rewrite (unseen_set _ _ Nv) in Fu. lia.
      * left. split; auto. intros R2. destruct (reaches_next _ R2) as (k & D & C). rewrite (declared_det _ _ _ D DC) in C. auto.
      * right. split; auto. eapply reaches_prev; eauto.
    + left. split; auto. intros R. destruct (reaches_next _ R) as (k & (x' & l' & y & A & B & _) & _). rewrite Ns in A. inversion A.
Qed.
(** Whatever the fuel, it does not accept a cycle. *)
Lemma cyclic_loop_sound : forall fuel visited arg ind, nth_error args ind = Some arg ->
  cyclic_loop fuel nodes f m visited arg ind = AOk tt -> ~ reaches_cycle s ind.
Proof.
  induction fuel as [|fuel IH]; intros visited arg ind Na E R; cbn [cyclic_loop] in E; [discriminate|].
  destruct (nth_error visited ind) as [[|]|]; try discriminate. destruct (arg_node _ _ Na) as (x & l & n & Ns & Nn & Nm & L & P). rewrite Nn, L in E.
  destruct (reaches_next _ R) as (k & (x' & l' & y & A & B & C) & RK). rewrite Ns in A. inversion A; subst. rewrite H1 in E.
  destruct (String.eqb_spec l' "return"); [congruence|]. destruct (arg_get m f l') as [[a i]|] eqn:G; [|discriminate].
  apply KN in G. destruct G as (Na2 & o & Ns2). apply (IH _ _ _ Na2 E). replace i with k; auto.
  apply (declared_det ind); [exists x', l', y|exists x', l', o]; repeat split; auto; congruence.
Qed.
Lemma cyclic_loop_ends : forall fuel visited name arg ind acc, arg_get m f name = Some (arg, ind) -> cyclic_loop fuel nodes f m visited arg ind = AOk tt ->
  exists r, arg_loop fuel nodes m f name acc = LOk r.
Proof.
  induction fuel as [|fuel IH]; intros visited name arg ind acc G E; cbn [cyclic_loop arg_loop] in *; [discriminate|]. rewrite G.
  destruct (nth_error visited ind) as [[|]|]; try discriminate. destruct (nth_error nodes arg) as [n|]; [|discriminate].
  destruct (n_lifetime n) as [l|]; [|eauto]. destruct (l =? "return")%string; [eauto|]. destruct (arg_get m f l) as [[a i]|] eqn:G2; [|discriminate].
  eapply IH; eauto.
Qed.
Lemma arg_loop_forever : forall fuel name j c acc, arg_get m f name = Some (c, j) -> reaches_cycle s j -> arg_loop fuel nodes m f name acc = LOof.
Proof.
  induction fuel as [|fuel IH]; intros name j c acc G R; cbn [arg_loop]; auto. rewrite G. apply KN in G. destruct G as (Na & o & Ns0).
  destruct (arg_node _ _ Na) as (x & l & n & Ns & Nn & Nm & L & P). rewrite Nn, L.
  destruct (reaches_next _ R) as (k & (x' & l' & y & A & B & C) & RK). rewrite Ns in A. inversion A as [[Ex El]]. clear A.
  destruct (String.eqb_spec l' "return"); [congruence|]. destruct (sig_node _ _ _ C) as (c2 & n2 & Na2 & _).
  eapply (IH l' k c2); auto. apply KN. eauto.
Qed.

(** No argument up to and including [i] has the lifetime ['return]. *)
Definition before_return (i : nat) : Prop := forall k x, k <= i -> nth_error s k <> Some (x, Some "return").

Lemma unseen_new : forall n, unseen (repeat false n) = n.
Proof. unfold unseen. induction n; cbn; auto. Qed.
Lemma new_unseen : forall n v, nth_error (repeat false n) v <> Some true.
Proof. intros n v E. apply nth_error_In in E. apply repeat_spec in E. discriminate. Qed.
Lemma cyclic_args_ok : forall fuel rest base, (forall k, nth_error rest k = nth_error args (base + k)) -> good_lifetimes s -> length args < fuel ->
  (forall k x, k < base -> nth_error s k <> Some (x, Some "return")) ->
  (cyclic_args fuel nodes f m (length args) rest = AOk tt /\ forall i, base <= i -> before_return i -> ~ reaches_cycle s i) \/
  ((exists c, cyclic_args fuel nodes f m (length args) rest = AErr (ACyclic c)) /\ exists i, base <= i /\ before_return i /\ reaches_cycle s i).
Proof.
  intros fuel. induction rest as [|c rest IH]; intros base HB GL HF BR; cbn [cyclic_args].
  - left. split; auto. intros i Li _ R. destruct (reaches_next _ R) as (k & (x & l & y & A & _) & _). destruct (sig_node _ _ _ A) as (c & n & Na & _).
    specialize (HB (i - base)). replace (base + (i - base)) with i in HB by lia. rewrite Na in HB. destruct (i - base); discriminate.
  - pose proof (HB 0) as H0. rewrite Nat.add_0_r in H0. cbn in H0. symmetry in H0. destruct (arg_node _ _ H0) as (x & l & n & Ns & Nn & Nm & L & P).
    rewrite Nn, L. assert (forall k, nth_error rest k = nth_error args (S base + k)) as HB2.
    { intros k. specialize (HB (S k)). cbn in HB. rewrite HB. f_equal. lia. }
    destruct l as [l|]; [destruct (String.eqb_spec l "return") as [->|NR]|].
    + left. split; auto. intros i Li B. exfalso. apply (B base x); auto.
    + assert (forall k x, k < S base -> nth_error s k <> Some (x, Some "return")) as BR2.
      { intros k y Lk E. destruct (Nat.eq_dec k base) as [->|D]; [rewrite Ns in E; inversion E; congruence|]. eapply BR; [|exact E]. lia. }
      pose proof (GL _ _ _ Ns NR) as I. destruct (arg_get m f l) as [[a i]|] eqn:G; [|apply get_none in G; contradiction].
      apply KN in G. destruct G as (Na2 & o & Ns2). assert (declared s base i) as DC by (exists x, l, o; auto).
      destruct (cyclic_loop_ok fuel (repeat false (length args)) a i) as [[E R]|[[c2 E] R]]; auto.
      { apply repeat_length. } { intros v Nv. exfalso. eapply new_unseen; eauto. } { rewrite unseen_new. auto. }
      * rewrite E. destruct (IH _ HB2 GL HF BR2) as [[E2 G2]|[E2 (k & Lk & B & R2)]]; [left|right].
        { split; auto. intros k Lk B R2. destruct (Nat.eq_dec k base) as [->|D]; [|apply (G2 k); auto; lia].
          destruct (reaches_next _ R2) as (k2 & D & C). rewrite (declared_det _ _ _ D DC) in C. auto. }
        { split; auto. exists k. repeat split; auto. lia. }
      * rewrite E. right. split; [eauto|]. exists base. repeat split; auto; [|eapply reaches_prev; eauto].
        intros k y Lk. apply BR2. lia.
    + assert (forall k x, k < S base -> nth_error s k <> Some (x, Some "return")) as BR2.
      { intros k y Lk E. destruct (Nat.eq_dec k base) as [->|D]; [rewrite Ns in E; inversion E; congruence|]. eapply BR; [|exact E]. lia. }
      destruct (IH _ HB2 GL HF BR2) as [[E2 G2]|[E2 (k & Lk & B & R2)]]; [left|right].
      { split; auto. intros k Lk B R2. destruct (Nat.eq_dec k base) as [->|D]; [|apply (G2 k); auto; lia].
        destruct (reaches_next _ R2) as (k2 & (x2 & l2 & y2 & A & _) & C). rewrite Ns in A. inversion A. }
      { split; auto. exists k. repeat split; auto. lia. }
Qed.
(** Accepted, whatever the fuel: the arguments looked at end, within that fuel. *)
Lemma cyclic_args_sound : forall fuel rest base, (forall k, nth_error rest k = nth_error args (base + k)) ->
  (forall k x, k < base -> nth_error s k <> Some (x, Some "return")) ->
  cyclic_args fuel nodes f m (length args) rest = AOk tt ->
  forall i c n, base <= i -> before_return i -> nth_error args i = Some c -> nth_error nodes c = Some n ->
    ~ reaches_cycle s i /\ exists r, arg_lifetime fuel c n nodes m = LOk r.
Proof.
  intros fuel. induction rest as [|c rest IH]; intros base HB BR E i ci n Li B Na Nn.
  - specialize (HB (i - base)). replace (base + (i - base)) with i in HB by lia. rewrite Na in HB. destruct (i - base); discriminate.
  - pose proof (HB 0) as H0. rewrite Nat.add_0_r in H0. cbn in H0. symmetry in H0. destruct (arg_node _ _ H0) as (x & l & n0 & Ns & Nn0 & Nm & L & P).
    cbn [cyclic_args] in E. rewrite Nn0, L in E.
    assert (forall k, nth_error rest k = nth_error args (S base + k)) as HB2.
    { intros k. specialize (HB (S k)). cbn in HB. rewrite HB. f_equal. lia. }
    assert (l <> Some "return" -> forall k x, k < S base -> nth_error s k <> Some (x, Some "return")) as BR2.
    { intros NR k y Lk E2. destruct (Nat.eq_dec k base) as [->|D]; [rewrite Ns in E2; inversion E2; congruence|]. eapply BR; [|exact E2]. lia. }
    destruct (Nat.eq_dec i base) as [->|D].
    + rewrite H0 in Na. inversion Na; subst ci. rewrite Nn0 in Nn. inversion Nn; subst n0. unfold arg_lifetime. rewrite L, P.
      destruct l as [l|]; [destruct (String.eqb_spec l "return") as [Q|NR]|].
      * exfalso. subst l. apply (B base x); auto.
      * destruct (arg_get m f l) as [[a j]|] eqn:G; [|discriminate]. pose proof G as G2. apply KN in G2. destruct G2 as (Na2 & o & Ns2).
        destruct (cyclic_loop fuel nodes f m (repeat false (length args)) a j) as [[]| | |] eqn:E2; try discriminate. split.
        { intros R. destruct (reaches_next _ R) as (k2 & D & C). assert (declared s base j) as DC by (exists x, l, o; auto).
          rewrite (declared_det _ _ _ D DC) in C. eapply cyclic_loop_sound; eauto. }
        { eapply cyclic_loop_ends; eauto. }
      * split; [|eauto]. intros R. destruct (reaches_next _ R) as (k2 & (x2 & l2 & y2 & A & _) & C). rewrite Ns in A. inversion A.
    + assert (S base <= i) as Li2 by lia.
      destruct l as [l|]; [destruct (String.eqb_spec l "return") as [Q|NR]|].
      * exfalso. subst l. apply (B base x); auto. 
      * destruct (arg_get m f l) as [[a j]|] eqn:G; [|discriminate].
        destruct (cyclic_loop fuel nodes f m (repeat false (length args)) a j) as [[]| | |] eqn:E2; try discriminate.
        eapply IH; eauto. apply BR2. congruence.
      * eapply IH; eauto. apply BR2. congruence.
Qed.
End Fn.
End Sig.

(** ** All functions of a module *)

Section Module.
Variable nodes : list node.

Definition all_sigs (fs : list nat) : Prop := forall f, In f fs -> exists args s, fn_sig nodes f args s.
Definition good_sig (s : sig) : Prop := good_lifetimes s /\ forall i, before_return s i -> ~ reaches_cycle s i.

Lemma fn_sig_det : forall f a1 s1 a2 s2, fn_sig nodes f a1 s1 -> fn_sig nodes f a2 s2 -> a1 = a2 /\ s1 = s2.
Proof.
  intros f a1 s1 a2 s2 (n1 & N1 & A1 & H1) (n2 & N2 & A2 & H2). rewrite N1 in N2. inversion N2; subst n2. rewrite A1 in A2. subst a2. split; auto.
  clear -H1 H2. revert s2 H2. induction H1 as [|c [x l] args s (n & N & K & P & Nm & L) H IH]; intros s2 H2; inversion H2 as [|c' [x' l'] args' s' (n' & N' & K' & P' & Nm' & L') H']; subst; auto.
  f_equal; [|apply IH; auto]. cbn [fst snd] in *. congruence.
Qed.
Lemma dup_fns_ok : forall fs, all_sigs fs ->
  (dup_fns nodes fs = AOk tt /\ forall f args s, In f fs -> fn_sig nodes f args s -> good_names s) \/
  ((exists i, dup_fns nodes fs = AErr (ADuplicate i)) /\ exists f args s, In f fs /\ fn_sig nodes f args s /\ ~ good_names s).
Proof.
  induction fs as [|f fs IH]; intros HA; cbn [dup_fns].
  - left. split; auto. intros f args s [].
  - destruct (HA f) as (args & s & FS); [left; auto|]. pose proof FS as (fn & N & A & HS). rewrite N, A.
    destruct (dup_args_ok nodes f args s HS []) as [(ND & _ & E)|(NG & i & E)]; rewrite E; cbn [then_].
    + destruct IH as [[E2 G]|[(i & E2) (g & a2 & s2 & I & F2 & NG)]]; [intros g I; apply HA; right; auto|left|right].
      * split; auto. intros g a2 s2 [<-|I] F2; [|eapply G; eauto]. destruct (fn_sig_det _ _ _ _ _ FS F2) as [-> ->]. auto.
      * split; eauto. exists g, a2, s2. split; [right; auto|auto].
    + right. split; eauto. exists f, args, s. split; [left; auto|]. split; [auto|]. intros G. apply NG. split; auto.
Qed.
Lemma arg_loop_ext : forall fuel m m' f name acc, (forall x, arg_get m f x = arg_get m' f x) ->
  arg_loop fuel nodes m f name acc = arg_loop fuel nodes m' f name acc.
Proof.
  induction fuel as [|fuel IH]; intros m m' f name acc E; cbn [arg_loop]; auto. rewrite E. destruct (arg_get m' f name) as [[c j]|]; auto.
  destruct (nth_error nodes c) as [n|]; auto. destruct (n_lifetime n) as [l|]; auto. destruct (l =? "return")%string; auto.
Qed.
Lemma arg_lifetime_ext : forall fuel m m' f d n, n_parent n = Some f -> (forall x, arg_get m f x = arg_get m' f x) ->
  arg_lifetime fuel d n nodes m = arg_lifetime fuel d n nodes m'.
Proof. intros fuel m m' f d n P E. unfold arg_lifetime. rewrite P. destruct (n_lifetime n) as [l|]; auto. destruct (l =? "return")%string; auto. apply arg_loop_ext; auto. Qed.
Lemma knows_ext : forall f args s m m', (forall x, arg_get m f x = arg_get m' f x) -> knows f args s m -> knows f args s m'.
Proof. intros f args s m m' E K x c j. rewrite <- E. apply K. Qed.

Lemma arg_fns_sound : forall fuel fs m0 m, NoDup fs -> all_sigs fs -> (forall f args s, In f fs -> fn_sig nodes f args s -> good_names s) ->
  (forall f x, In f fs -> arg_get m0 f x = None) -> arg_fns fuel nodes fs m0 = AOk m ->
  (forall f args s, In f fs -> fn_sig nodes f args s -> knows f args s m /\ good_lifetimes s /\
     forall i c n, before_return s i -> nth_error args i = Some c -> nth_error nodes c = Some n ->
       ~ reaches_cycle s i /\ exists r, arg_lifetime fuel c n nodes m = LOk r) /\
  (forall g x, ~ In g fs -> arg_get m g x = arg_get m0 g x).
Proof.
  intros fuel. induction fs as [|f fs IH]; intros m0 m ND HA GN NM E; cbn [arg_fns] in E.
  - inversion E; subst. split; [intros f args s []|auto].
  - inversion ND as [|? ? NI ND2]; subst. destruct (HA f) as (args & s & FS); [left; auto|]. pose proof FS as (fn & N & A & HS). rewrite N, A in E.
    pose proof (F2_len _ _ _ _ _ HS) as LN. assert (NoDup (map fst s)) as NDs by (eapply GN; eauto; left; auto).
    rewrite (add_args_ok nodes f args s HS) in E. cbn [then_] in E. set (m1 := rev (entries f args s 0) ++ m0) in *.
    assert (knows f args s m1) as KN by (apply entries_knows; auto; intros; apply NM; left; auto).
    destruct (known_args_ok nodes f args s m1 HS KN args 0 (fun k => eq_refl)) as [[GL E1]|[_ (c & E1)]]; rewrite E1 in E; cbn [then_] in E; [|discriminate].
    destruct (cyclic_args fuel nodes f m1 (length args) args) as [[]| | |] eqn:E2; cbn [then_] in E; try discriminate.
    destruct (IH m1 m ND2) as [G1 G2]; auto.
    { intros g I. apply HA. right. auto. } { intros g a2 s2 I. apply GN. right. auto. }
    { intros g x I. unfold m1. rewrite arg_get_app, arg_get_other by (auto; intros ->; auto). apply NM. right. auto. }
    split.
    + intros g a2 s2 [<-|I] F2; [|eapply G1; eauto]. destruct (fn_sig_det _ _ _ _ _ FS F2) as [<- <-].
      assert (forall x, arg_get m1 f x = arg_get m f x) as EX by (intros; symmetry; apply G2; auto).
      split; [eapply knows_ext; eauto|]. split; [intros j x l Nj NR; exact (GL j x l (Nat.le_0_l j) Nj NR)|].
      intros i c n BR Na Nn.
      assert (forall k x, k < 0 -> nth_error s k <> Some (x, Some "return")) as B0 by (intros k x Lk; lia).
      destruct (cyclic_args_sound nodes f args s m1 HS NDs KN fuel args 0 (fun k => eq_refl) B0 E2 i c n (Nat.le_0_l i) BR Na Nn) as [R (r & AL)].
      split; auto. exists r. rewrite <- AL. symmetry. eapply arg_lifetime_ext; eauto.
      destruct (arg_node nodes f args s HS _ _ Na) as (x & l & n' & _ & Nn' & _ & _ & P). congruence.
    + intros g x NIg. rewrite G2 by (intros I; apply NIg; right; auto). unfold m1. rewrite arg_get_app, arg_get_other; auto.
      intros ->. apply NIg. left. auto.
Qed.
Lemma arg_fns_decides : forall fuel fs m0, NoDup fs -> all_sigs fs -> (forall f args s, In f fs -> fn_sig nodes f args s -> good_names s) ->
  (forall f x, In f fs -> arg_get m0 f x = None) -> (forall f args s, In f fs -> fn_sig nodes f args s -> length args < fuel) ->
  ((exists m, arg_fns fuel nodes fs m0 = AOk m) /\ forall f args s, In f fs -> fn_sig nodes f args s -> good_sig s) \/
  ((exists e, arg_fns fuel nodes fs m0 = AErr e) /\ exists f args s, In f fs /\ fn_sig nodes f args s /\ ~ good_sig s).
Proof.
  intros fuel. induction fs as [|f fs IH]; intros m0 ND HA GN NM HF; cbn [arg_fns].
  - left. split; eauto. intros f args s [].
  - inversion ND as [|? ? NI ND2]; subst. destruct (HA f) as (args & s & FS); [left; auto|]. pose proof FS as (fn & N & A & HS). rewrite N, A.
    pose proof (F2_len _ _ _ _ _ HS) as LN. assert (NoDup (map fst s)) as NDs by (eapply GN; eauto; left; auto).
    rewrite (add_args_ok nodes f args s HS). cbn [then_]. set (m1 := rev (entries f args s 0) ++ m0) in *.
    assert (knows f args s m1) as KN by (apply entries_knows; auto; intros; apply NM; left; auto).
    destruct (known_args_ok nodes f args s m1 HS KN args 0 (fun k => eq_refl)) as [[GL E1]|[NG (c & E1)]]; rewrite E1; cbn [then_].
    2: { right. split; eauto. exists f, args, s. split; [left; auto|]. split; auto. intros [G _]. auto. }
    assert (good_lifetimes s) as GLs by (intros j x l Nj NR; exact (GL j x l (Nat.le_0_l j) Nj NR)).
    destruct (cyclic_args_ok nodes f args s m1 HS NDs KN fuel args 0 (fun k => eq_refl) GLs) as [[E2 G]|[(c & E2) (i & _ & BR & R)]]; rewrite ?E2; cbn [then_].
    { eapply HF; eauto. left. auto. } { intros k x Lk. lia. }
    2: { right. split; eauto. exists f, args, s. split; [left; auto|]. split; auto. intros [_ G]. apply (G i); auto. }
    destruct (IH m1 ND2) as [[E3 G3]|[E3 (g & a2 & s2 & I & F2 & NG)]]; auto.
    { intros g I. apply HA. right. auto. } { intros g a2 s2 I. apply GN. right. auto. }
    { intros g x I. unfold m1. rewrite arg_get_app, arg_get_other by (auto; intros ->; auto). apply NM. right. auto. }
    { intros g a2 s2 I. apply HF. right. auto. }
    + left. split; auto. intros g a2 s2 [<-|I] F2; [|eapply G3; eauto]. destruct (fn_sig_det _ _ _ _ _ FS F2) as [<- <-].
      split; auto. intros i. apply G. lia.
    + right. split; auto. exists g, a2, s2. split; [right; auto|auto].
Qed.
End Module.

(** ** Composite expressions *)

Section Join.
Variable nodes : list node.
Variable m : arg_names.
Hypothesis PR : proper nodes m.

Lemma cmp_refl : forall l, lifetime_of nodes m l -> partial_cmp l l = Some Eq.
Proof.
  intros l K. apply arg_kind in K; auto. destruct l as [x|x|x|x]; cbn.
  - destruct x; auto. unfold compare_argument_outlives. cbn. rewrite Nat.eqb_refl. cbn. rewrite Nat.compare_refl. auto.
  - inversion K; subst; unfold compare_argument_outlives; cbn; rewrite Nat.eqb_refl; cbn; rewrite ?Nat.compare_refl; auto.
  - rewrite Nat.compare_refl. auto.
  - rewrite Nat.eqb_refl. auto.
Qed.
Lemma geq_refl : forall l, lifetime_of nodes m l -> geq l l.
Proof. intros. right. apply cmp_refl; auto. Qed.
Lemma geq_trans : forall a b c, lifetime_of nodes m a -> lifetime_of nodes m b -> lifetime_of nodes m c -> geq a b -> geq b c -> geq a c.
Proof.
  intros a b c Ka Kb Kc H1 H2. unfold geq. destruct H1 as [H1|H1], H2 as [H2|H2];
    rewrite (cmp_trans nodes m PR _ _ _ _ _ Ka Kb Kc H1 H2) by discriminate; auto.
Qed.
Lemma join_geq : forall min l l', (match min with Some a => lifetime_of nodes m a | None => True end) -> lifetime_of nodes m l ->
  join min l = Some l' -> exists x, l' = Some x /\ (x = l \/ min = Some x) /\ geq x l /\ match min with Some a => geq x a | None => True end.
Proof.
  intros [a|] l l' Ka Kl H; cbn [join] in H.
  - destruct (partial_cmp a l) as [[]|] eqn:E; inversion H; subst.
    + exists a. split; auto. split; auto. split; [right; auto|apply geq_refl; auto].
    + exists l. split; auto. split; auto. split; [apply geq_refl; auto|]. left. rewrite cmp_sym, E. auto.
    + exists a. split; auto. split; auto. split; [left; auto|apply geq_refl; auto].
  - inversion H; subst. exists l. split; auto. split; auto. split; [apply geq_refl; auto|auto].
Qed.
End Join.
