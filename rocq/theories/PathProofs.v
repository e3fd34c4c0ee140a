(** * Reading and writing places. *)
From Coq Require Import String List ZArith Bool Arith Lia.
From Verif Require Import Float64 Syntax InterpModel BalanceBase PathSpec.
Import ListNotations.
Local Open Scope string_scope.
Local Open Scope nat_scope.
Local Open Scope list_scope.

Lemma each_F : forall {A} (P : A -> Prop) l, each P l <-> Forall P l.
Proof.
  intros A P l. induction l as [|x l IH]; simpl; split; intros H; auto.
  - destruct H. constructor; auto. apply IH; auto.
  - inversion H; subst. split; auto. apply IH; auto.
Qed.
Lemma each_obj : forall (P : value -> Prop) l, each (fun kx : string * value => match kx with (_, x) => P x end) l <->
  Forall (fun kx => P (snd kx)) l.
Proof. intros P l. rewrite each_F. split; apply Forall_impl; intros []; auto. Qed.

Lemma nset_eq : forall {A} (l : list A) i v, i < length l -> nth_error (list_set i v l) i = Some v.
Proof. induction l as [|w l IH]; intros [|i] v H; simpl in *; try lia; auto. apply IH. lia. Qed.
Lemma nset_ne : forall {A} (l : list A) i j v, j <> i -> nth_error (list_set i v l) j = nth_error l j.
Proof. induction l as [|w l IH]; intros [|i] [|j] v H; simpl; auto; try lia. Qed.
Lemma aset_eq : forall {A} k (v : A) l x, assoc k l = Some x -> assoc k (assoc_set k v l) = Some v.
Proof.
  induction l as [|[k' y] l IH]; simpl; intros x H; [discriminate|]. destruct (String.eqb_spec k' k); simpl.
  - subst. rewrite String.eqb_refl. reflexivity.
  - rewrite (proj2 (String.eqb_neq _ _) n). eauto.
Qed.
Lemma aset_ne : forall {A} k j (v : A) l, j <> k -> assoc j (assoc_set k v l) = assoc j l.
Proof.
  induction l as [|[k' y] l IH]; simpl; intros H; auto. destruct (String.eqb_spec k' k); simpl.
  - subst. rewrite (proj2 (String.eqb_neq k j)); auto.
  - destruct (String.eqb k' j); auto.
Qed.
Lemma aset_keys : forall {A} k (v : A) l, map fst (assoc_set k v l) = map fst l.
Proof. induction l as [|[k' y] l IH]; simpl; auto. destruct (String.eqb k' k); simpl; congruence. Qed.
Lemma aset_Forall : forall {A} (P : A -> Prop) k v l, P v -> Forall (fun kx => P (snd kx)) l -> Forall (fun kx => P (snd kx)) (assoc_set k v l).
Proof.
  intros A P k v l Hv. induction 1 as [|[k' y] l H F IH]; simpl; auto. destruct (String.eqb k' k); constructor; auto.
Qed.
Lemma NoDup_assoc : forall {A} k (x : A) l, NoDup (map fst l) -> In (k, x) l -> assoc k l = Some x.
Proof.
  induction l as [|[k' y] l IH]; simpl; intros N H; [destruct H|]. inversion N; subst. destruct H as [E|H].
  - inversion E; subst. rewrite String.eqb_refl. reflexivity.
  - destruct (String.eqb_spec k' k); auto. subst. exfalso. apply H2. change k with (fst (k, x)). apply in_map. auto.
Qed.
Lemma assoc_NoKey : forall {A} k (l : list (string * A)), assoc k l = None -> ~ In k (map fst l).
Proof.
  induction l as [|[k' y] l IH]; simpl; intros H; auto. destruct (String.eqb_spec k' k); [discriminate|]. intros [|]; auto. apply IH; auto.
Qed.

Lemma keyed_assoc : forall k l x, keyed (VObject l) -> assoc k l = Some x -> keyed x.
Proof.
  intros k l x [_ H] A. rewrite each_obj in H. apply assoc_In in A. rewrite Forall_forall in H. exact (H _ A).
Qed.
Lemma keyed_nth : forall i l x, keyed (VArray l) -> nth_error l i = Some x -> keyed x.
Proof. intros i l x H N. simpl in H. rewrite each_F in H. eapply nth_error_Forall; eauto. Qed.

Lemma rd_inside : forall p v x, keyed v -> (rd v p = Some x <-> inside v p x).
Proof.
  induction p as [|[k|i] p IH]; intros v x K; cbn [rd].
  - split; intros H; inversion H; subst; constructor.
  - split; intros H.
    + destruct v as [| | | | | | | |l| | | | | | | | | | ]; try discriminate. destruct (assoc k l) as [y|] eqn:A; [|discriminate].
      eapply In_key; [apply K|apply assoc_In; eauto|]. apply IH; auto. eapply keyed_assoc; eauto.
    + inversion H; subst. match goal with I1 : In (k, ?z) l |- _ => assert (assoc k l = Some z) as A by (apply NoDup_assoc; auto) end.
      rewrite A. apply IH; auto. eapply keyed_assoc; eauto.
  - split; intros H.
    + destruct v as [| | | | | | |l| | | | | | | | | | | ]; try discriminate. destruct (nth_error l i) as [y|] eqn:A; [|discriminate].
      eapply In_idx; [eauto|]. apply IH; auto. eapply keyed_nth; eauto.
    + inversion H; subst. match goal with I1 : nth_error l i = Some _ |- _ => rewrite I1; apply IH; auto; eapply keyed_nth; eauto end.
Qed.
Lemma rd_keyed : forall p v x, keyed v -> rd v p = Some x -> keyed x.
Proof.
  induction p as [|[k|i] p IH]; intros v x K H; cbn [rd] in H.
  - inversion H; subst; auto.
  - destruct v as [| | | | | | | |l| | | | | | | | | | ]; try discriminate. destruct (assoc k l) as [y|] eqn:A; [|discriminate].
    eapply IH; [|eauto]. eapply keyed_assoc; eauto.
  - destruct v as [| | | | | | |l| | | | | | | | | | | ]; try discriminate. destruct (nth_error l i) as [y|] eqn:A; [|discriminate].
    eapply IH; [|eauto]. eapply keyed_nth; eauto.
Qed.
Lemma rd_app : forall p q v, rd v (p ++ q) = match rd v p with Some x => rd x q | None => None end.
Proof.
  induction p as [|[k|i] p IH]; intros q v; cbn [rd app]; auto.
  - destruct v; auto. destruct (assoc k l); auto.
  - destruct v; auto. destruct (nth_error l i); auto.
Qed.

Lemma wr_some : forall p v x y, rd v p = Some x -> exists v', wr v p y = Some v'.
Proof.
  induction p as [|[k|i] p IH]; intros v x y H; cbn [rd wr] in *; eauto.
  - destruct v; try discriminate. destruct (assoc k l) as [z|]; [|discriminate]. destruct (IH _ _ y H) as (v' & ->). eauto.
  - destruct v; try discriminate. destruct (nth_error l i) as [z|]; [|discriminate]. destruct (IH _ _ y H) as (v' & ->). eauto.
Qed.
Lemma wr_read : forall p v y v' q, wr v p y = Some v' -> rd v' (p ++ q) = rd y q.
Proof.
  induction p as [|[k|i] p IH]; intros v y v' q H; cbn [wr app rd] in *.
  - inversion H; auto.
  - destruct v; try discriminate. destruct (assoc k l) as [z|] eqn:A; [|discriminate]. destruct (wr z p y) as [z'|] eqn:W; [|discriminate].
    inversion H; subst. rewrite (aset_eq _ _ _ _ A). eauto.
  - destruct v; try discriminate. destruct (nth_error l i) as [z|] eqn:A; [|discriminate]. destruct (wr z p y) as [z'|] eqn:W; [|discriminate].
    inversion H; subst. rewrite nset_eq by (apply nth_error_Some; congruence). eauto.
Qed.
Lemma wr_other : forall p v y v' q, wr v p y = Some v' -> ~ prefix p q -> ~ prefix q p -> rd v' q = rd v q.
Proof.
  induction p as [|s p IH]; intros v y v' q H N1 N2.
  - exfalso. apply N1. exists q. reflexivity.
  - destruct q as [|t q]; [exfalso; apply N2; exists (s :: p); reflexivity|].
    assert (s = t -> ~ prefix p q /\ ~ prefix q p) as Hpq.
    { intros ->. split; intros (r & E); [apply N1|apply N2]; exists r; rewrite E; reflexivity. }
    destruct s as [k|i]; cbn [wr] in H.
    + destruct v; try discriminate. destruct (assoc k l) as [z|] eqn:A; [|discriminate]. destruct (wr z p y) as [z'|] eqn:W; [|discriminate].
      inversion H; subst. destruct t as [k2|i2]; cbn [rd]; auto. destruct (string_dec k2 k) as [->|N].
      * rewrite (aset_eq _ _ _ _ A), A. destruct Hpq; auto. eauto.
      * rewrite aset_ne by auto. reflexivity.
    + destruct v; try discriminate. destruct (nth_error l i) as [z|] eqn:A; [|discriminate]. destruct (wr z p y) as [z'|] eqn:W; [|discriminate].
      inversion H; subst. destruct t as [k2|i2]; cbn [rd]; auto. destruct (Nat.eq_dec i2 i) as [->|N].
      * rewrite nset_eq by (apply nth_error_Some; congruence). rewrite A. destruct Hpq; auto. eauto.
      * rewrite nset_ne by auto. reflexivity.
Qed.
Lemma wr_keyed : forall p v y v', keyed v -> keyed y -> wr v p y = Some v' -> keyed v'.
Proof.
  induction p as [|[k|i] p IH]; intros v y v' K Ky H; cbn [wr] in H.
  - inversion H; subst; auto.
  - destruct v; try discriminate. destruct (assoc k l) as [z|] eqn:A; [|discriminate]. destruct (wr z p y) as [z'|] eqn:W; [|discriminate].
    inversion H; subst. assert (keyed z') by (exact (IH _ _ _ (keyed_assoc _ _ _ K A) Ky W)).
    destruct K as [K1 K2]. split; [rewrite aset_keys; auto|]. rewrite each_obj in *. apply aset_Forall; auto.
  - destruct v; try discriminate. destruct (nth_error l i) as [z|] eqn:A; [|discriminate]. destruct (wr z p y) as [z'|] eqn:W; [|discriminate].
    inversion H; subst. assert (keyed z') by (exact (IH _ _ _ (keyed_nth _ _ _ K A) Ky W)).
    simpl in *. rewrite each_F in *. apply Forall_list_set; auto.
Qed.
Lemma wr_changed : forall p v y v', keyed v -> keyed y -> wr v p y = Some v' -> changed v p y v'.
Proof.
  intros p v y v' K Ky H. assert (keyed v') as K' by exact (wr_keyed _ _ _ _ K Ky H). split.
  - intros q x N1 N2. rewrite <- !rd_inside by auto. rewrite (wr_other _ _ _ _ _ H N1 N2). reflexivity.
  - intros q x. rewrite <- !rd_inside by auto. rewrite (wr_read _ _ _ _ _ H). reflexivity.
Qed.

(** ** Pointers *)
Lemma pread_holds : forall q s v, Forall keyed (r_stack s) -> (pread q s = Ok v s <-> holds (r_stack s) q v).
Proof.
  intros [i p] s v K. unfold pread, holds, bind, slot. simpl. destruct (nth_error (r_stack s) i) as [r|] eqn:N.
  - assert (keyed r) by (eapply nth_error_Forall; eauto). destruct (rd r p) as [x|] eqn:R.
    + split; intros H0; [inversion H0; subst; exists r; split; auto; apply rd_inside; auto|].
      destruct H0 as (r' & E & I1). inversion E; subst. apply rd_inside in I1; auto. unfold ret. congruence.
    + split; intros H0; [discriminate|]. destruct H0 as (r' & E & I1). inversion E; subst. apply rd_inside in I1; auto. congruence.
  - split; [discriminate|]. intros (r & E & _). discriminate.
Qed.
Lemma holds_fun : forall stack q v w, Forall keyed stack -> holds stack q v -> holds stack q w -> v = w.
Proof.
  intros stack q v w K (r & N & I1) (r2 & N2 & I2). rewrite N in N2. inversion N2; subst.
  assert (keyed r2) by (eapply nth_error_Forall; eauto). apply rd_inside in I1; auto. apply rd_inside in I2; auto. congruence.
Qed.
Lemma holds_keyed : forall stack q v, Forall keyed stack -> holds stack q v -> keyed v.
Proof.
  intros stack q v K (r & N & I1). assert (keyed r) by (eapply nth_error_Forall; eauto). apply rd_inside in I1; auto. eapply rd_keyed; eauto.
Qed.
Lemma holds_step : forall stack i p k v, Forall keyed stack ->
  (holds stack (i, p ++ [k]) v <-> exists u, holds stack (i, p) u /\ rd u [k] = Some v).
Proof.
  intros stack i p k v K. unfold holds. simpl. split.
  - intros (r & N & I1). assert (keyed r) by (eapply nth_error_Forall; eauto). apply rd_inside in I1; auto. rewrite rd_app in I1.
    destruct (rd r p) as [u|] eqn:R; [|discriminate]. exists u. split; auto. exists r. split; auto. apply rd_inside; auto.
  - intros (u & (r & N & I1) & R). assert (keyed r) by (eapply nth_error_Forall; eauto). exists r. split; auto.
    apply rd_inside in I1; auto. apply rd_inside; auto. rewrite rd_app, I1. auto.
Qed.

Lemma index_of_spec : forall x n, index_of x n = if position x <? n then Some (position x) else None.
Proof.
  intros x n. unfold index_of, position.
  assert (0 <= f64_to_usize x)%Z as P.
  { assert (0 <= USIZE_MAX)%Z by (unfold USIZE_MAX; lia).
    unfold f64_to_usize. destruct x as [[]|[]| |[] m e]; try lia.
    apply Z.min_glb; auto. destruct (0 <=? e)%Z; [destruct (1024 <? e)%Z; auto; apply Z.shiftl_nonneg; lia|apply Z.shiftr_nonneg; lia]. }
  destruct (Z.ltb_spec (f64_to_usize x) (Z.of_nat n)), (Nat.ltb_spec (Z.to_nat (f64_to_usize x)) n); auto; lia.
Qed.

(** ** One look-up *)
Lemma found_run : forall s i v, found (r_stack s) i v -> exists i1, index_slot i s = Ok i1 s /\ slot i1 s = Ok v s.
Proof.
  intros s i v [[N R]|(r & N & M)].
  - exists i. unfold index_slot, bind, slot. rewrite N. split; auto. destruct v; auto. exfalso. eapply R; reflexivity.
  - exists r. unfold index_slot, bind, slot. rewrite N, M. auto.
Qed.
Lemma pread_run : forall s i p u, Forall keyed (r_stack s) -> holds (r_stack s) (i, p) u -> pread (i, p) s = Ok u s.
Proof. intros. apply pread_holds; auto. Qed.

(** What a step [k] into [u] at [(i, p)] gives. *)
Definition lands (stack : list value) (i : nat) (p : list step) (k : step) (last : bool) (v : value) : option ptr :=
  match v with
  | VRef r => if last then Some (i, p ++ [k]) else match nth_error stack r with Some _ => Some (r, []) | None => None end
  | _ => Some (i, p ++ [k])
  end.
Lemma follow_run : forall s i p last v, Forall keyed (r_stack s) -> holds (r_stack s) (i, p) v ->
  follow last (i, p) s = match v with
    | VRef r => if last then Ok (i, p) s else match nth_error (r_stack s) r with Some _ => Ok (r, []) s | None => Panic "index" end
    | _ => Ok (i, p) s end.
Proof.
  intros s i p last v K H. unfold follow, bind. rewrite (pread_run _ _ _ _ K H). destruct v; auto. destruct last; auto.
  unfold slot. destruct (nth_error (r_stack s) i0); auto.
Qed.

(** The index of the next computed index. *)
Lemma lookup_some : forall s i p u id ids k ks start j ins last v, Forall keyed (r_stack s) -> holds (r_stack s) (i, p) u ->
  names (r_stack s) (start + j) (id :: ids) (k :: ks) -> rd u [k] = Some v ->
  exists j', names (r_stack s) (start + j') ids ks /\
  item_lookup (i, p) id start j ins last s =
  match lands (r_stack s) i p k last v with Some q => Ok (q, j') s | None => Panic "index" end.
Proof.
  intros s i p u id ids k ks start j ins last v K H N R.
  assert (holds (r_stack s) (i, p ++ [k]) v) as H2 by (apply holds_step; eauto).
  unfold item_lookup, bind at 1. rewrite (pread_run _ _ _ _ K H). unfold lands.
  inversion N; subst; cbn [rd] in R; destruct u; try discriminate.
  - exists j. split; auto. unfold bind at 1. unfold ret at 1. cbn [fst snd]. destruct (assoc k0 l) as [x|]; [|discriminate].
    unfold bind. rewrite (follow_run _ _ _ _ _ K H2). destruct v; auto. destruct last; auto. destruct (nth_error (r_stack s) i0); auto.
  - exists j. split; auto. rewrite index_of_spec. destruct (nth_error l (position x)) as [z|] eqn:Z; [|discriminate].
    assert (position x < length l) as L by (apply nth_error_Some; congruence). rewrite (proj2 (Nat.ltb_lt _ _) L).
    unfold bind. cbn [fst snd]. rewrite (follow_run _ _ _ _ _ K H2). destruct v; auto. destruct last; auto. destruct (nth_error (r_stack s) i0); auto.
  - exists (S j). replace (start + S j) with (S (start + j)) by lia. split; auto. match goal with G : found _ _ _ |- _ => destruct (found_run _ _ _ G) as (i1 & A & B) end.
    unfold bind at 1. unfold bind at 1. rewrite A. unfold bind at 1. rewrite B. unfold ret at 1. cbn [fst snd].
    destruct (assoc k0 l) as [x|]; [|discriminate].
    unfold bind. rewrite (follow_run _ _ _ _ _ K H2). destruct v; auto. destruct last; auto. destruct (nth_error (r_stack s) i0); auto.
  - exists (S j). replace (start + S j) with (S (start + j)) by lia. split; auto. match goal with G : found _ _ _ |- _ => destruct (found_run _ _ _ G) as (i1 & A & B) end.
    unfold bind at 1. rewrite A. unfold bind at 1. rewrite B. rewrite index_of_spec.
    destruct (nth_error l (position x)) as [z|] eqn:Z; [|discriminate].
    assert (position x < length l) as L by (apply nth_error_Some; congruence). rewrite (proj2 (Nat.ltb_lt _ _) L).
    unfold bind. cbn [fst snd]. rewrite (follow_run _ _ _ _ _ K H2). destruct v; auto. destruct last; auto. destruct (nth_error (r_stack s) i0); auto.
Qed.
Lemma lookup_none : forall s i p u id ids k ks start j ins last, Forall keyed (r_stack s) -> holds (r_stack s) (i, p) u ->
  names (r_stack s) (start + j) (id :: ids) (k :: ks) -> rd u [k] = None -> ins && last = false ->
  exists e, item_lookup (i, p) id start j ins last s = Err e s.
Proof.
  intros s i p u id ids k ks start j ins last K H N R I1.
  unfold item_lookup, bind at 1. rewrite (pread_run _ _ _ _ K H).
  destruct u; try (eexists; reflexivity); inversion N; subst; cbn [rd] in R.
  - eexists; reflexivity.
  - rewrite index_of_spec. destruct (Nat.ltb_spec (position x) (length l)); [|eexists; reflexivity].
    exfalso. destruct (nth_error l (position x)) eqn:Q; [discriminate|]. apply nth_error_None in Q. lia.
  - match goal with G : found _ _ _ |- _ => destruct (found_run _ _ _ G) as (i1 & A & B) end. unfold bind. rewrite A, B. eexists; reflexivity.
  - match goal with G : found _ _ _ |- _ => destruct (found_run _ _ _ G) as (i1 & A & B) end. unfold bind at 1. rewrite A. unfold bind at 1. rewrite B.
    rewrite index_of_spec. destruct (Nat.ltb_spec (position x) (length l)); [|eexists; reflexivity].
    exfalso. destruct (nth_error l (position x)) eqn:Q; [discriminate|]. apply nth_error_None in Q. lia.
  - unfold bind, ret. cbn [fst snd]. destruct (assoc k0 l); [discriminate|]. rewrite I1. eexists; reflexivity.
  - eexists; reflexivity.
  - match goal with G : found _ _ _ |- _ => destruct (found_run _ _ _ G) as (i1 & A & B) end. unfold bind. rewrite A, B. unfold ret. cbn [fst snd].
    destruct (assoc k0 l); [discriminate|]. rewrite I1. eexists; reflexivity.
  - match goal with G : found _ _ _ |- _ => destruct (found_run _ _ _ G) as (i1 & A & B) end. unfold bind. rewrite A, B. eexists; reflexivity.
Qed.

(** ** Chains *)
Lemma leads_start : forall stack i p ks q, Forall keyed stack -> leads stack (i, p) ks q -> exists u, holds stack (i, p) u.
Proof.
  intros stack i p ks q K H. inversion H; subst; match goal with G : holds _ (_, _ ++ [_]) _ |- _ => apply holds_step in G; auto; destruct G as (u & G & _); eauto end.
Qed.
Lemma lookup_leads : forall k s start ins, Forall keyed (r_stack s) -> forall ids n i p j ks q,
  names (r_stack s) (start + j) ids ks -> leads (r_stack s) (i, p) ks q ->
  lookup_ids ids n (i, p) start j ins [] k s = k q s.
Proof.
  intros k s start ins K. induction ids as [|id ids IH]; intros n i p j ks q N L.
  { inversion N; subst. inversion L. }
  inversion L as [i' p' k0 v Hv|i' p' k0 v ks0 q' Hne Hv Hnr L2|i' p' k0 r ks0 q' Hne Hv L2]; subst.
  - assert (ids = []) as -> by (inversion N; subst; match goal with G : names _ _ ids [] |- _ => inversion G; auto end).
    apply holds_step in Hv; auto. destruct Hv as (u & H & R). cbn [lookup_ids]. unfold bind at 1.
    destruct (lookup_some s i p u id [] k0 [] start j ins true v K H N R) as (j' & _ & ->). unfold lands. destruct v; reflexivity.
  - assert (ids <> []) as Hids by (intros ->; inversion N; subst; match goal with G : names _ _ [] _ |- _ => inversion G; subst; auto end).
    apply holds_step in Hv; auto. destruct Hv as (u & H & R). cbn [lookup_ids]. unfold bind at 1.
    destruct (lookup_some s i p u id ids k0 ks0 start j ins (match ids with [] => true | _ => false end) v K H N R) as (j' & N' & ->).
    assert (lands (r_stack s) i p k0 match ids with [] => true | _ => false end v = Some (i, p ++ [k0])) as ->.
    { unfold lands. destruct v; auto. exfalso. eapply Hnr; reflexivity. }
    cbn [fst snd]. destruct ids; [contradiction|]. eapply IH; eauto.
  - assert (ids <> []) as Hids by (intros ->; inversion N; subst; match goal with G : names _ _ [] _ |- _ => inversion G; subst; auto end).
    apply holds_step in Hv; auto. destruct Hv as (u & H & R). cbn [lookup_ids]. unfold bind at 1.
    destruct (lookup_some s i p u id ids k0 ks0 start j ins (match ids with [] => true | _ => false end) (VRef r) K H N R) as (j' & N' & ->).
    destruct (leads_start _ _ _ _ _ K L2) as (w & (r0 & W & _)). simpl in W.
    assert (lands (r_stack s) i p k0 match ids with [] => true | _ => false end (VRef r) = Some (r, [])) as ->.
    { unfold lands. rewrite W. destruct ids; auto. contradiction. }
    cbn [fst snd]. destruct ids; [contradiction|]. eapply IH; eauto.
Qed.

Lemma rd_refs : forall n p v x, refs_below n v -> rd v p = Some x -> refs_below n x.
Proof.
  induction p as [|[k|i] p IH]; intros v x K H; cbn [rd] in H.
  - inversion H; subst; auto.
  - destruct v as [| | | | | | | |l| | | | | | | | | | ]; try discriminate. destruct (assoc k l) as [y|] eqn:A; [|discriminate].
    eapply IH; [|eauto]. simpl in K. rewrite each_obj in K. apply assoc_In in A. rewrite Forall_forall in K. exact (K _ A).
  - destruct v as [| | | | | | |l| | | | | | | | | | | ]; try discriminate. destruct (nth_error l i) as [y|] eqn:A; [|discriminate].
    eapply IH; [|eauto]. simpl in K. rewrite each_F in K. eapply nth_error_Forall; eauto.
Qed.
Lemma names_nil : forall stack i ids, names stack i ids [] -> ids = [].
Proof. intros stack i ids H. inversion H; auto. Qed.
Lemma lookup_fails : forall k s start, Forall keyed (r_stack s) -> Forall (refs_below (length (r_stack s))) (r_stack s) ->
  forall ids n i p j ks u, ids <> [] -> names (r_stack s) (start + j) ids ks -> holds (r_stack s) (i, p) u ->
  ~ (exists q, leads (r_stack s) (i, p) ks q) ->
  exists e, lookup_ids ids n (i, p) start j false [] k s = Err e s.
Proof.
  intros k s start K RB. induction ids as [|id ids IH]; intros n i p j ks u Hne N H NL; [contradiction|].
  destruct ks as [|k0 ks]; [apply names_nil in N; discriminate|].
  assert (refs_below (length (r_stack s)) u) as Ru.
  { destruct H as (r & Nr & Ir). apply rd_inside in Ir; [|eapply nth_error_Forall; eauto]. eapply rd_refs; [|exact Ir]. eapply nth_error_Forall; eauto. }
  cbn [lookup_ids]. unfold bind at 1. destruct (rd u [k0]) as [v|] eqn:R.
  2: { destruct (lookup_none s i p u id ids k0 ks start j false (match ids with [] => true | _ => false end) K H N R eq_refl) as (e & ->). eauto. }
  destruct (lookup_some s i p u id ids k0 ks start j false (match ids with [] => true | _ => false end) v K H N R) as (j' & N' & ->).
  assert (holds (r_stack s) (i, p ++ [k0]) v) as H2 by (apply holds_step; eauto).
  destruct ids as [|id2 ids].
  { exfalso. apply NL. inversion N'; subst. exists (i, p ++ [k0]). econstructor; eauto. }
  assert (ks <> []) as Hks by (intros ->; apply names_nil in N'; discriminate).
  assert (id2 :: ids <> []) as Hids by discriminate.
  assert ((exists r, v = VRef r) \/ forall r, v <> VRef r) as [(r & ->)|NR].
  { destruct v; try (right; discriminate). left; eauto. }
  - assert (refs_below (length (r_stack s)) (VRef r)) as Rv by (eapply rd_refs; [exact Ru|exact R]). simpl in Rv.
    destruct (nth_error (r_stack s) r) as [w|] eqn:W; [|apply nth_error_None in W; lia].
    unfold lands. rewrite W. cbn [fst snd]. eapply IH; eauto.
    + exists w. split; auto. constructor.
    + intros (q & L). apply NL. exists q. eapply Ld_ref; eauto.
  - assert (lands (r_stack s) i p k0 false v = Some (i, p ++ [k0])) as ->.
    { unfold lands. destruct v; auto. exfalso. eapply NR; reflexivity. }
    cbn [fst snd]. eapply IH; eauto. intros (q & L). apply NL. exists q. eapply Ld_on; eauto.
Qed.

(** ** Computed indices *)

(** Evaluating the computed indices pushes their values. *)
Inductive indexed (E : env) (n : nat) : list idx -> rt -> rt -> Prop :=
| Ix_nil : forall s, indexed E n [] s s
| Ix_const : forall i ids s s', (forall e, i <> IdExpr e) -> indexed E n ids s s' -> indexed E n (i :: ids) s s'
| Ix_expr : forall e ids s x s1 s', eval E n e Right s = Ok (Some x, FContinue) s1 ->
    indexed E n ids (set_stack (r_stack s1 ++ [x]) s1) s' -> indexed E n (IdExpr e :: ids) s s'.
Lemma push_ids_run : forall E n ids s s' k, indexed E n ids s s' -> push_ids (eval E n) ids k s = k s'.
Proof.
  intros E n ids s s' k H. induction H; cbn [push_ids]; auto.
  - destruct i; auto. exfalso. eapply H; reflexivity.
  - unfold vexpr, bind. rewrite H. exact IHindexed.
Qed.

(** ** Inserting *)
Lemma aset_aset : forall {A} k (a b : A) l, assoc_set k b (assoc_set k a l) = assoc_set k b l.
Proof.
  intros A k a b l. induction l as [|[j z] l IH]; simpl; auto. destruct (String.eqb j k) eqn:Q; simpl; rewrite ?String.eqb_refl, ?Q; try rewrite IH; auto.
Qed.
Lemma lset_lset : forall {A} i (a b : A) l, list_set i b (list_set i a l) = list_set i b l.
Proof. intros A i a b l. revert i. induction l as [|z l IH]; intros [|i]; simpl; auto. rewrite IH. auto. Qed.
Lemma wr_app : forall p v x v1 q y, wr v p x = Some v1 ->
  wr v1 (p ++ q) y = match wr x q y with Some z => wr v p z | None => None end.
Proof.
  induction p as [|[k|i] p IH]; intros v x v1 q y H; cbn [wr app] in *.
  - inversion H; subst. destruct (wr v1 q y); auto.
  - destruct v as [| | | | | | | |l| | | | | | | | | | ]; try discriminate. destruct (assoc k l) as [z|] eqn:A; [|discriminate].
    destruct (wr z p x) as [z1|] eqn:W; [|discriminate]. inversion H; subst. rewrite (aset_eq _ _ _ _ A).
    rewrite (IH _ _ _ q y W). destruct (wr x q y) as [w|]; auto. destruct (wr z p w); auto. rewrite aset_aset. auto.
  - destruct v as [| | | | | | |l| | | | | | | | | | | ]; try discriminate. destruct (nth_error l i) as [z|] eqn:A; [|discriminate].
    destruct (wr z p x) as [z1|] eqn:W; [|discriminate]. inversion H; subst.
    assert (i < length l) as Hi by (apply nth_error_Some; congruence). rewrite (nset_eq _ _ _ Hi).
    rewrite (IH _ _ _ q y W). destruct (wr x q y) as [w|]; auto. destruct (wr z p w); auto. rewrite lset_lset. auto.
Qed.
Lemma assoc_new : forall {A} k (x : A) l, assoc k l = None -> assoc k (l ++ [(k, x)]) = Some x.
Proof.
  intros A k x l. induction l as [|[j z] l IH]; simpl; intros H.
  - rewrite String.eqb_refl. auto.
  - destruct (String.eqb j k); [discriminate|auto].
Qed.
Lemma aset_new : forall {A} k (x y : A) l, assoc k l = None -> assoc_set k y (l ++ [(k, x)]) = l ++ [(k, y)].
Proof.
  intros A k x y l. induction l as [|[j z] l IH]; simpl; intros H.
  - rewrite String.eqb_refl. auto.
  - destruct (String.eqb j k); [discriminate|]. rewrite IH; auto.
Qed.
Lemma arrives_start : forall stack i p ks q u, Forall keyed stack -> arrives stack (i, p) ks q -> holds stack q u -> exists w, holds stack (i, p) w.
Proof.
  intros stack i p ks q u K H Hq. inversion H; subst; eauto;
  match goal with G : holds _ (_, _ ++ [_]) _ |- _ => apply holds_step in G; auto; destruct G as (w & G & _); eauto end.
Qed.
Lemma lookup_inserts : forall k s start, Forall keyed (r_stack s) -> forall ids n i p j ks q last_id key o s',
  names (r_stack s) (start + j) (ids ++ [last_id]) (ks ++ [SKey key]) -> arrives (r_stack s) (i, p) ks q ->
  holds (r_stack s) q (VObject o) -> assoc key o = None -> length ids = length ks ->
  pwrite q (VObject (o ++ [(key, VReturn)])) s = Ok tt s' ->
  lookup_ids (ids ++ [last_id]) n (i, p) start j true [] k s = k (fst q, snd q ++ [SKey key]) s'.
Proof.
  intros k s start K. induction ids as [|id ids IH]; intros n i p j ks q last_id key o s' N A H NK L W.
  - destruct ks; [|discriminate]. inversion A; subst. cbn [app lookup_ids]. unfold bind at 1.
    assert (exists j', item_lookup (i, p) last_id start j true true s = Ok ((i, p ++ [SKey key]), j') s') as (j' & ->); [|reflexivity].
    unfold item_lookup. unfold bind at 1. rewrite (pread_run _ _ _ _ K H). inversion N; subst.
    + exists j. unfold bind, ret. cbn [fst snd]. rewrite NK. cbn [andb]. rewrite W. reflexivity.
    + exists (S j). match goal with G : found _ _ _ |- _ => destruct (found_run _ _ _ G) as (i1 & A1 & B1) end.
      unfold bind. rewrite A1, B1. unfold ret. cbn [fst snd]. rewrite NK. cbn [andb]. rewrite W. reflexivity.
  - destruct ks as [|k0 ks]; [discriminate|]. cbn [app] in N. cbn [app lookup_ids]. unfold bind at 1.
    inversion A as [|i' p' k1 v ks0 q' Hv NR A2|i' p' k1 r ks0 q' Hv A2]; subst.
    + apply holds_step in Hv; auto. destruct Hv as (u & Hu & R).
      destruct (lookup_some s i p u id (ids ++ [last_id]) k0 (ks ++ [SKey key]) start j true
        (match ids ++ [last_id] with [] => true | _ => false end) v K Hu N R) as (j' & N' & ->).
      assert (lands (r_stack s) i p k0 match ids ++ [last_id] with [] => true | _ => false end v = Some (i, p ++ [k0])) as ->.
      { unfold lands. destruct v; auto. exfalso. eapply NR; reflexivity. }
      cbn [fst snd]. eapply IH; eauto.
    + apply holds_step in Hv; auto. destruct Hv as (u & Hu & R).
      destruct (lookup_some s i p u id (ids ++ [last_id]) k0 (ks ++ [SKey key]) start j true
        (match ids ++ [last_id] with [] => true | _ => false end) (VRef r) K Hu N R) as (j' & N' & ->).
      destruct (arrives_start _ _ _ _ _ _ K A2 H) as (w & (r0 & W0 & _)). simpl in W0.
      assert (lands (r_stack s) i p k0 match ids ++ [last_id] with [] => true | _ => false end (VRef r) = Some (r, [])) as ->.
      { unfold lands. rewrite W0. destruct ids; reflexivity. }
      cbn [fst snd]. eapply IH; eauto.
Qed.

(** ** Places without references *)
Lemma inside_app : forall p q v x, inside v (p ++ q) x -> exists y, inside v p y /\ inside y q x.
Proof.
  induction p as [|k p IH]; intros q v x H; simpl in H.
  - exists v. split; [constructor|auto].
  - inversion H; subst; match goal with G : inside _ (p ++ q) x |- _ => apply IH in G; destruct G as (y & G1 & G2) end; exists y; split; auto; econstructor; eauto.
Qed.
Lemma own_leads : forall stack x r ks q p, nth_error stack x = Some r -> own r -> leads stack (x, p) ks q -> fst q = x.
Proof.
  intros stack x r ks q p N O H. remember (x, p) as a. revert p Heqa. induction H; intros p0 Q; inversion Q; subst; auto.
  - eapply IHleads; eauto.
  - destruct H0 as (r0 & N0 & I0). simpl in *. rewrite N in N0. inversion N0; subst. exfalso. exact (O _ _ I0).
Qed.
Lemma own_arrives : forall stack x r ks q p, nth_error stack x = Some r -> own r -> arrives stack (x, p) ks q -> fst q = x.
Proof.
  intros stack x r ks q p N O H. remember (x, p) as a. revert p Heqa. induction H; intros p0 Q; inversion Q; subst; auto.
  - eapply IHarrives; eauto.
  - destruct H as (r0 & N0 & I0). simpl in *. rewrite N in N0. inversion N0; subst. exfalso. exact (O _ _ I0).
Qed.
Lemma step_dec : forall a b : step, {a = b} + {a <> b}.
Proof. decide equality; [apply String.string_dec|apply Nat.eq_dec]. Qed.
Lemma prefix_dec : forall p q, prefix p q \/ ~ prefix p q.
Proof.
  induction p as [|a p IH]; intros q; [left; exists q; auto|]. destruct q as [|b q]; [right; intros (r & Q); discriminate|].
  destruct (step_dec a b) as [->|D]; [|right; intros (r & Q); simpl in Q; inversion Q; congruence].
  destruct (IH q) as [(r & ->)|N]; [left; exists r; auto|right]. intros (r & Q). simpl in Q. inversion Q. apply N. exists r. auto.
Qed.
Lemma inside_fun : forall v p x, inside v p x -> forall y, inside v p y -> x = y.
Proof.
  intros v p x H. induction H as [v|l k x p y N I H IH|l i x p y N H IH]; intros z Hz; inversion Hz; subst; auto; apply IH.
  - assert (Some x = Some x0) as Q; [|inversion Q; subst; auto]. rewrite <- (NoDup_assoc _ _ _ N I). apply NoDup_assoc; auto.
  - assert (x0 = x) as -> by congruence. auto.
Qed.
Lemma changed_own : forall v p y v', changed v p y v' -> own v -> own y -> own v'.
Proof.
  intros v p y v' [C D] Ov Oy q j H. destruct (prefix_dec p q) as [(r & ->)|N1].
  - apply D in H. exact (Oy _ _ H).
  - destruct (prefix_dec q p) as [(r & ->)|N2].
    + assert (r <> []) as Hr by (intros ->; apply N1; exists []; rewrite !app_nil_r; auto).
      assert (inside v' (q ++ r) y) as I by (specialize (D [] y); rewrite app_nil_r in D; apply D; constructor).
      apply inside_app in I. destruct I as (z & Z1 & Z2). 
      assert (z = VRef j) as -> by (symmetry; exact (inside_fun _ _ _ H _ Z1)). inversion Z2; subst; congruence.
    + apply C in H; auto. exact (Ov _ _ H).
Qed.
Lemma stored_same : forall q y l l' j, stored q y l l' -> j <> fst q -> nth_error l' j = nth_error l j.
Proof. intros q y l l' j (_ & F & _) H. auto. Qed.
Lemma own_obj : forall o k y, own (VObject o) -> own y -> own (VObject (o ++ [(k, y)])).
Proof.
  intros o k y Oo Oy p j H. inversion H as [|l k0 x p0 z N I0 H0|]; subst.
  apply in_app_or in I0. destruct I0 as [G|[G|[]]].
  - apply (Oo (SKey k0 :: p0) j). apply In_key with (x := x); auto.
    rewrite map_app in N. apply NoDup_remove_1 in N. rewrite app_nil_r in N. exact N.
  - inversion G; subst. exact (Oy _ _ H0).
Qed.
Lemma own_inside : forall v p x, own v -> inside v p x -> own x.
Proof.
  intros v p x O H q j I. apply (O (p ++ q) j). clear O. induction H; simpl; auto; econstructor; eauto.
Qed.
(** Changes through [x] keep to slot [x]. *)
Lemma writes_own : forall x l l', writes x l l' -> forall r, nth_error l x = Some r -> own r ->
  (exists r', nth_error l' x = Some r' /\ own r') /\ forall j, j <> x -> nth_error l' j = nth_error l j.
Proof.
  intros x l l' H. induction H; intros r N O.
  - split; eauto.
  - assert (fst (x, @nil step) = x) as Q by reflexivity. pose proof H as St. destruct St as (_ & F & v & v' & A & B & C). simpl in *.
    rewrite N in A. inversion A; subst v. destruct (IHwrites v' B) as (P1 & P2).
    { eapply changed_own; [exact C|auto|auto]. }
    split; auto. intros j Hj. rewrite P2, F; auto.
  - pose proof (own_leads _ _ _ _ _ _ N O H) as Q. pose proof H0 as St. destruct St as (_ & F & v & v' & A & B & C). rewrite Q in *.
    rewrite N in A. inversion A; subst v. destruct (IHwrites v' B) as (P1 & P2).
    { eapply changed_own; [exact C|auto|auto]. }
    split; auto. intros j Hj. rewrite P2, F; auto.
  - pose proof (own_arrives _ _ _ _ _ _ N O H) as Q. pose proof H2 as St. destruct St as (_ & F & v & v' & A & B & C). rewrite Q in *.
    rewrite N in A. inversion A; subst v. destruct (IHwrites v' B) as (P1 & P2).
    { eapply changed_own; [exact C|auto|]. apply own_obj; auto.
      destruct H0 as (r0 & N0 & I0). rewrite Q, N in N0. inversion N0; subst. exact (own_inside _ _ _ O I0). }
    split; auto. intros j Hj. rewrite P2, F; auto.
Qed.
