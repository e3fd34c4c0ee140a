(** * C08, C24: reading and writing through paths; copies of variables. *)
From Coq Require Import String List ZArith Bool Arith Lia.
From Verif Require Import Float64 Syntax InterpModel BalanceBase StdModel PathSpec PathProofs Samples P_Array.
Import ListNotations.
Local Open Scope string_scope.
Local Open Scope nat_scope.
Local Open Scope list_scope.

(** The variable [name] is in slot [i]: read alone it gives a reference to it. *)
Definition lives (E : env) (n : nat) (name : string) (sid : option nat) (i : nat) (s : rt) : Prop :=
  eval E (S n) (EItem (Item name sid false false [] [])) Right s = Ok (Some (VRef i), FContinue) s.
(** The state once the slots of the computed indices are given back. *)
Definition dropped (s s1 : rt) : rt := set_stack (firstn (length (r_stack s)) (r_stack s1)) s1.

Lemma bind_ok : forall {A B} (m : M A) (k : A -> M B) s a s', m s = Ok a s' -> bind m k s = k a s'.
Proof. intros A B m k s a s' H. unfold bind. rewrite H. reflexivity. Qed.
Lemma lives_slot : forall E n name sid i s, lives E n name sid i s ->
  exists i0 v0, find_slot E name sid s = Ok i0 s /\ slot i0 s = Ok v0 s /\ match v0 with VRef r => r | _ => i0 end = i.
Proof.
  intros E n name sid i s H. unfold lives in H. cbn [eval expression item_] in H. unfold bind at 1 in H.
  destruct (find_slot E name sid s) as [i0 s'| | |] eqn:F; try discriminate. unfold bind in H.
  assert (s' = s) as ->.
  { unfold find_slot in F. destruct (e_look E).
    - unfold find_by_name in F. destruct (r_calls s); [discriminate|]. destruct (Nat.leb _ _); [|discriminate].
      destruct (assoc _ _); [|destruct (String.eqb _ _); discriminate]. destruct (Nat.leb _ _); [|discriminate].
      destruct sid; [destruct (Nat.eqb _ _)|]; congruence.
    - unfold find_by_slot in F. destruct (r_calls s); [discriminate|]. destruct (Nat.leb _ _); [|discriminate].
      destruct sid; [|discriminate]. destruct (Nat.leb _ _); congruence.
    - destruct (r_calls s); [discriminate|]. destruct (find_by_name name sid s); try discriminate. destruct (find_by_slot sid s); try discriminate. destruct (Nat.eqb _ _); congruence. }
  destruct (slot i0 s) as [v0 s''| | |] eqn:S0; try discriminate. unfold slot in S0.
  destruct (nth_error (r_stack s) i0) eqn:N; [|discriminate]. inversion S0; subst. unfold ret in H. inversion H; subst.
  exists i0, v0. unfold slot. rewrite N. auto.
Qed.

Lemma item_run : forall E n name sid cur tryf ids tids sd s i, lives E n name sid i s -> ids <> [] ->
  eval E (S n) (EItem (Item name sid cur tryf ids tids)) sd s =
  push_ids (eval E n) ids
    (lookup_ids ids 0 (i, []) (length (r_stack s)) 0 (match sd with Right => false | LeftInsert b => b end) tids
       (fun q => bind (match sd with Right => pread q | LeftInsert _ => ret (VUnsafeRef (fst q) (snd q)) end)
          (fun v => bind (trunc_stack (length (r_stack s))) (fun _ => ret (Some v, FContinue))))) s.
Proof.
  intros E n name sid cur tryf ids tids sd s i H Hne. destruct (lives_slot _ _ _ _ _ _ H) as (i0 & v0 & F & S0 & Q).
  cbn [eval expression item_]. unfold bind at 1. rewrite F. unfold bind at 1. rewrite S0. destruct ids as [|id ids]; [contradiction|].
  unfold bind at 1, stack_len at 1. cbn. subst i. reflexivity.
Qed.

(** Reading gives what is stored there, and gives the slots of the computed indices back. *)
Theorem C08_read_partial : forall E n name sid cur tryf ids ks s s1 i q v,
  lives E n name sid i s -> ids <> [] -> indexed E n ids s s1 -> Forall keyed (r_stack s1) ->
  names (r_stack s1) (length (r_stack s)) ids ks -> leads (r_stack s1) (i, []) ks q -> holds (r_stack s1) q v ->
  eval E (S n) (EItem (Item name sid cur tryf ids [])) Right s = Ok (Some v, FContinue) (dropped s s1).
Proof.
  intros E n name sid cur tryf ids ks s s1 i q v L Hne I K N Ld H.
  rewrite (item_run _ _ _ _ _ _ _ _ _ _ _ L Hne), (push_ids_run _ _ _ _ _ _ I).
  rewrite (lookup_leads _ _ _ _ K ids 0 i [] 0 ks q); [|rewrite Nat.add_0_r; auto|auto].
  unfold bind at 1. rewrite (proj2 (pread_holds _ _ _ K) H). reflexivity.
Qed.
Print Assumptions C08_read_partial.
(** A place that does not exist gives an error, and the value is as before. *)
Theorem C08_missing : forall E n name sid cur tryf ids ks s s1 i,
  lives E n name sid i s -> ids <> [] -> indexed E n ids s s1 -> Forall keyed (r_stack s1) ->
  Forall (refs_below (length (r_stack s1))) (r_stack s1) -> i < length (r_stack s1) ->
  names (r_stack s1) (length (r_stack s)) ids ks -> ~ (exists q, leads (r_stack s1) (i, []) ks q) ->
  forall sd, sd = Right \/ sd = LeftInsert false ->
  exists e, eval E (S n) (EItem (Item name sid cur tryf ids [])) sd s = Err e s1.
Proof.
  intros E n name sid cur tryf ids ks s s1 i L Hne I K RB Hi N NL sd Hsd.
  rewrite (item_run _ _ _ _ _ _ _ _ _ _ _ L Hne), (push_ids_run _ _ _ _ _ _ I).
  destruct (nth_error (r_stack s1) i) as [w|] eqn:W; [|apply nth_error_None in W; lia].
  replace (match sd with Right => false | LeftInsert b => b end) with false by (destruct Hsd; subst; reflexivity).
  eapply lookup_fails; eauto.
  - rewrite Nat.add_0_r. exact N.
  - exists w. split; auto. constructor.
Qed.
Print Assumptions C08_missing.

(** ** Writing *)
Lemma place_run : forall E n name sid cur tryf ids ks b s s1 i q,
  lives E n name sid i s -> ids <> [] -> indexed E n ids s s1 -> Forall keyed (r_stack s1) ->
  names (r_stack s1) (length (r_stack s)) ids ks -> leads (r_stack s1) (i, []) ks q ->
  eval E (S n) (EItem (Item name sid cur tryf ids [])) (LeftInsert b) s = Ok (Some (VUnsafeRef (fst q) (snd q)), FContinue) (dropped s s1).
Proof.
  intros E n name sid cur tryf ids ks b s s1 i q L Hne I K N Ld.
  rewrite (item_run _ _ _ _ _ _ _ _ _ _ _ L Hne), (push_ids_run _ _ _ _ _ _ I).
  rewrite (lookup_leads _ _ _ _ K ids 0 i [] 0 ks q); [|rewrite Nat.add_0_r; auto|auto]. reflexivity.
Qed.
Lemma nth_error_firstn' : forall {A} (l : list A) n i, i < n -> nth_error (firstn n l) i = nth_error l i.
Proof. intros A l. induction l as [|x l IH]; intros [|n] [|i] H; simpl; auto; try lia. apply IH. lia. Qed.
Lemma firstn_all_F : forall {A} (P : A -> Prop) n l, Forall P l -> Forall P (firstn n l).
Proof. intros A P n l H. revert n. induction H; intros [|n]; simpl; constructor; auto. Qed.
Lemma holds_firstn : forall stack n q v, holds stack q v -> fst q < n -> holds (firstn n stack) q v.
Proof. intros stack n q v (r & N & I) L. exists r. rewrite nth_error_firstn'; auto. Qed.
Lemma leads_holds : forall stack a ks q, leads stack a ks q -> exists v, holds stack q v.
Proof. intros stack a ks q H. induction H; eauto. Qed.

Lemma pwrite_run : forall s q v y, Forall keyed (r_stack s) -> holds (r_stack s) q v -> keyed y ->
  exists l, pwrite q y s = Ok tt (set_stack l s) /\ stored q y (r_stack s) l /\ Forall keyed l.
Proof.
  intros s [i p] v y K (r & N & I) Ky. simpl in *. unfold pwrite, bind, slot. simpl. rewrite N.
  pose proof (nth_error_Forall _ _ _ _ K N) as Kr. apply rd_inside in I; auto.
  destruct (wr_some _ _ _ y I) as (v' & W). rewrite W. exists (list_set i v' (r_stack s)). split; [reflexivity|].
  assert (i < length (r_stack s)) as Hi by (apply nth_error_Some; congruence). split.
  - split; [apply list_set_length|]. split; [intros j Hj; apply nset_ne; auto|]. exists r, v'. simpl.
    split; auto. split; [apply nset_eq; auto|]. apply wr_changed; auto.
  - apply Forall_forall. intros x Hx. apply In_nth_error in Hx. destruct Hx as (j & Hj). destruct (Nat.eq_dec j i) as [->|D].
    + rewrite nset_eq in Hj; auto. inversion Hj; subst. exact (wr_keyed _ _ _ _ Kr Ky W).
    + rewrite nset_ne in Hj; auto. eapply nth_error_Forall; eauto.
Qed.
Lemma stored_holds : forall q y l l', stored q y l l' -> holds l' q y.
Proof.
  intros [i p] y l l' (_ & _ & v & v' & _ & N & _ & C). exists v'. split; auto. simpl in *. specialize (C [] y). rewrite app_nil_r in C. apply C. constructor.
Qed.
Lemma stored_trans : forall q x y l l1 l2, stored q x l l1 -> stored q y l1 l2 -> stored q y l l2.
Proof.
  intros q x y l l1 l2 (L1 & F1 & v & v1 & N1 & M1 & C1 & D1) (L2 & F2 & v1' & v2 & N2 & M2 & C2 & D2).
  rewrite M1 in N2. inversion N2; subst v1'. split; [congruence|]. split; [intros j Hj; rewrite F2, F1; auto|].
  exists v, v2. split; auto. split; auto. split; auto. intros r z A B. rewrite C2, C1; auto. tauto.
Qed.

(** The kinds [=] accepts: the same, or anything where no value was yet. *)
Inductive settable : value -> value -> Prop :=
| St_return : forall b, (forall r, b <> VRef r) -> b <> VReturn -> (forall r p, b <> VUnsafeRef r p) ->
    (forall t, b <> VThread t) -> (forall c, b <> VIn c) -> settable VReturn b
| St_f64 : forall x a y b, settable (VF64 x a) (VF64 y b)
| St_bool : forall x a y b, settable (VBool x a) (VBool y b)
| St_str : forall x y, settable (VStr x) (VStr y)
| St_vec4 : forall x y, settable (VVec4 x) (VVec4 y)
| St_mat4 : forall x y, settable (VMat4 x) (VMat4 y)
| St_link : forall x y, settable (VLink x) (VLink y)
| St_array : forall x y, settable (VArray x) (VArray y)
| St_object : forall x y, settable (VObject x) (VObject y)
| St_option : forall a b, (a = VNone \/ exists x, a = VSome x) -> (b = VNone \/ exists x, b = VSome x) -> settable a b
| St_result : forall a b, ((exists x, a = VOk x) \/ exists x t, a = VErr x t) -> ((exists x, b = VOk x) \/ exists x t, b = VErr x t) -> settable a b
| St_rust : forall x y, settable (VRust x) (VRust y)
| St_closure : forall a b c x y z, settable (VClosure a b c) (VClosure x y z).
Ltac kill := repeat match goal with
  | H : _ \/ _ |- _ => destruct H | H : exists _, _ |- _ => destruct H | H : _ = _ |- _ => discriminate H | H : ?a <> ?a |- _ => destruct H; reflexivity
  | H : forall _, _ <> _ |- _ => exfalso; eapply H; reflexivity | H : forall _ _, _ <> _ |- _ => exfalso; eapply H; reflexivity end.
Lemma set_spec : forall E a b, (settable a b -> assign_val E OpSet a b = AOk b) /\
  (~ settable a b -> exists m, assign_val E OpSet a b = AErr m).
Proof.
  intros E a b. split.
  - intros H. inversion H; subst; try reflexivity.
    + destruct b; kill; reflexivity.
    + destruct H0 as [->|(? & ->)]; destruct H1 as [->|(? & ->)]; reflexivity.
    + destruct H0 as [(? & ->)|(? & ? & ->)]; destruct H1 as [(? & ->)|(? & ? & ->)]; reflexivity.
  - intros NS. destruct b; destruct a; try (eexists; reflexivity); exfalso; apply NS;
      solve [constructor; eauto; discriminate | apply St_option; eauto | apply St_result; eauto].
Qed.

(** What [a <op>= b] leaves in the place [q]. The value there, if it is a reference, is replaced by what
    it refers to first; then the right side is read. *)
Definition target (stack : list value) (q : place) (av : value) : Prop :=
  (holds stack q av /\ forall r, av <> VRef r) \/ (exists r, holds stack q (VRef r) /\ nth_error stack r = Some av).

Lemma assign_run : forall E n op name sid cur tryf ids ks right s b s0 s1 i q av,
  op <> OpAssign -> eval E (S n) right Right s = Ok (Some b, FContinue) s0 ->
  lives E n name sid i s0 -> ids <> [] -> indexed E n ids s0 s1 -> Forall keyed (r_stack s1) ->
  names (r_stack s1) (length (r_stack s0)) ids ks -> leads (r_stack s1) (i, []) ks q -> fst q < length (r_stack s0) ->
  target (r_stack (dropped s0 s1)) q av ->
  exists l, Forall keyed l /\ holds l q av /\ (l = r_stack (dropped s0 s1) \/ stored q av (r_stack (dropped s0 s1)) l) /\
  eval E (S (S n)) (EAssign op (EItem (Item name sid cur tryf ids [])) right) Right s =
  bind (getv b) (fun bv => bind (pread q) (fun av =>
    match assign_val E op av bv with
    | AOk v => bind (pwrite q v) (fun _ => ret (None, FContinue))
    | AErr m => fail m
    | APanic => panic "not implemented"
    end)) (set_stack l s1).
Proof.
  intros E n op name sid cur tryf ids ks right s b s0 s1 i q av Hop Hr L Hne I K N Ld Hq T.
  set (s2 := dropped s0 s1) in *. assert (Forall keyed (r_stack s2)) as K2 by (apply firstn_all_F; auto).
  destruct (leads_holds _ _ _ _ Ld) as (v & Hv). apply holds_firstn with (n := length (r_stack s0)) in Hv; auto.
  change (firstn (length (r_stack s0)) (r_stack s1)) with (r_stack s2) in Hv.
  assert (exists l, Forall keyed l /\ holds l q av /\ (l = r_stack s2 \/ stored q av (r_stack s2) l) /\
    bind (pread q) (fun v => bind (match v with VRef i => bind (slot i) (fun w => pwrite q w) | _ => ret tt end) (fun _ => ret q)) s2 =
    Ok q (set_stack l s1)) as (l & Kl & Hl & El & Rl).
  { destruct T as [[T NR]|(r & T & Nr)].
    - exists (r_stack s2). splits; auto. unfold bind at 1. rewrite (proj2 (pread_holds _ _ _ K2) T).
      destruct av; try reflexivity. exfalso. eapply NR; reflexivity.
    - pose proof (nth_error_Forall _ _ _ _ K2 Nr) as Ka.
      destruct (pwrite_run s2 q _ av K2 T Ka) as (l & W & Sl & Kl). exists l. splits; auto.
      + exact (stored_holds _ _ _ _ Sl).
      + unfold bind at 1. rewrite (proj2 (pread_holds _ _ _ K2) T). unfold bind, slot. rewrite Nr, W. reflexivity. }
  exists l. splits; auto.
  change (eval E (S (S n)) (EAssign op (EItem (Item name sid cur tryf ids [])) right) Right) with
    (assign E (eval E (S n)) op (EItem (Item name sid cur tryf ids [])) right).
  unfold assign. destruct op; try contradiction;
    (eapply eq_trans; [apply bind_ok; exact Hr|]; cbv beta iota; eapply eq_trans;
      [apply bind_ok; exact (place_run E n name sid cur tryf ids ks false s0 s1 i q L Hne I K N Ld)|];
     destruct q as [qi qp]; cbv beta iota; cbn [fst snd] in *; eapply eq_trans; [apply bind_ok; exact Rl|]; reflexivity).
Qed.

(** [a.x.y[i] = e]: the right side is evaluated first; afterwards the value at the place is that of the
    right side, every other place and every other variable is as before. *)
Theorem C08_write_partial : forall E n name sid cur tryf ids ks right s b s0 s1 i q av bv,
  eval E (S n) right Right s = Ok (Some b, FContinue) s0 ->
  lives E n name sid i s0 -> ids <> [] -> indexed E n ids s0 s1 -> Forall keyed (r_stack s1) ->
  names (r_stack s1) (length (r_stack s0)) ids ks -> leads (r_stack s1) (i, []) ks q -> fst q < length (r_stack s0) ->
  target (r_stack (dropped s0 s1)) q av ->
  (b = bv /\ (forall r, b <> VRef r)) \/ (exists r, b = VRef r /\ r <> fst q /\ nth_error (r_stack (dropped s0 s1)) r = Some bv) ->
  keyed bv -> settable av bv ->
  exists l, eval E (S (S n)) (EAssign OpSet (EItem (Item name sid cur tryf ids [])) right) Right s = Ok (None, FContinue) (set_stack l s1) /\
            stored q bv (r_stack (dropped s0 s1)) l.
Proof.
  intros E n name sid cur tryf ids ks right s b s0 s1 i q av bv Hr L Hne I K N Ld Hq T Hb Kb St.
  destruct (assign_run E n OpSet name sid cur tryf ids ks right s b s0 s1 i q av ltac:(discriminate) Hr L Hne I K N Ld Hq T)
    as (l & Kl & Hl & El & ->).
  assert (getv b (set_stack l s1) = Ok bv (set_stack l s1)) as G.
  { destruct Hb as [[-> NR]|(r & -> & D & Nr)]; [destruct bv; try reflexivity; exfalso; eapply NR; reflexivity|].
    unfold getv, slot. simpl. destruct El as [->|(_ & F & _)]; [rewrite Nr; auto|]. rewrite F, Nr; auto. }
  unfold bind at 1. rewrite G. unfold bind at 1. rewrite (proj2 (pread_holds q (set_stack l s1) av Kl) Hl).
  rewrite (proj1 (set_spec E av bv) St). unfold bind.
  destruct (pwrite_run (set_stack l s1) q av bv Kl Hl Kb) as (l2 & -> & Sl & _). exists l2. split; [reflexivity|].
  destruct El as [->|El]; [exact Sl|]. exact (stored_trans _ _ _ _ _ _ El Sl).
Qed.
Print Assumptions C08_write_partial.
(** Kinds that do not match: an error; what was a reference at the place is now a copy of its target,
    everything else is as before. *)
Theorem C08_write_kind : forall E n name sid cur tryf ids ks right s b s0 s1 i q av bv,
  eval E (S n) right Right s = Ok (Some b, FContinue) s0 ->
  lives E n name sid i s0 -> ids <> [] -> indexed E n ids s0 s1 -> Forall keyed (r_stack s1) ->
  names (r_stack s1) (length (r_stack s0)) ids ks -> leads (r_stack s1) (i, []) ks q -> fst q < length (r_stack s0) ->
  target (r_stack (dropped s0 s1)) q av ->
  (b = bv /\ (forall r, b <> VRef r)) \/ (exists r, b = VRef r /\ r <> fst q /\ nth_error (r_stack (dropped s0 s1)) r = Some bv) ->
  ~ settable av bv ->
  exists l m, eval E (S (S n)) (EAssign OpSet (EItem (Item name sid cur tryf ids [])) right) Right s = Err m (set_stack l s1) /\
            (l = r_stack (dropped s0 s1) \/ stored q av (r_stack (dropped s0 s1)) l).
Proof.
  intros E n name sid cur tryf ids ks right s b s0 s1 i q av bv Hr L Hne I K N Ld Hq T Hb St.
  destruct (assign_run E n OpSet name sid cur tryf ids ks right s b s0 s1 i q av ltac:(discriminate) Hr L Hne I K N Ld Hq T)
    as (l & Kl & Hl & El & ->).
  assert (getv b (set_stack l s1) = Ok bv (set_stack l s1)) as G.
  { destruct Hb as [[-> NR]|(r & -> & D & Nr)]; [destruct bv; try reflexivity; exfalso; eapply NR; reflexivity|].
    unfold getv, slot. simpl. destruct El as [->|(_ & F & _)]; [rewrite Nr; auto|]. rewrite F, Nr; auto. }
  unfold bind at 1. rewrite G. unfold bind at 1. rewrite (proj2 (pread_holds q (set_stack l s1) av Kl) Hl).
  destruct (proj2 (set_spec E av bv) St) as (m & ->). exists l, m. split; auto.
Qed.
Print Assumptions C08_write_kind.
(** [a.x.y[i] op= e] for numbers. *)
Definition arith (E : env) (op : assign_op) (x y : f64) : f64 :=
  match op with
  | OpAdd => fadd x y | OpSub => fsub x y | OpMul => fmul x y | OpDiv => fdiv x y
  | OpRem => e_frem E x y | OpPow => e_fpow E x y | _ => y
  end.
Theorem C08_update : forall E n op name sid cur tryf ids ks right s s0 s1 i q x xs y ys,
  op <> OpAssign -> eval E (S n) right Right s = Ok (Some (VF64 y ys), FContinue) s0 ->
  lives E n name sid i s0 -> ids <> [] -> indexed E n ids s0 s1 -> Forall keyed (r_stack s1) ->
  names (r_stack s1) (length (r_stack s0)) ids ks -> leads (r_stack s1) (i, []) ks q -> fst q < length (r_stack s0) ->
  target (r_stack (dropped s0 s1)) q (VF64 x xs) ->
  exists l, eval E (S (S n)) (EAssign op (EItem (Item name sid cur tryf ids [])) right) Right s = Ok (None, FContinue) (set_stack l s1) /\
            stored q (VF64 (arith E op x y) ys) (r_stack (dropped s0 s1)) l.
Proof.
  intros E n op name sid cur tryf ids ks right s s0 s1 i q x xs y ys Hop Hr L Hne I K N Ld Hq T.
  destruct (assign_run E n op name sid cur tryf ids ks right s _ s0 s1 i q _ Hop Hr L Hne I K N Ld Hq T)
    as (l & Kl & Hl & El & ->).
  unfold bind at 1, getv at 1, ret at 1. unfold bind at 1. rewrite (proj2 (pread_holds q (set_stack l s1) _ Kl) Hl).
  assert (assign_val E op (VF64 x xs) (VF64 y ys) = AOk (VF64 (arith E op x y) ys)) as -> by (destruct op; try contradiction; reflexivity).
  unfold bind. destruct (pwrite_run (set_stack l s1) q _ (VF64 (arith E op x y) ys) Kl Hl Logic.I) as (l2 & -> & Sl & _).
  exists l2. split; [reflexivity|]. destruct El as [->|El]; [exact Sl|]. exact (stored_trans _ _ _ _ _ _ El Sl).
Qed.
Print Assumptions C08_update.

(** [a.x.k := e] on an object without the key [k] adds it. *)
Lemma stored_wr : forall i p r y r' l, nth_error l i = Some r -> keyed r -> keyed y -> wr r p y = Some r' -> stored (i, p) y l (list_set i r' l).
Proof.
  intros i p r y r' l N K Ky W. assert (i < length l) as Hi by (apply nth_error_Some; congruence).
  split; [apply list_set_length|]. split; [intros j Hj; apply nset_ne; auto|]. exists r, r'. simpl.
  split; auto. split; [apply nset_eq; auto|]. apply wr_changed; auto.
Qed.
Lemma firstn_list_set : forall {A} i (x : A) l n, i < n -> firstn n (list_set i x l) = list_set i x (firstn n l).
Proof. intros A i x l. revert i. induction l as [|z l IH]; intros [|i] [|n] H; simpl; auto; try lia. rewrite IH; auto. lia. Qed.
Lemma names_len : forall stack i ids ks, names stack i ids ks -> length ids = length ks.
Proof. intros stack i ids ks H. induction H; simpl; auto. Qed.
Theorem C08_insert : forall E n name sid cur tryf ids last_id ks key right s b s0 s1 i q o bv,
  eval E (S n) right Right s = Ok (Some b, FContinue) s0 ->
  (b = bv /\ (forall r, b <> VRef r)) \/ (exists r, b = VRef r /\ nth_error (r_stack s0) r = Some bv) ->
  lives E n name sid i s0 -> indexed E n (ids ++ [last_id]) s0 s1 -> Forall keyed (r_stack s1) ->
  names (r_stack s1) (length (r_stack s0)) (ids ++ [last_id]) (ks ++ [SKey key]) -> arrives (r_stack s1) (i, []) ks q ->
  holds (r_stack s1) q (VObject o) -> ~ In key (map fst o) -> fst q < length (r_stack s0) -> keyed bv ->
  exists l, eval E (S (S n)) (EAssign OpAssign (EItem (Item name sid cur tryf (ids ++ [last_id]) [])) right) Right s =
              Ok (None, FContinue) (set_stack l s1) /\
            stored q (VObject (o ++ [(key, bv)])) (r_stack (dropped s0 s1)) l.
Proof.
  intros E n name sid cur tryf ids last_id ks key right s b s0 s1 i q o bv Hr Hb L I K N A Hq NK Lq Kb.
  assert (assoc key o = None) as NA.
  { destruct (assoc key o) as [x|] eqn:Q; auto. apply assoc_In in Q. exfalso. apply NK. apply (in_map fst) in Q. exact Q. }
  destruct q as [qi qp]. pose proof Hq as (r & Nr & Ir). cbn [fst snd] in *.
  pose proof (nth_error_Forall _ _ _ _ K Nr) as Kr.
  assert (keyed (VObject o)) as Ko by exact (holds_keyed _ _ _ K Hq).
  assert (forall x, keyed x -> keyed (VObject (o ++ [(key, x)]))) as Kins.
  { intros x Kx. cbn [keyed] in *. destruct Ko as [D F]. split.
    - rewrite map_app. cbn. apply NoDup_Add with (a := key) (l := map fst o); [|auto].
      rewrite <- (app_nil_r (map fst o)) at 1. apply Add_app.
    - rewrite each_obj in *. apply Forall_app. split; auto. }
  pose proof Ir as Rr. apply rd_inside in Rr; auto.
  destruct (wr_some _ _ _ (VObject (o ++ [(key, VReturn)])) Rr) as (r1 & W1).
  destruct (wr_some _ _ _ (VObject (o ++ [(key, bv)])) Rr) as (r2 & W2).
  assert (pwrite (qi, qp) (VObject (o ++ [(key, VReturn)])) s1 = Ok tt (set_stack (list_set qi r1 (r_stack s1)) s1)) as PW.
  { unfold pwrite, bind, slot. cbn [fst snd]. rewrite Nr, W1. reflexivity. }
  set (m := length (r_stack s0)) in *.
  assert (eval E (S n) (EItem (Item name sid cur tryf (ids ++ [last_id]) [])) (LeftInsert true) s0 =
    Ok (Some (VUnsafeRef qi (qp ++ [SKey key])), FContinue) (set_stack (list_set qi r1 (firstn m (r_stack s1))) s1)) as PL.
  { rewrite (item_run _ _ _ _ _ _ _ _ _ _ _ L) by (destruct ids; discriminate). rewrite (push_ids_run _ _ _ _ _ _ I).
    pose proof (names_len _ _ _ _ N) as LN. rewrite !app_length in LN. cbn in LN.
    rewrite (lookup_inserts _ _ _ K ids 0 i [] 0 ks (qi, qp) last_id key o (set_stack (list_set qi r1 (r_stack s1)) s1));
      [|rewrite Nat.add_0_r; exact N|exact A|exact Hq|exact NA|lia|exact PW].
    cbn [fst snd]. unfold bind, ret, trunc_stack, modify. cbn [set_stack r_stack]. fold m. rewrite firstn_list_set; auto. }
  exists (list_set qi r2 (r_stack (dropped s0 s1))). split.
  - change (eval E (S (S n)) (EAssign OpAssign (EItem (Item name sid cur tryf (ids ++ [last_id]) [])) right) Right) with
      (assign E (eval E (S n)) OpAssign (EItem (Item name sid cur tryf (ids ++ [last_id]) [])) right). unfold assign.
    eapply eq_trans; [apply bind_ok; exact Hr|]. cbv beta iota.
    assert (match b with VRef i => slot i | _ => ret b end s0 = Ok bv s0) as G.
    { destruct Hb as [[-> NR]|(r0 & -> & N0)]; [destruct bv; try reflexivity; exfalso; eapply NR; reflexivity|]. unfold slot. rewrite N0. auto. }
    eapply eq_trans; [apply bind_ok; exact G|]. destruct (ids ++ [last_id]) as [|z zs] eqn:Z; [destruct ids; discriminate|].
    eapply eq_trans; [apply bind_ok; exact PL|]. cbv beta iota. eapply eq_trans; [apply bind_ok|reflexivity].
    unfold pwrite, bind, slot. cbn [fst snd set_stack r_stack].
    assert (qi < length (firstn m (r_stack s1))) as Hi.
    { rewrite firstn_length. assert (qi < length (r_stack s1)) by (apply nth_error_Some; congruence). lia. }
    rewrite nset_eq by auto. rewrite (wr_app _ _ _ _ [SKey key] bv W1). cbn [wr]. rewrite assoc_new by auto. rewrite aset_new by auto.
    rewrite W2. unfold modify. cbn. rewrite lset_lset. reflexivity.
  - apply stored_wr with (r := r); auto. cbn [dropped set_stack r_stack]. rewrite nth_error_firstn'; auto.
Qed.
Print Assumptions C08_insert.
(** [a.x.k := e] where the key exists replaces what is there, whatever its kind. *)
Theorem C08_replace : forall E n name sid cur tryf ids ks right s b s0 s1 i q bv,
  eval E (S n) right Right s = Ok (Some b, FContinue) s0 ->
  (b = bv /\ (forall r, b <> VRef r)) \/ (exists r, b = VRef r /\ nth_error (r_stack s0) r = Some bv) ->
  lives E n name sid i s0 -> ids <> [] -> indexed E n ids s0 s1 -> Forall keyed (r_stack s1) ->
  names (r_stack s1) (length (r_stack s0)) ids ks -> leads (r_stack s1) (i, []) ks q -> fst q < length (r_stack s0) -> keyed bv ->
  exists l, eval E (S (S n)) (EAssign OpAssign (EItem (Item name sid cur tryf ids [])) right) Right s = Ok (None, FContinue) (set_stack l s1) /\
            stored q bv (r_stack (dropped s0 s1)) l.
Proof.
  intros E n name sid cur tryf ids ks right s b s0 s1 i q bv Hr Hb L Hne I K N Ld Hq Kb.
  destruct (leads_holds _ _ _ _ Ld) as (v & Hv). apply holds_firstn with (n := length (r_stack s0)) in Hv; auto.
  destruct (pwrite_run (dropped s0 s1) q v bv (firstn_all_F _ _ _ K) Hv Kb) as (l & W & Sl & _). exists l. split; auto.
  change (eval E (S (S n)) (EAssign OpAssign (EItem (Item name sid cur tryf ids [])) right) Right) with
      (assign E (eval E (S n)) OpAssign (EItem (Item name sid cur tryf ids [])) right). unfold assign.
  eapply eq_trans; [apply bind_ok; exact Hr|]. cbv beta iota.
  assert (match b with VRef i => slot i | _ => ret b end s0 = Ok bv s0) as G.
  { destruct Hb as [[-> NR]|(r0 & -> & N0)]; [destruct bv; try reflexivity; exfalso; eapply NR; reflexivity|]. unfold slot. rewrite N0. auto. }
  eapply eq_trans; [apply bind_ok; exact G|]. destruct ids as [|z zs]; [contradiction|].
  eapply eq_trans; [apply bind_ok; exact (place_run E n name sid cur tryf (z :: zs) ks true s0 s1 i q L Hne I K N Ld)|].
  destruct q as [qi qp]. cbv beta iota. eapply eq_trans; [apply bind_ok; exact W|]. reflexivity.
Qed.
Print Assumptions C08_replace.

(** ** C24 *)
Definition bare (name : string) (sid : option nat) : expr := EItem (Item name sid false false [] []).
(** [x := y] gives [x] a slot of its own with the value of [y]. *)
Theorem C24_declare : forall E n x xsid cur y ysid i s v,
  lives E n y ysid i s -> nth_error (r_stack s) i = Some v ->
  exists s', eval E (S (S n)) (EAssign OpAssign (EItem (Item x xsid cur false [] [])) (bare y ysid)) Right s = Ok (None, FContinue) s' /\
             r_stack s' = r_stack s ++ [v].
Proof.
  intros E n x xsid cur y ysid i s v L N. 
  assert (slot i s = Ok v s) as G by (unfold slot; rewrite N; auto).
  assert (forall c, assign E (eval E (S n)) OpAssign (EItem (Item x xsid c false [] [])) (bare y ysid) s = Ok (None, FContinue)
    (set_stack (r_stack s ++ [v]) (let s := set_locals ((x, length (r_stack s)) :: r_locals s) s in
       if c then set_currents ((x, length (r_stack s)) :: r_currents s) s else s))) as A.
  { intros c. unfold assign. eapply eq_trans; [apply bind_ok; exact L|]. cbv beta iota.
    eapply eq_trans; [apply bind_ok; exact G|]. destruct c; reflexivity. }
  eexists. split; [exact (A cur)|reflexivity].
Qed.
Print Assumptions C24_declare.
(** [x = y], where [x] holds a value of the same kind: [x] gets the value of [y], nothing else changes. *)
Theorem C24_set : forall E n x xsid y ysid i j s v w,
  lives E n y ysid i s -> lives E n x xsid j s -> nth_error (r_stack s) i = Some v -> nth_error (r_stack s) j = Some w ->
  Forall keyed (r_stack s) -> settable w v ->
  exists l, eval E (S (S n)) (EAssign OpSet (bare x xsid) (bare y ysid)) Right s = Ok (None, FContinue) (set_stack l s) /\
            stored (j, []) v (r_stack s) l.
Proof.
  intros E n x xsid y ysid i j s v w Ly Lx Ni Nj K St.
  assert (holds (r_stack s) (j, []) w) as H by (exists w; split; [auto|constructor]).
  destruct (pwrite_run s (j, []) w v K H (nth_error_Forall _ _ _ _ K Ni)) as (l & W & Sl & _). exists l. split; auto.
  assert (eval E (S n) (bare x xsid) (LeftInsert false) s = Ok (Some (VRef j), FContinue) s) as Lx2 by exact Lx.
  change (eval E (S (S n)) (EAssign OpSet (bare x xsid) (bare y ysid)) Right) with (assign E (eval E (S n)) OpSet (bare x xsid) (bare y ysid)).
  unfold assign. eapply eq_trans; [apply bind_ok; exact Ly|]. cbv beta iota.
  eapply eq_trans; [apply bind_ok; exact Lx2|]. cbv beta iota.
  assert (bind (slot j) (fun _ => ret (j, @nil step)) s = Ok (j, []) s) as G1 by (unfold bind, slot; rewrite Nj; auto).
  eapply eq_trans; [apply bind_ok; exact G1|].
  assert (getv (VRef i) s = Ok v s) as G2 by (unfold getv, slot; rewrite Ni; auto).
  eapply eq_trans; [apply bind_ok; exact G2|]. eapply eq_trans; [apply bind_ok; exact (proj2 (pread_holds _ _ _ K) H)|].
  rewrite (proj1 (set_spec E w v) St). eapply eq_trans; [apply bind_ok; exact W|]. reflexivity.
Qed.
Print Assumptions C24_set.
(** Two variables with values free of references: any sequence of changes through one of them leaves the
    other as it was, and both stay free of references, so changes to either may follow in any order.
    Missing in the whole: values holding references, see [C24_refuted]. *)
Theorem C24_independent_partial : forall x y l l' a b,
  x <> y -> nth_error l x = Some a -> nth_error l y = Some b -> own a -> own b -> writes x l l' ->
  nth_error l' y = Some b /\ exists a', nth_error l' x = Some a' /\ own a'.
Proof.
  intros x y l l' a b D Na Nb Oa Ob W. destruct (writes_own _ _ _ W _ Na Oa) as (P1 & P2). split; auto. rewrite P2; auto.
Qed.
Print Assumptions C24_independent_partial.
(** So after [x := y] neither sees changes of the other. *)
Theorem C24_copy_partial : forall E n x xsid cur y ysid i s v,
  lives E n y ysid i s -> nth_error (r_stack s) i = Some v -> own v ->
  exists s', eval E (S (S n)) (EAssign OpAssign (EItem (Item x xsid cur false [] [])) (bare y ysid)) Right s = Ok (None, FContinue) s' /\
    (forall l, writes (length (r_stack s)) (r_stack s') l -> nth_error l i = Some v) /\
    (forall l, writes i (r_stack s') l -> nth_error l (length (r_stack s)) = Some v).
Proof.
  intros E n x xsid cur y ysid i s v L N O. destruct (C24_declare E n x xsid cur y ysid i s v L N) as (s' & Ev & St). exists s'. split; auto.
  assert (i < length (r_stack s)) as Hi by (apply nth_error_Some; congruence).
  assert (nth_error (r_stack s') i = Some v) as N1 by (rewrite St, nth_error_app1; auto).
  assert (nth_error (r_stack s') (length (r_stack s)) = Some v) as N2 by (rewrite St, nth_error_app2, Nat.sub_diag; auto).
  split; intros l W.
  - destruct (C24_independent_partial (length (r_stack s)) i (r_stack s') l v v) as (A & _); auto. lia.
  - destruct (C24_independent_partial i (length (r_stack s)) (r_stack s') l v v) as (A & _); auto. lia.
Qed.
Print Assumptions C24_copy_partial.
(** An assignment to a place in [x] is such a change. *)
Theorem C24_assign_partial : forall E n name sid cur tryf ids ks right s b s0 s1 i q av bv a y,
  eval E (S n) right Right s = Ok (Some b, FContinue) s0 ->
  lives E n name sid i s0 -> ids <> [] -> indexed E n ids s0 s1 -> Forall keyed (r_stack s1) ->
  names (r_stack s1) (length (r_stack s0)) ids ks -> leads (r_stack s1) (i, []) ks q -> i < length (r_stack s0) ->
  target (r_stack (dropped s0 s1)) q av ->
  (b = bv /\ (forall r, b <> VRef r)) \/ (exists r, b = VRef r /\ r <> fst q /\ nth_error (r_stack (dropped s0 s1)) r = Some bv) ->
  keyed bv -> settable av bv ->
  nth_error (r_stack s1) i = Some a -> own a -> y <> i ->
  exists s', eval E (S (S n)) (EAssign OpSet (EItem (Item name sid cur tryf ids [])) right) Right s = Ok (None, FContinue) s' /\
             nth_error (r_stack s') y = nth_error (r_stack (dropped s0 s1)) y.
Proof.
  intros E n name sid cur tryf ids ks right s b s0 s1 i q av bv a y Hr L Hne I K N Ld Hi T Hb Kb St Na Oa D.
  pose proof (own_leads _ _ _ _ _ _ Na Oa Ld) as Q.
  destruct (C08_write_partial E n name sid cur tryf ids ks right s b s0 s1 i q av bv Hr L Hne I K N Ld ltac:(lia) T Hb Kb St) as (l & Ev & Sl).
  exists (set_stack l s1). split; auto. cbn. apply (stored_same _ _ _ _ _ Sl). lia.
Qed.
Print Assumptions C24_assign_partial.

(** ** Cases *)
Definition f_ (z : Z) : value := vf64 (f_of_Z z).
Definition obj_ : rt :=
  RT 0 [VObject [("x", VArray [f_ 1; VRef 1]); ("y", f_ 2)]; VArray [f_ 7; f_ 8]; f_ 1] [Call "main" 0 0 0 0]
    [("i", 2); ("b", 1); ("a", 0)] [] (World [] [] []).
Definition at_ : expr := EItem (Item "a" (Some 3) false false [IdStr "x"; IdExpr (loc "i" 1); IdF64 (f_of_Z 0)] []).
(** a.x[i][0], where a.x[1] refers to b: 7 *)
Example C08_example_read : exists s1,
  lives std_ 5 "a" (Some 3) 0 obj_ /\ indexed std_ 5 [IdStr "x"; IdExpr (loc "i" 1); IdF64 (f_of_Z 0)] obj_ s1 /\
  Forall keyed (r_stack s1) /\ names (r_stack s1) 3 [IdStr "x"; IdExpr (loc "i" 1); IdF64 (f_of_Z 0)] [SKey "x"; SIdx 1; SIdx 0] /\
  leads (r_stack s1) (0, []) [SKey "x"; SIdx 1; SIdx 0] (1, [SIdx 0]) /\ holds (r_stack s1) (1, [SIdx 0]) (f_ 7) /\
  eval std_ 6 at_ Right obj_ = Ok (Some (f_ 7), FContinue) obj_.
Proof.
  exists (set_stack (r_stack obj_ ++ [VRef 2]) obj_).
  assert (NoDup ["x"; "y"]) as ND.
  { constructor; [intros [H|[]]; discriminate|]. constructor; [intros []|constructor]. }
  assert (holds (r_stack obj_ ++ [VRef 2]) (1, [SIdx 0]) (f_ 7)) as H7.
  { eexists. split; [reflexivity|]. econstructor; [reflexivity|constructor]. }
  splits.
  - reflexivity.
  - apply Ix_const; [discriminate|]. eapply Ix_expr; [vm_compute; reflexivity|]. apply Ix_const; [discriminate|]. constructor.
  - repeat first [exact ND | constructor].
  - apply Nm_str. change (SIdx 1) with (SIdx (position (f_of_Z 1))). eapply Nm_computed_num; [right; exists 2; split; reflexivity|].
    change (SIdx 0) with (SIdx (position (f_of_Z 0))). apply Nm_num. constructor.
  - eapply Ld_on with (v := VArray [f_ 1; VRef 1]); [discriminate| |discriminate|].
    + eexists. split; [reflexivity|]. eapply In_key; [exact ND|left; reflexivity|constructor].
    + eapply Ld_ref with (j := 1); [discriminate| |].
      * eexists. split; [reflexivity|]. eapply In_key; [exact ND|left; reflexivity|]. econstructor; [reflexivity|constructor].
      * change [SIdx 0] with ([] ++ [SIdx 0]) at 2. eapply Ld_last. exact H7.
  - exact H7.
  - vm_compute. reflexivity.
Qed.
(** a.x[i][0] = 9 changes b, which a.x[1] refers to; a.x[0] = 9 changes a. *)
Example C08_example_write :
  (exists s', eval std_ 7 (EAssign OpSet at_ (num 9)) Right obj_ = Ok (None, FContinue) s' /\
    r_stack s' = [VObject [("x", VArray [f_ 1; VRef 1]); ("y", f_ 2)]; VArray [f_ 9; f_ 8]; f_ 1]) /\
  (exists s', eval std_ 7 (EAssign OpSet (EItem (Item "a" (Some 3) false false [IdStr "x"; IdF64 (f_of_Z 0)] [])) (num 9)) Right obj_ =
    Ok (None, FContinue) s' /\
    r_stack s' = [VObject [("x", VArray [f_ 9; VRef 1]); ("y", f_ 2)]; VArray [f_ 7; f_ 8]; f_ 1]).
Proof. split; eexists; split; vm_compute; reflexivity. Qed.
(** a.x[i] = [3], where a.x[1] refers to b: the copy changes, b does not. *)
Example C08_example_target : exists s', eval std_ 7 (EAssign OpSet
  (EItem (Item "a" (Some 3) false false [IdStr "x"; IdExpr (loc "i" 1)] [])) (EVar (VArray [f_ 3]))) Right obj_ = Ok (None, FContinue) s' /\
  r_stack s' = [VObject [("x", VArray [f_ 1; VArray [f_ 3]]); ("y", f_ 2)]; VArray [f_ 7; f_ 8]; f_ 1].
Proof. eexists; split; vm_compute; reflexivity. Qed.
(** a.z := 4 *)
Example C08_example_insert : exists s', eval std_ 7 (EAssign OpAssign
  (EItem (Item "a" (Some 3) false false [IdStr "z"] [])) (num 4)) Right obj_ = Ok (None, FContinue) s' /\
  r_stack s' = [VObject [("x", VArray [f_ 1; VRef 1]); ("y", f_ 2); ("z", f_ 4)]; VArray [f_ 7; f_ 8]; f_ 1].
Proof. eexists; split; vm_compute; reflexivity. Qed.
(** a.z, b[2]: errors *)
Example C08_example_missing :
  (exists e s', eval std_ 7 (EItem (Item "a" (Some 3) false false [IdStr "z"] [])) Right obj_ = Err e s') /\
  (exists e s', eval std_ 7 (EItem (Item "b" (Some 2) false false [IdF64 (f_of_Z 2)] [])) Right obj_ = Err e s').
Proof. split; eexists; eexists; vm_compute; reflexivity. Qed.
(** The position -1 is not an error: b[-1] is b[0] (mod.rs 313 [id as usize]). *)
Theorem C08_negative_refuted :
  eval std_ 7 (EItem (Item "b" (Some 2) false false [IdF64 (f_of_Z (-1))] [])) Right obj_ = Ok (Some (f_ 7), FContinue) obj_.
Proof. vm_compute. reflexivity. Qed.
(** After an index that is a list of positions the next computed index is read from the wrong slot
    (mod.rs 232-310 does not advance [expr_j]): a := [[[7, 8]]]; p := [0, 0]; i := 1; a[p][i] is an error
    though the place exists. *)
Definition grid_ : rt :=
  RT 0 [VArray [VArray [VArray [f_ 7; f_ 8]]]; VArray [f_ 0; f_ 0]; f_ 1] [Call "main" 0 0 0 0]
    [("i", 2); ("p", 1); ("a", 0)] [] (World [] [] []).
Theorem C08_list_refuted :
  holds (r_stack grid_) (0, [SIdx 0; SIdx 0; SIdx 1]) (f_ 8) /\
  eval std_ 7 (EItem (Item "a" (Some 3) false false [IdExpr (loc "p" 2)] [])) Right grid_ = Ok (Some (VArray [f_ 7; f_ 8]), FContinue) grid_ /\
  exists e s', eval std_ 7 (EItem (Item "a" (Some 3) false false [IdExpr (loc "p" 2); IdExpr (loc "i" 2)] [])) Right grid_ = Err e s'.
Proof.
  splits.
  - eexists. split; [reflexivity|]. repeat (econstructor; [reflexivity|]). constructor.
  - vm_compute. reflexivity.
  - eexists; eexists. vm_compute. reflexivity.
Qed.
(** n := [1]; y := [n]; x := y; x[0][0] = 5: now y[0][0] is 5, since both hold a reference to n. *)
Theorem C24_refuted : exists s',
  eval std_ 20 (EBlock [decl "n" false (EArray [num 1]); decl "y" false (EArray [loc "n" 1]); decl "x" false (loc "y" 1);
    EAssign OpSet (EItem (Item "x" (Some 1) false false [IdF64 (f_of_Z 0); IdF64 (f_of_Z 0)] [])) (num 5);
    EItem (Item "y" (Some 2) false false [IdF64 (f_of_Z 0); IdF64 (f_of_Z 0)] [])]) Right
    (RT 0 [] [Call "main" 0 0 0 0] [] [] (World [] [] [])) = Ok (Some (f_ 5), FContinue) s'.
Proof. eexists. vm_compute. reflexivity. Qed.
(** y := [1, 2]; x := y; x[0] = 5: y is as before, and conversely. *)
Example C24_example : exists s',
  eval std_ 20 (EBlock [decl "y" false (EArray [num 1; num 2]); decl "x" false (loc "y" 1);
    EAssign OpSet (EItem (Item "x" (Some 1) false false [IdF64 (f_of_Z 0)] [])) (num 5);
    EAssign OpSet (EItem (Item "y" (Some 2) false false [IdF64 (f_of_Z 1)] [])) (num 6);
    EArray [EItem (Item "x" (Some 1) false false [IdF64 (f_of_Z 0)] []); EItem (Item "x" (Some 1) false false [IdF64 (f_of_Z 1)] []);
            EItem (Item "y" (Some 2) false false [IdF64 (f_of_Z 0)] []); EItem (Item "y" (Some 2) false false [IdF64 (f_of_Z 1)] [])]]) Right
    (RT 0 [] [Call "main" 0 0 0 0] [] [] (World [] [] [])) = Ok (Some (VArray [f_ 5; f_ 2; f_ 1; f_ 6]), FContinue) s'.
Proof. eexists. vm_compute. reflexivity. Qed.
Example C24_example_writes : own (VArray [f_ 1; f_ 2]) /\
  writes 1 [VArray [f_ 1; f_ 2]; VArray [f_ 1; f_ 2]] [VArray [f_ 1; f_ 2]; f_ 3].
Proof.
  split.
  - intros p j H. inversion H as [| |l i x p0 y N I]; subst. destruct i as [|[|i]]; simpl in N; [| |destruct i; discriminate];
      inversion N; subst; inversion I.
  - eapply Wr_var with (y := f_ 3); [| |constructor].
    + split; [reflexivity|]. split; [intros [|[|j]] Hj; try reflexivity; contradiction|].
      eexists; eexists. split; [reflexivity|]. split; [reflexivity|]. split.
      * intros q x H _. exfalso. apply H. exists q. reflexivity.
      * intros q x. reflexivity.
    + intros p j H. inversion H.
Qed.
