(** * C08, C18: paths with [?]. *)
From Coq Require Import String List ZArith Bool Arith Lia.
From Verif Require Import Float64 Syntax InterpModel BalanceBase StdModel PathSpec PathProofs Samples P_Array P_Path ControlSpec P_Control PathTrySpec.
Import ListNotations.
Local Open Scope string_scope.
Local Open Scope nat_scope.
Local Open Scope list_scope.

Lemma keyed_in_keyed : forall v, keyed_in v -> keyed v.
Proof.
  fix IH 1. intros v H. destruct v; simpl in *; auto.
  - induction l as [|x l IHl]; simpl in *; auto. destruct H. split; auto.
  - destruct H as [N H]. split; auto. clear N. induction l as [|[k x] l IHl]; simpl in *; auto. destruct H. split; auto.
Qed.
Lemma rd_keyed_in : forall p v x, keyed_in v -> rd v p = Some x -> keyed_in x.
Proof.
  induction p as [|[k|i] p IH]; intros v x K H; cbn [rd] in H.
  - inversion H; subst; auto.
  - destruct v as [| | | | | | | |l| | | | | | | | | | ]; try discriminate. destruct (assoc k l) as [y|] eqn:A; [|discriminate].
    eapply IH; [|eauto]. destruct K as [_ K]. rewrite each_obj in K. apply assoc_In in A. rewrite Forall_forall in K. exact (K _ A).
  - destruct v as [| | | | | | |l| | | | | | | | | | | ]; try discriminate. destruct (nth_error l i) as [y|] eqn:A; [|discriminate].
    eapply IH; [|eauto]. simpl in K. rewrite each_F in K. eapply nth_error_Forall; eauto.
Qed.
Lemma wr_keyed_in : forall p v y v', keyed_in v -> keyed_in y -> wr v p y = Some v' -> keyed_in v'.
Proof.
  induction p as [|[k|i] p IH]; intros v y v' K Ky H; cbn [wr] in H.
  - inversion H; subst; auto.
  - destruct v as [| | | | | | | |l| | | | | | | | | | ]; try discriminate. destruct (assoc k l) as [z|] eqn:A; [|discriminate]. destruct (wr z p y) as [z'|] eqn:W; [|discriminate].
    inversion H; subst. destruct K as [K1 K2]. split; [rewrite aset_keys; auto|]. rewrite each_obj in *. apply aset_Forall; auto.
    apply (IH z y z'); auto. apply assoc_In in A. rewrite Forall_forall in K2. exact (K2 _ A).
  - destruct v as [| | | | | | |l| | | | | | | | | | | ]; try discriminate. destruct (nth_error l i) as [z|] eqn:A; [|discriminate]. destruct (wr z p y) as [z'|] eqn:W; [|discriminate].
    inversion H; subst. simpl in *. rewrite each_F in *.
    assert (keyed_in z') as Z by (apply (IH z y z'); auto; exact (nth_error_Forall _ _ _ _ K A)). clear - K Z.
    revert i. induction K; intros [|i]; simpl; constructor; auto.
Qed.
Lemma keyed_F : forall l, Forall keyed_in l -> Forall keyed l.
Proof. intros l. apply Forall_impl. exact keyed_in_keyed. Qed.

(** Storing a payload leaves numbers, texts and references in variables alone. *)
Definition bare_value (v : value) : Prop := match v with VF64 _ _ | VStr _ | VRef _ => True | _ => False end.
Lemma payload_keyed : forall v y, keyed_in v -> try_value v y -> keyed_in y.
Proof. intros v y K T. inversion T; subst; exact K || exact Logic.I. Qed.
Lemma store_run : forall s q v y, Forall keyed_in (r_stack s) -> holds (r_stack s) q v -> try_value v y ->
  exists l, pwrite q y s = Ok tt (set_stack l s) /\ stored q y (r_stack s) l /\ Forall keyed_in l /\
    (forall j w, bare_value w -> nth_error (r_stack s) j = Some w -> nth_error l j = Some w).
Proof.
  intros s [i p] v y K (r & N & I) T. simpl in *. unfold pwrite, bind, slot. simpl. rewrite N.
  pose proof (nth_error_Forall _ _ _ _ K N) as Kr. pose proof (keyed_in_keyed _ Kr) as Kr'. apply rd_inside in I; auto.
  assert (keyed_in y) as Ky by (eapply payload_keyed; [eapply rd_keyed_in|]; eauto).
  destruct (wr_some _ _ _ y I) as (v' & W). rewrite W. exists (list_set i v' (r_stack s)). split; [reflexivity|].
  assert (i < length (r_stack s)) as Hi by (apply nth_error_Some; congruence). split; [|split].
  - split; [apply list_set_length|]. split; [intros j Hj; apply nset_ne; auto|]. exists r, v'. simpl.
    split; auto. split; [apply nset_eq; auto|]. apply wr_changed; auto. apply keyed_in_keyed; auto.
  - apply Forall_forall. intros x Hx. apply In_nth_error in Hx. destruct Hx as (j & Hj). destruct (Nat.eq_dec j i) as [->|D].
    + rewrite nset_eq in Hj; auto. inversion Hj; subst. exact (wr_keyed_in _ _ _ _ Kr Ky W).
    + rewrite nset_ne in Hj; auto. eapply nth_error_Forall; eauto.
  - intros j w B Nw. destruct (Nat.eq_dec j i) as [->|D]; [|rewrite nset_ne; auto]. rewrite nset_eq by auto.
    rewrite N in Nw. inversion Nw; subst r. destruct p as [|k p].
    + cbn in I, W. inversion I; inversion W; subst. destruct v; try contradiction; inversion T; subst; auto.
    + destruct w; try contradiction; destruct k; discriminate.
Qed.
Lemma found_keep : forall l l' i v, (forall j w, bare_value w -> nth_error l j = Some w -> nth_error l' j = Some w) ->
  bare_value v -> found l i v -> found l' i v.
Proof.
  intros l l' i v H B [[N R]|(r & N & M)]; [left|right].
  - split; auto.
  - exists r. split; apply H; auto. exact Logic.I.
Qed.
Lemma names_keep : forall l l', (forall j w, bare_value w -> nth_error l j = Some w -> nth_error l' j = Some w) ->
  forall i ids ks, names l i ids ks -> names l' i ids ks.
Proof.
  intros l l' H i ids ks N. induction N; econstructor; eauto; eapply found_keep; eauto; exact Logic.I.
Qed.

(** What the chain of look-ups gives, for what follows it ([k]). *)
Definition went (k : ptr -> M res) (s : rt) (q : place) (m : list (step * bool)) (o : outcome res) : Prop :=
  (exists q' l, walks (r_stack s) q m q' l /\ Forall keyed_in l /\ o = k q' (set_stack l s)) \/
  (exists v l, stops (r_stack s) q m v l /\
     ((exists msg tr t, (v = VErr msg tr \/ exists x, msg = VStr x /\ tr = []) /\
        o = Ok (Some (VErr msg (tr ++ [t])), FReturn) (set_stack l s)) \/
      (exists e, o = Err e (set_stack l s)) \/ (exists w, o = Panic w))) \/
  (exists e l, o = Err e (set_stack l s)) \/ (exists w, o = Panic w).

Lemma set_stack_self : forall s, set_stack (r_stack s) s = s. Proof. intros []. reflexivity. Qed.
Lemma leave_cases : forall v msg tr s, try_msg v = Some (TErr msg tr) ->
  (exists t, try_leave msg tr s = Ok (Some (VErr msg (tr ++ [t])), FReturn) s) \/ (exists e, try_leave msg tr s = Err e s) \/
  (exists w, try_leave msg tr s = Panic w).
Proof.
  intros v msg tr s H. unfold try_leave, bind, gets. destruct (r_calls s) as [|c cs]; [right; right; eexists; reflexivity|].
  destruct (c_stack c) as [|i]; [right; left; eexists; reflexivity|]. unfold slot. destruct (nth_error (r_stack s) i) as [w|]; [|right; right; eexists; reflexivity].
  destruct w; try (right; left; eexists; reflexivity). left. eexists. reflexivity.
Qed.

Lemma lookup_went : forall k start ids n s i p j ks ts m u,
  Forall keyed_in (r_stack s) -> holds (r_stack s) (i, p) u -> names (r_stack s) (start + j) ids ks -> marked n ks ts m ->
  went k s (i, p) m (lookup_ids ids n (i, p) start j false ts k s).
Proof.
  intros k start. induction ids as [|id ids IH]; intros n s i p j ks ts m u K H N Mk.
  { inversion N; subst. inversion Mk; subst. left. exists (i, p), (r_stack s). split; [constructor|]. split; auto.
    rewrite set_stack_self. reflexivity. }
  destruct ks as [|k0 ks]; [apply names_nil in N; discriminate|].
  cbn [lookup_ids]. unfold bind at 1. pose proof (keyed_F _ K) as K'.
  destruct (rd u [k0]) as [v|] eqn:R.
  2: { destruct (lookup_none s i p u id ids k0 ks start j false (match ids with [] => true | _ => false end) K' H N R eq_refl) as (e & ->).
       right; right; left. exists e, (r_stack s). rewrite set_stack_self. reflexivity. }
  destruct (lookup_some s i p u id ids k0 ks start j false (match ids with [] => true | _ => false end) v K' H N R) as (j' & N' & ->).
  assert (holds (r_stack s) (i, p ++ [k0]) v) as H2 by (apply holds_step; eauto).
  assert (match ids with [] => true | _ => false end = ends ks) as Hends by (inversion N'; reflexivity).
  rewrite Hends.
  destruct (lands (r_stack s) i p k0 (ends ks) v) as [q1|] eqn:La; [|right; right; right; eauto].
  assert (comes_to (r_stack s) (i, p) k0 (ends ks) q1 /\ exists w, holds (r_stack s) q1 w) as [Ct [w Hw]].
  { unfold lands in La. destruct v; try (inversion La; subst; split; [econstructor; eauto; right; discriminate|eauto]).
    destruct (ends ks) eqn:Q; [inversion La; subst; split; [econstructor; eauto|eauto]|].
    match type of La with match nth_error ?l ?r with _ => _ end = _ => destruct (nth_error l r) as [w|] eqn:W; [|discriminate] end.
    inversion La; subst. split; [apply Ct_ref; auto|]. exists w. exists w. split; auto. constructor. }
  clear La. cbn [fst snd].
  (* without a mark *)
  assert (forall ts1 m1, marked (S n) ks ts1 m1 ->
    went k s (i, p) ((k0, false) :: m1) (lookup_ids ids (S n) q1 start j' false ts1 k s)) as Plain.
  { intros ts1 m1 Mk1. destruct q1 as [i1 p1].
    assert (ends ks = ends m1) as Em by (inversion Mk1; reflexivity). rewrite Em in Ct.
    destruct (IH (S n) s i1 p1 j' ks ts1 m1 w K Hw N' Mk1) as [(q' & l & W & Kl & O)|[(v1 & l & W & O)|O]].
    - left. exists q', l. split; [econstructor; eauto|auto].
    - right; left. exists v1, l. split; [econstructor; eauto|auto].
    - right; right. exact O. }
  assert (ends ks = ends (tl m)) as Em by (inversion Mk; subst; match goal with G : marked (S n) _ _ _ |- _ => inversion G; reflexivity end).
  inversion Mk as [|n' k' ks' ts' m' Mk1|n' k' ks' ts' m' Hts Mk1]; subst.
  - (* marked *) rewrite Nat.eqb_refl. unfold bind at 1.
    destruct q1 as [i1 p1]. rewrite (pread_run _ _ _ _ K' Hw). cbn in Em. rewrite Em in Ct.
    pose proof (try_msg_spec w) as Tm. destruct (try_msg w) as [[y|msg tr]|] eqn:Tq.
    + destruct (store_run s (i1, p1) w y K Hw Tm) as (l1 & Pw & St & K1 & Keep). unfold bind at 1. rewrite Pw.
      assert (names (r_stack (set_stack l1 s)) (start + j') ids ks) as N1 by (eapply names_keep; eauto).
      assert (holds l1 (i1, p1) y) as H1 by (eapply stored_holds; eauto).
      destruct (IH (S n) (set_stack l1 s) i1 p1 j' ks ts' m' y K1 H1 N1 Mk1) as [(q' & l & W & Kl & O)|[(v1 & l & W & O)|O]].
      * left. exists q', l. split; [eapply Wk_try; eauto|]. split; auto.
      * right; left. exists v1, l. split; [eapply Sp_try; eauto|]. exact O.
      * right; right. exact O.
    + right; left. destruct Tm as [Tm NT]. exists w, (r_stack s). split; [eapply Sp_here; eauto|]. rewrite set_stack_self.
      destruct (leave_cases _ _ _ s Tq) as [(t & ->)|[O|O]]; auto.
      left. exists msg, tr, t. auto.
    + right; left. exists w, (r_stack s). split; [eapply Sp_here; eauto|]. rewrite set_stack_self.
      right; left. eexists. reflexivity.
  - destruct ts as [|t ts]; [exact (Plain _ _ Mk1)|].
    destruct (Nat.eqb_spec t n) as [->|D]; [specialize (Hts n (or_introl eq_refl)); lia|]. exact (Plain _ _ Mk1).
Qed.

(** ** The theorems *)

(** Reading or naming a place through a path with [?] goes on only along the path, with the payloads:
    the value is the one at the place reached, and the variables are changed only where a payload
    replaced what wrapped it. *)
Theorem C08_try_partial : forall E n name sid cur tryf ids ks ts m s s1 i u sd r s',
  lives E n name sid i s -> ids <> [] -> indexed E n ids s s1 -> Forall keyed_in (r_stack s1) ->
  names (r_stack s1) (length (r_stack s)) ids ks -> marked 0 ks ts m -> nth_error (r_stack s1) i = Some u ->
  sd = Right \/ sd = LeftInsert false ->
  eval E (S n) (EItem (Item name sid cur tryf ids ts)) sd s = Ok (r, FContinue) s' ->
  exists q l, walks (r_stack s1) (i, []) m q l /\ s' = dropped s (set_stack l s1) /\
    match sd with
    | Right => exists v, r = Some v /\ holds l q v
    | LeftInsert _ => r = Some (VUnsafeRef (fst q) (snd q))
    end.
Proof.
  intros E n name sid cur tryf ids ks ts m s s1 i u sd r s' L Hne I K N Mk Hi Hsd Ev.
  rewrite (item_run _ _ _ _ _ _ _ _ _ _ _ L Hne), (push_ids_run _ _ _ _ _ _ I) in Ev.
  replace (match sd with Right => false | LeftInsert b => b end) with false in Ev by (destruct Hsd; subst; reflexivity).
  assert (holds (r_stack s1) (i, []) u) as Hu by (exists u; split; auto; constructor).
  rewrite <- (Nat.add_0_r (length (r_stack s))) in N.
  match type of Ev with lookup_ids _ _ _ _ _ _ _ ?k _ = _ =>
    destruct (lookup_went k (length (r_stack s)) ids 0 s1 i [] 0 ks ts m u K Hu N Mk)
      as [(q & l & W & Kl & O)|[(v & l & W & [(msg & tr & t & Hv & O)|[(e & O)|(w & O)]])|[(e & l & O)|(w & O)]]] end;
  rewrite O in Ev; try discriminate.
  exists q, l. split; auto. destruct Hsd; subst sd.
  - unfold bind at 1 in Ev. destruct (pread q (set_stack l s1)) as [v s2| | |] eqn:P; try discriminate.
    assert (s2 = set_stack l s1) as ->.
    { unfold pread, bind, slot in P. destruct (nth_error _ (fst q)) as [w0|]; [|discriminate]. destruct (rd w0 (snd q)); inversion P; auto. }
    apply pread_holds in P; [|apply keyed_F; auto]. inversion Ev; subst. split; [reflexivity|eauto].
  - inversion Ev; subst. split; reflexivity.
Qed.
Print Assumptions C08_try_partial.

(** It leaves the function only at a [?] without a payload, with the error found there and one more
    entry in its trace, or with a message of its own. *)
Theorem C18_path : forall E n name sid cur tryf ids ks ts m s s1 i u sd r fl s',
  lives E n name sid i s -> ids <> [] -> indexed E n ids s s1 -> Forall keyed_in (r_stack s1) ->
  names (r_stack s1) (length (r_stack s)) ids ks -> marked 0 ks ts m -> nth_error (r_stack s1) i = Some u ->
  sd = Right \/ sd = LeftInsert false ->
  eval E (S n) (EItem (Item name sid cur tryf ids ts)) sd s = Ok (r, fl) s' -> fl <> FContinue ->
  fl = FReturn /\ exists v l msg tr t, stops (r_stack s1) (i, []) m v l /\ s' = set_stack l s1 /\
    r = Some (VErr msg (tr ++ [t])) /\ (v = VErr msg tr \/ exists x, msg = VStr x /\ tr = []).
Proof.
  intros E n name sid cur tryf ids ks ts m s s1 i u sd r fl s' L Hne I K N Mk Hi Hsd Ev Hfl.
  rewrite (item_run _ _ _ _ _ _ _ _ _ _ _ L Hne), (push_ids_run _ _ _ _ _ _ I) in Ev.
  replace (match sd with Right => false | LeftInsert b => b end) with false in Ev by (destruct Hsd; subst; reflexivity).
  assert (holds (r_stack s1) (i, []) u) as Hu by (exists u; split; auto; constructor).
  rewrite <- (Nat.add_0_r (length (r_stack s))) in N.
  match type of Ev with lookup_ids _ _ _ _ _ _ _ ?k _ = _ =>
    destruct (lookup_went k (length (r_stack s)) ids 0 s1 i [] 0 ks ts m u K Hu N Mk)
      as [(q & l & W & Kl & O)|[(v & l & W & [(msg & tr & t & Hv & O)|[(e & O)|(w & O)]])|[(e & l & O)|(w & O)]]] end;
  rewrite O in Ev; try discriminate.
  - exfalso. unfold bind at 1 in Ev. destruct Hsd; subst sd.
    + destruct (pread q (set_stack l s1)); try discriminate. inversion Ev; subst. auto.
    + inversion Ev; subst. auto.
  - inversion Ev; subst. split; auto. exists v, l, msg, tr, t. auto.
Qed.
Print Assumptions C18_path.

(** ** Cases: a := {x: ok({y: [some(7)]}), z: err("no")}; i := 0 *)
Definition wrapped_ : rt :=
  RT 0 [VReturn; VObject [("x", VOk (VObject [("y", VArray [VSome (f_ 7)])])); ("z", VErr (VStr "no") ["t"])]; f_ 0]
    [Call "f" 0 1 0 0] [("i", 2); ("a", 1)] [] (World [] [] []).
Definition deep_ids_ : list idx := [IdStr "x"; IdStr "y"; IdExpr (loc "i" 1)].
Definition deep_marks_ : list (step * bool) := [(SKey "x", true); (SKey "y", false); (SIdx 0, true)].
(** a.x?.y[i]? is 7, and both wrappers are gone afterwards. *)
Example C08_example_try : exists s1 s',
  lives std_ 5 "a" (Some 2) 1 wrapped_ /\ indexed std_ 5 deep_ids_ wrapped_ s1 /\ Forall keyed_in (r_stack s1) /\
  names (r_stack s1) 3 deep_ids_ [SKey "x"; SKey "y"; SIdx 0] /\
  marked 0 [SKey "x"; SKey "y"; SIdx 0] [0; 2] deep_marks_ /\
  eval std_ 6 (EItem (Item "a" (Some 2) false false deep_ids_ [0; 2])) Right wrapped_ = Ok (Some (f_ 7), FContinue) s' /\
  r_stack s' = [VReturn; VObject [("x", VObject [("y", VArray [f_ 7])]); ("z", VErr (VStr "no") ["t"])]; f_ 0].
Proof.
  exists (set_stack (r_stack wrapped_ ++ [VRef 2]) wrapped_). eexists.
  assert (NoDup ["x"; "z"]) as ND.
  { constructor; [intros [H|[]]; discriminate|]. constructor; [intros []|constructor]. }
  assert (NoDup ["y"]) as ND1 by (constructor; [intros []|constructor]).
  split; [reflexivity|]. split.
  { apply Ix_const; [discriminate|]. apply Ix_const; [discriminate|]. eapply Ix_expr; [vm_compute; reflexivity|]. apply Ix_nil. }
  split.
  { repeat apply Forall_cons; try apply Forall_nil; try exact Logic.I. simpl. auto 10. }
  split.
  { apply Nm_str. apply Nm_str. apply (Nm_computed_num _ 3 (loc "i" 1) (f_of_Z 0) None).
    - right. exists 2. split; reflexivity.
    - apply Nm_nil. }
  split.
  { apply Mk_try. apply Mk_plain; [intros t [<-|[]]; auto|]. apply Mk_try. apply Mk_nil. }
  split; [vm_compute; reflexivity|]. vm_compute. reflexivity.
Qed.
(** a.z? leaves with the error. *)
Example C18_example_path : exists s',
  eval std_ 6 (EItem (Item "a" (Some 2) false false [IdStr "z"; IdStr "w"] [0])) Right wrapped_ =
  Ok (Some (VErr (VStr "no") ["t"; "f"]), FReturn) s'.
Proof. eexists. vm_compute. reflexivity. Qed.
(** Assigning through it: a.x?.y = [] *)
Example C08_example_try_write : exists s',
  eval std_ 7 (EAssign OpSet (EItem (Item "a" (Some 2) false false [IdStr "x"; IdStr "y"] [0])) (EArray [])) Right wrapped_ =
  Ok (None, FContinue) s' /\
  nth_error (r_stack s') 1 = Some (VObject [("x", VObject [("y", VArray [])]); ("z", VErr (VStr "no") ["t"])]).
Proof. eexists. split; [vm_compute; reflexivity|]. vm_compute. reflexivity. Qed.

(** ** [a.x = a]: the right side is the variable assigned into *)
Lemma leads_inner : forall stack a ks q, leads stack a ks q -> snd q <> [].
Proof. intros stack a ks q L. induction L; auto. simpl. intros E. destruct p; discriminate. Qed.
(** The value of the variable is stored at the place in it; if the place held a reference, the value is
    read after the reference was replaced by what it refers to. *)
Theorem C08_write_self : forall E n name sid cur tryf ids ks right s s0 s1 i q av bv,
  eval E (S n) right Right s = Ok (Some (VRef (fst q)), FContinue) s0 ->
  lives E n name sid i s0 -> ids <> [] -> indexed E n ids s0 s1 -> Forall keyed (r_stack s1) ->
  names (r_stack s1) (length (r_stack s0)) ids ks -> leads (r_stack s1) (i, []) ks q -> fst q < length (r_stack s0) ->
  target (r_stack (dropped s0 s1)) q av ->
  nth_error (r_stack (dropped s0 s1)) (fst q) = Some bv -> settable av bv ->
  exists l bv', eval E (S (S n)) (EAssign OpSet (EItem (Item name sid cur tryf ids [])) right) Right s = Ok (None, FContinue) (set_stack l s1) /\
            (bv' = bv \/ changed bv (snd q) av bv') /\ stored q bv' (r_stack (dropped s0 s1)) l.
Proof.
  intros E n name sid cur tryf ids ks right s s0 s1 i q av bv Hr L Hne I K N Ld Hq T Nb St.
  destruct (assign_run E n OpSet name sid cur tryf ids ks right s _ s0 s1 i q av ltac:(discriminate) Hr L Hne I K N Ld Hq T)
    as (l & Kl & Hl & El & ->).
  assert (exists bv', nth_error l (fst q) = Some bv' /\ (bv' = bv \/ changed bv (snd q) av bv') /\ settable av bv')
    as (bv' & Nl & Cb & St').
  { destruct El as [->|(_ & _ & v & v' & Nv & Nv' & C)]; [exists bv; auto|].
    rewrite Nb in Nv. inversion Nv; subst v. exists v'. split; auto. split; auto.
    assert (exists x, inside bv (snd q) x) as (x & Ix).
    { destruct T as [[(r & Nr & Ir) _]|(j & (r & Nr & Ir) & _)]; rewrite Nb in Nr; inversion Nr; subst; eauto. }
    assert (inside v' (snd q) av) as Ia.
    { destruct C as [_ C]. specialize (C [] av). rewrite app_nil_r in C. apply C. constructor. }
    pose proof (leads_inner _ _ _ _ Ld) as Hp. destruct (snd q) as [|k p]; [contradiction|].
    inversion Ix; subst; inversion Ia; subst;
      (inversion St; subst;
       [constructor; discriminate|constructor|
        match goal with H : _ \/ _ |- _ => idtac | _ => idtac end;
        exfalso; repeat match goal with H : _ \/ _ |- _ => destruct H as [H|H] | H : exists _, _ |- _ => destruct H end; discriminate..]). }
  assert (getv (VRef (fst q)) (set_stack l s1) = Ok bv' (set_stack l s1)) as G by (unfold getv, slot; simpl; rewrite Nl; auto).
  unfold bind at 1. rewrite G. unfold bind at 1. rewrite (proj2 (pread_holds q (set_stack l s1) av Kl) Hl).
  rewrite (proj1 (set_spec E av bv') St'). unfold bind.
  assert (keyed bv') as Kb by (eapply nth_error_Forall; eauto).
  destruct (pwrite_run (set_stack l s1) q av bv' Kl Hl Kb) as (l2 & -> & Sl & _). exists l2, bv'. split; [reflexivity|]. split; auto.
  destruct El as [->|El]; [exact Sl|]. exact (stored_trans _ _ _ _ _ _ El Sl).
Qed.
Print Assumptions C08_write_self.
(** a := {x: {}, y: 1}; a.x = a *)
Example C08_example_self : exists s',
  eval std_ 7 (EAssign OpSet (EItem (Item "a" (Some 1) false false [IdStr "x"] [])) (loc "a" 1)) Right
    (RT 0 [VObject [("x", VObject []); ("y", f_ 1)]] [Call "main" 0 0 0 0] [("a", 0)] [] (World [] [] [])) = Ok (None, FContinue) s' /\
  r_stack s' = [VObject [("x", VObject [("x", VObject []); ("y", f_ 1)]); ("y", f_ 1)]].
Proof. eexists. split; [vm_compute; reflexivity|]. vm_compute. reflexivity. Qed.

(** ** Lists of positions *)
Lemma lookup_one : forall s i p u id k start j last v, Forall keyed (r_stack s) -> holds (r_stack s) (i, p) u ->
  names (r_stack s) (start + j) [id] [k] -> rd u [k] = Some v ->
  item_lookup (i, p) id start j false last s =
  match lands (r_stack s) i p k last v with Some q => Ok (q, j + computed [id]) s | None => Panic "index" end.
Proof.
  intros s i p u id k start j last v K H N R.
  destruct (lookup_some s i p u id [] k [] start j false last v K H N R) as (j' & _ & Q). rewrite Q.
  destruct (lands (r_stack s) i p k last v) as [q|] eqn:L; auto.
  cut (j' = j + computed [id]); [intros ->; reflexivity|].
  unfold item_lookup, bind at 1 in Q. rewrite (pread_run _ _ _ _ K H) in Q.
  inversion N; subst; cbn [rd] in R; destruct u; try discriminate.
  - unfold bind at 1 in Q. unfold ret at 1 in Q. cbn [fst snd] in Q. destruct (assoc k0 l) as [x|]; [|discriminate].
    unfold bind in Q. destruct (follow _ _ s) in Q; inversion Q. cbn. lia.
  - destruct (index_of x (length l)); [|discriminate]. unfold bind in Q. destruct (follow _ _ s) in Q; inversion Q. cbn. lia.
  - match goal with G : found _ _ _ |- _ => destruct (found_run _ _ _ G) as (i1 & A & B) end.
    unfold bind at 1 in Q. unfold bind at 1 in Q. rewrite A in Q. unfold bind at 1 in Q. rewrite B in Q. unfold ret at 1 in Q. cbn [fst snd] in Q.
    destruct (assoc k0 l) as [x|]; [|discriminate]. unfold bind in Q. destruct (follow _ _ s) in Q; inversion Q. cbn. lia.
  - match goal with G : found _ _ _ |- _ => destruct (found_run _ _ _ G) as (i1 & A & B) end.
    unfold bind at 1 in Q. rewrite A in Q. unfold bind at 1 in Q. rewrite B in Q.
    destruct (index_of x (length l)); [|discriminate]. unfold bind in Q. destruct (follow _ _ s) in Q; inversion Q. cbn. lia.
Qed.
Lemma names_split : forall stack i id ids k ks, names stack i (id :: ids) (k :: ks) ->
  names stack i [id] [k] /\ names stack (i + computed [id]) ids ks.
Proof.
  intros stack i id ids k ks N. inversion N; subst; cbn; rewrite ?Nat.add_0_r, ?Nat.add_1_r; split; auto; econstructor; eauto; constructor.
Qed.
Lemma means_run : forall s lim v n, means (r_stack s) lim v n -> exists x, walk_index lim v s = Ok x s /\ position x = n.
Proof.
  intros s lim v n H. inversion H; subst.
  - exists x. split; reflexivity.
  - exists x. split; auto. cbn [walk_index]. rewrite (proj2 (Nat.ltb_lt _ _) H0). unfold bind, slot. rewrite H1. reflexivity.
Qed.
Lemma rd_idx : forall u m v, rd u [SIdx m] = Some v -> exists l, u = VArray l /\ nth_error l m = Some v.
Proof. intros u m v H. destruct u; try discriminate. cbn in H. destruct (nth_error l m) eqn:N; inversion H; subst. eauto. Qed.
Lemma walk_leads : forall s lim, Forall keyed (r_stack s) -> Forall (refs_below lim) (r_stack s) -> forall inds ns,
  Forall2 (means (r_stack s) lim) inds ns -> forall i p q, leads (r_stack s) (i, p) (map SIdx ns) q ->
  walk lim inds true (i, p) s = Ok q s.
Proof.
  intros s lim K RB. induction inds as [|ind inds IH]; intros ns F i p q L; inversion F as [|a m b ns' Hm F' Qa Qb]; subst; [inversion L|].
  destruct (means_run _ _ _ _ Hm) as (x & Wx & Px). cbn [map] in L.
  assert (exists v, holds (r_stack s) (i, p ++ [SIdx m]) v /\
    ((ns' = [] /\ q = (i, p ++ [SIdx m])) \/
     (ns' <> [] /\ (forall j, v <> VRef j) /\ leads (r_stack s) (i, p ++ [SIdx m]) (map SIdx ns') q) \/
     (ns' <> [] /\ exists j, v = VRef j /\ leads (r_stack s) (j, []) (map SIdx ns') q))) as (v & Hv & C).
  { inversion L; subst.
    - exists v. split; auto. left. destruct ns'; [auto|discriminate].
    - exists v. split; auto. right; left. split; [intros ->; match goal with G : map SIdx [] <> [] |- _ => apply G; reflexivity end|auto].
    - exists (VRef j). split; auto. right; right. split; [intros ->; match goal with G : map SIdx [] <> [] |- _ => apply G; reflexivity end|eauto]. }
  pose proof Hv as Hv0. apply holds_step in Hv0; auto. destruct Hv0 as (u & Hu & R). destruct (rd_idx _ _ _ R) as (l & -> & Nl).
  cbn [walk]. unfold bind at 1. rewrite Wx. unfold bind at 1. rewrite (pread_run _ _ _ _ K Hu).
  rewrite index_of_spec, Px. rewrite (proj2 (Nat.ltb_lt _ _) (proj1 (nth_error_Some l m) ltac:(congruence))).
  cbn [fst snd]. unfold bind at 1. rewrite (pread_run _ _ _ _ K Hv).
  destruct C as [[-> ->]|[(Hne & NR & L2)|(Hne & j & -> & L2)]].
  - inversion F'; subst. destruct v; reflexivity.
  - assert (inds <> []) as Hi by (intros ->; inversion F'; subst; auto).
    destruct ns' as [|m2 ns2]; [contradiction|].
    assert (exists w, rd v [SIdx m2] = Some w) as (w & Rw).
    { inversion L2; subst; match goal with G : holds _ (_, _ ++ [_]) _ |- _ => apply holds_step in G; auto; destruct G as (u2 & G & Gr) end;
      assert (u2 = v) as -> by (eapply holds_fun; eauto); eauto. }
    destruct (rd_idx _ _ _ Rw) as (l2 & -> & _). destruct inds; [contradiction|]. eapply IH; eauto.
  - assert (inds <> []) as Hi by (intros ->; inversion F'; subst; auto).
    destruct ns' as [|m2 ns2]; [contradiction|].
    assert (exists w, nth_error (r_stack s) j = Some w /\ exists z, rd w [SIdx m2] = Some z) as (w & Nw & z & Rz).
    { inversion L2; subst; match goal with G : holds _ (_, _ ++ [_]) _ |- _ => apply holds_step in G; auto; destruct G as (u2 & (r & Nr & Ir) & Gr) end;
      cbn in Nr, Ir; inversion Ir; subst; eauto. }
    destruct (rd_idx _ _ _ Rz) as (l2 & -> & _).
    assert (j < lim) as Hj.
    { destruct Hv as (r & Nr & Ir). cbn in Nr, Ir. pose proof (nth_error_Forall _ _ _ _ RB Nr) as B.
      assert (keyed r) by exact (nth_error_Forall _ _ _ _ K Nr). apply rd_inside in Ir; auto. exact (rd_refs _ _ _ _ B Ir). }
    destruct inds; [contradiction|]. rewrite (proj2 (Nat.ltb_lt _ _) Hj). unfold bind at 1, slot at 1. rewrite Nw. eapply IH; eauto.
Qed.
Lemma lookup_list : forall k s start lim inds ns e, Forall keyed (r_stack s) -> Forall (refs_below lim) (r_stack s) ->
  Forall2 (means (r_stack s) lim) inds ns -> forall ids n i p j ks q0 q,
  names (r_stack s) (start + j) ids ks -> arrives (r_stack s) (i, p) ks q0 ->
  listed (r_stack s) (start + j + computed ids) lim inds -> leads (r_stack s) q0 (map SIdx ns) q -> ns <> [] ->
  lookup_ids (ids ++ [IdExpr e]) n (i, p) start j false [] k s = k q s.
Proof.
  intros k s start lim inds ns e K RB F. induction ids as [|id ids IH]; intros n i p j ks q0 q N A Ls L Hns.
  - inversion N; subst. inversion A; subst. cbn [app lookup_ids]. unfold bind at 1.
    assert (exists j', item_lookup (i, p) (IdExpr e) start j false true s = Ok (q, j') s) as (j' & ->); [|reflexivity].
    destruct ns as [|m ns]; [contradiction|].
    assert (exists l, holds (r_stack s) (i, p) (VArray l)) as (l & Hl).
    { cbn in L. inversion L; subst; match goal with G : holds _ (_, _ ++ [_]) _ |- _ => apply holds_step in G; auto; destruct G as (u & G & Gr);
        destruct (rd_idx _ _ _ Gr) as (l & -> & _); eauto end. }
    unfold item_lookup, bind at 1. rewrite (pread_run _ _ _ _ K Hl). cbn [computed] in Ls. rewrite Nat.add_0_r in Ls. destruct Ls as [Nl [Q|Q]].
    + assert (index_slot (start + j) s = Ok lim s) as Ix by (unfold index_slot, bind, slot; rewrite Q, Nl; reflexivity).
      unfold bind at 1. rewrite Ix. unfold bind at 1, slot at 1. rewrite Nl.
      unfold bind at 1. rewrite (walk_leads s lim K RB _ _ F _ _ _ L). eexists. reflexivity.
    + assert (index_slot (start + j) s = Ok lim s) as Ix by (unfold index_slot, bind, slot; rewrite Q; reflexivity).
      unfold bind at 1. rewrite Ix. unfold bind at 1, slot at 1. rewrite Nl.
      unfold bind at 1. rewrite (walk_leads s lim K RB _ _ F _ _ _ L). eexists. reflexivity.
  - destruct ks as [|k0 ks]; [apply names_nil in N; discriminate|]. destruct (names_split _ _ _ _ _ _ N) as [N1 N2].
    assert (exists w, holds (r_stack s) q0 w) as (w0 & Hw0).
    { destruct ns as [|m ns]; [contradiction|]. destruct q0. eapply leads_start; eauto. }
    assert (listed (r_stack s) (start + (j + computed [id]) + computed ids) lim inds) as Ls2.
    { replace (start + (j + computed [id]) + computed ids) with (start + j + computed (id :: ids)) by (destruct id; cbn; lia). exact Ls. }
    replace (start + j + computed [id]) with (start + (j + computed [id])) in N2 by lia.
    cbn [app lookup_ids]. unfold bind at 1.
    assert (match ids ++ [IdExpr e] with [] => true | _ => false end = false) as -> by (destruct ids; reflexivity).
    inversion A as [|i' p' k1 v ks0 q' Hv NR A2|i' p' k1 r ks0 q' Hv A2]; subst.
    + apply holds_step in Hv; auto. destruct Hv as (u & Hu & R).
      rewrite (lookup_one s i p u id k0 start j false v K Hu N1 R).
      assert (lands (r_stack s) i p k0 false v = Some (i, p ++ [k0])) as ->.
      { unfold lands. destruct v; auto. exfalso. eapply NR; reflexivity. }
      cbn [fst snd]. eapply IH; eauto.
    + apply holds_step in Hv; auto. destruct Hv as (u & Hu & R).
      rewrite (lookup_one s i p u id k0 start j false (VRef r) K Hu N1 R).
      destruct (arrives_start _ _ _ _ _ _ K A2 Hw0) as (w & (r0 & W0 & _)). simpl in W0.
      assert (lands (r_stack s) i p k0 false (VRef r) = Some (r, [])) as -> by (unfold lands; rewrite W0; reflexivity).
      cbn [fst snd]. eapply IH; eauto.
Qed.
(** A list of positions as the last index reads what the positions one after the other read, provided
    that all references are to variables below the list. *)
Theorem C08_list_partial : forall E n name sid cur tryf ids e ks inds ns lim s s1 i q0 q v,
  lives E n name sid i s -> indexed E n (ids ++ [IdExpr e]) s s1 -> Forall keyed (r_stack s1) ->
  Forall (refs_below lim) (r_stack s1) -> names (r_stack s1) (length (r_stack s)) ids ks ->
  arrives (r_stack s1) (i, []) ks q0 -> listed (r_stack s1) (length (r_stack s) + computed ids) lim inds ->
  Forall2 (means (r_stack s1) lim) inds ns -> ns <> [] -> leads (r_stack s1) q0 (map SIdx ns) q -> holds (r_stack s1) q v ->
  eval E (S n) (EItem (Item name sid cur tryf (ids ++ [IdExpr e]) [])) Right s = Ok (Some v, FContinue) (dropped s s1).
Proof.
  intros E n name sid cur tryf ids e ks inds ns lim s s1 i q0 q v L I K RB N A Ls F Hns Ld H.
  assert (ids ++ [IdExpr e] <> []) as Hne by (destruct ids; discriminate).
  rewrite (item_run _ _ _ _ _ _ _ _ _ _ _ L Hne), (push_ids_run _ _ _ _ _ _ I).
  rewrite (lookup_list _ s1 (length (r_stack s)) lim inds ns e K RB F ids 0 i [] 0 ks q0 q); auto; rewrite ?Nat.add_0_r; auto.
  unfold bind at 1. rewrite (proj2 (pread_holds _ _ _ K) H). reflexivity.
Qed.
Print Assumptions C08_list_partial.
(** a[[0, 0, i]] in the program of C08_list_refuted: 8 *)
Definition list_ : expr := EArray [num 0; num 0; loc "i" 1].
Example C08_example_list : exists s1,
  lives std_ 5 "a" (Some 3) 0 grid_ /\ indexed std_ 5 ([] ++ [IdExpr list_]) grid_ s1 /\ Forall keyed (r_stack s1) /\
  Forall (refs_below 3) (r_stack s1) /\ listed (r_stack s1) 3 3 [f_ 0; f_ 0; VRef 2] /\
  Forall2 (means (r_stack s1) 3) [f_ 0; f_ 0; VRef 2] [0; 0; 1] /\
  leads (r_stack s1) (0, []) (map SIdx [0; 0; 1]) (0, [SIdx 0; SIdx 0; SIdx 1]) /\
  eval std_ 6 (EItem (Item "a" (Some 3) false false [IdExpr list_] [])) Right grid_ = Ok (Some (f_ 8), FContinue) grid_.
Proof.
  exists (set_stack (r_stack grid_ ++ [VArray [f_ 0; f_ 0; VRef 2]]) grid_).
  split; [reflexivity|]. split.
  { eapply Ix_expr; [vm_compute; reflexivity|]. apply Ix_nil. }
  split; [repeat apply Forall_cons; try apply Forall_nil; cbn; auto 10|].
  split; [repeat apply Forall_cons; try apply Forall_nil; cbn; auto 10|].
  split; [split; [reflexivity|left; reflexivity]|]. split.
  { apply Forall2_cons; [exact (Me_num _ 3 (f_of_Z 0) None)|]. apply Forall2_cons; [exact (Me_num _ 3 (f_of_Z 0) None)|].
    apply Forall2_cons; [|apply Forall2_nil]. apply (Me_ref _ 3 2 (f_of_Z 1) None); [auto|reflexivity]. }
  split; [|vm_compute; reflexivity].
  assert (forall p v, rd (VArray [VArray [VArray [f_ 7; f_ 8]]]) p = Some v -> holds (r_stack (set_stack (r_stack grid_ ++ [VArray [f_ 0; f_ 0; VRef 2]]) grid_)) (0, p) v) as H.
  { intros p v R. exists (VArray [VArray [VArray [f_ 7; f_ 8]]]). split; [reflexivity|]. apply rd_inside; [cbn; auto 10|auto]. }
  apply (Ld_on _ 0 [] (SIdx 0) (VArray [VArray [f_ 7; f_ 8]])); [intros Q; inversion Q|apply H; reflexivity|intros j Q; inversion Q|].
  apply (Ld_on _ 0 [SIdx 0] (SIdx 0) (VArray [f_ 7; f_ 8])); [intros Q; inversion Q|apply H; reflexivity|intros j Q; inversion Q|].
  apply (Ld_last _ 0 [SIdx 0; SIdx 0] (SIdx 1) (f_ 8)). apply H. reflexivity.
Qed.
(** Without that, the runtime panics: p := [0, 0]; n := [7]; a := [n]; a[p]. The reference to n is looked
    up in the part of the stack below p (mod.rs 226, 296). *)
Theorem C08_list_panic_refuted :
  eval std_ 20 (EBlock [decl "p" false (EArray [num 0; num 0]); decl "n" false (EArray [num 7]);
    decl "a" false (EArray [loc "n" 1]); EItem (Item "a" (Some 1) false false [IdExpr (loc "p" 3)] [])]) Right
    (RT 0 [] [Call "main" 0 0 0 0] [] [] (World [] [] [])) = Panic "index" /\
  exists s', eval std_ 20 (EBlock [decl "p" false (EArray [num 0; num 0]); decl "n" false (EArray [num 7]);
    decl "a" false (EArray [loc "n" 1]); EItem (Item "a" (Some 1) false false [IdF64 (f_of_Z 0); IdF64 (f_of_Z 0)] [])]) Right
    (RT 0 [] [Call "main" 0 0 0 0] [] [] (World [] [] [])) = Ok (Some (f_ 7), FContinue) s'.
Proof. split; [vm_compute; reflexivity|]. eexists. vm_compute. reflexivity. Qed.
