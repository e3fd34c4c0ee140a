(** * C08: [:=] through paths with [?]. *)
From Coq Require Import String List ZArith Bool Arith Lia.
From Verif Require Import Float64 Syntax InterpModel BalanceBase StdModel PathSpec PathProofs Samples P_Array P_Path ControlSpec P_Control PathTrySpec P_PathTry.
Import ListNotations.
Local Open Scope string_scope.
Local Open Scope nat_scope.
Local Open Scope list_scope.

(** What the chain of look-ups that may add a key gives, for what follows it ([k]). *)
Definition went_in (k : ptr -> M res) (s : rt) (q : place) (m : list (step * bool)) (o : outcome res) : Prop :=
  (exists q' l, (walks (r_stack s) q m q' l \/ adds VReturn (r_stack s) q m q' l) /\ Forall keyed_in l /\ o = k q' (set_stack l s)) \/
  (exists v l, stops (r_stack s) q m v l /\
     ((exists msg tr t, (v = VErr msg tr \/ exists x, msg = VStr x /\ tr = []) /\
        o = Ok (Some (VErr msg (tr ++ [t])), FReturn) (set_stack l s)) \/
      (exists e, o = Err e (set_stack l s)) \/ (exists w, o = Panic w))) \/
  (exists e l, o = Err e (set_stack l s)) \/ (exists w, o = Panic w).

Lemma write_run : forall s q v y, Forall keyed_in (r_stack s) -> holds (r_stack s) q v -> keyed_in y ->
  exists l, pwrite q y s = Ok tt (set_stack l s) /\ stored q y (r_stack s) l /\ Forall keyed_in l.
Proof.
  intros s [i p] v y K (r & N & I) Ky. simpl in *. unfold pwrite, bind, slot. simpl. rewrite N.
  pose proof (nth_error_Forall _ _ _ _ K N) as Kr. pose proof (keyed_in_keyed _ Kr) as Kr'. apply rd_inside in I; auto.
  destruct (wr_some _ _ _ y I) as (v' & W). rewrite W. exists (list_set i v' (r_stack s)). split; [reflexivity|].
  assert (i < length (r_stack s)) as Hi by (apply nth_error_Some; congruence). split.
  - split; [apply list_set_length|]. split; [intros j Hj; apply nset_ne; auto|]. exists r, v'. simpl.
    split; auto. split; [apply nset_eq; auto|]. apply wr_changed; auto. apply keyed_in_keyed; auto.
  - apply Forall_forall. intros x Hx. apply In_nth_error in Hx. destruct Hx as (j & Hj). destruct (Nat.eq_dec j i) as [->|D].
    + rewrite nset_eq in Hj; auto. inversion Hj; subst. exact (wr_keyed_in _ _ _ _ Kr Ky W).
    + rewrite nset_ne in Hj; auto. eapply nth_error_Forall; eauto.
Qed.
Lemma holds_keyed_in : forall l q v, Forall keyed_in l -> holds l q v -> keyed_in v.
Proof.
  intros l q v K (r & N & I1). pose proof (nth_error_Forall _ _ _ _ K N) as Kr. apply rd_inside in I1; [|now apply keyed_in_keyed]. eapply rd_keyed_in; eauto.
Qed.
Lemma new_keyed : forall o k x, keyed_in (VObject o) -> keyed_in x -> ~ In k (map fst o) -> keyed_in (VObject (o ++ [(k, x)])).
Proof.
  intros o k x [D F] Kx NK. cbn [keyed_in]. split.
  - rewrite map_app. cbn. apply NoDup_Add with (a := k) (l := map fst o); [|auto]. rewrite <- (app_nil_r (map fst o)) at 1. apply Add_app.
  - clear D NK. induction o as [|[j y] o IH]; cbn in *; [auto|]. destruct F. split; auto.
Qed.
Lemma assoc_absent : forall A k (l : list (string * A)), assoc k l = None -> ~ In k (map fst l).
Proof.
  intros A k l. induction l as [|[j z] l IH]; cbn; intros H; [tauto|]. destruct (String.eqb_spec j k) as [->|NE]; [discriminate|]. intros [X|X]; [congruence|]. now apply IH.
Qed.
(** looking for a key that is not there, at the end of a path that may add it *)
Lemma lookup_new : forall s i p u id k start j, Forall keyed_in (r_stack s) -> holds (r_stack s) (i, p) u ->
  names (r_stack s) (start + j) [id] [k] -> rd u [k] = None ->
  (exists e, item_lookup (i, p) id start j true true s = Err e s) \/
  (exists o key l j', k = SKey key /\ u = VObject o /\ ~ In key (map fst o) /\ stored (i, p) (VObject (o ++ [(key, VReturn)])) (r_stack s) l /\ Forall keyed_in l /\
     item_lookup (i, p) id start j true true s = Ok ((i, p ++ [SKey key]), j') (set_stack l s)).
Proof.
  intros s i p u id k start j K H N R. pose proof (keyed_F _ K) as K'.
  assert (forall o key, u = VObject o -> assoc key o = None -> ~ In key (map fst o)) as NI.
  { intros o key _. apply assoc_absent. }
  unfold item_lookup, bind at 1. rewrite (pread_run _ _ _ _ K' H).
  destruct u; try (left; eexists; reflexivity); inversion N; subst; cbn [rd] in R.
  - left. eexists; reflexivity.
  - left. rewrite index_of_spec. destruct (Nat.ltb_spec (position x) (length l)); [|eexists; reflexivity].
    exfalso. destruct (nth_error l (position x)) eqn:Q; [discriminate|]. apply nth_error_None in Q. lia.
  - left. match goal with G : found _ _ _ |- _ => destruct (found_run _ _ _ G) as (i1 & A & B) end. unfold bind. rewrite A, B. eexists; reflexivity.
  - left. match goal with G : found _ _ _ |- _ => destruct (found_run _ _ _ G) as (i1 & A & B) end. unfold bind at 1. rewrite A. unfold bind at 1. rewrite B.
    rewrite index_of_spec. destruct (Nat.ltb_spec (position x) (length l)); [|eexists; reflexivity].
    exfalso. destruct (nth_error l (position x)) eqn:Q; [discriminate|]. apply nth_error_None in Q. lia.
  - right. destruct (assoc k0 l) as [z|] eqn:A; [discriminate|]. pose proof (NI l k0 eq_refl A) as NK.
    destruct (write_run s (i, p) _ (VObject (l ++ [(k0, VReturn)])) K H) as (l1 & W & St & K1); [apply new_keyed; auto; [eapply holds_keyed_in; eauto|exact Logic.I]|].
    exists l, k0, l1, j. do 5 (split; auto). unfold bind, ret. rewrite (pread_run _ _ _ _ K' H). cbn [fst snd]; try rewrite A; cbn [andb]. rewrite W. reflexivity.
  - left. eexists; reflexivity.
  - right. match goal with G : found _ _ _ |- _ => destruct (found_run _ _ _ G) as (i1 & A1 & B1) end. destruct (assoc k0 l) as [z|] eqn:A; [discriminate|]. pose proof (NI l k0 eq_refl A) as NK.
    destruct (write_run s (i, p) _ (VObject (l ++ [(k0, VReturn)])) K H) as (l1 & W & St & K1); [apply new_keyed; auto; [eapply holds_keyed_in; eauto|exact Logic.I]|].
    exists l, k0, l1, (S j). do 5 (split; auto). unfold bind. rewrite (pread_run _ _ _ _ K' H), A1, B1. unfold ret. cbn [fst snd]; try rewrite A; cbn [andb]. rewrite W. reflexivity.
  - left. match goal with G : found _ _ _ |- _ => destruct (found_run _ _ _ G) as (i1 & A & B) end. unfold bind. rewrite A, B. eexists; reflexivity.
Qed.

Lemma lookup_went_in : forall k start ids n s i p j ks ts m u,
  Forall keyed_in (r_stack s) -> holds (r_stack s) (i, p) u -> names (r_stack s) (start + j) ids ks -> marked n ks ts m ->
  went_in k s (i, p) m (lookup_ids ids n (i, p) start j true ts k s).
Proof.
  intros k start. induction ids as [|id ids IH]; intros n s i p j ks ts m u K H N Mk.
  { inversion N; subst. inversion Mk; subst. left. exists (i, p), (r_stack s). split; [left; constructor|]. split; auto.
    rewrite set_stack_self. reflexivity. }
  destruct ks as [|k0 ks]; [apply names_nil in N; discriminate|].
  cbn [lookup_ids]. unfold bind at 1. pose proof (keyed_F _ K) as K'.
  destruct (rd u [k0]) as [v|] eqn:R.
  2: { destruct ids as [|id2 ids].
       - assert (ks = []) as -> by (destruct ks; [auto|inversion N; subst; match goal with G : names _ _ [] (_ :: _) |- _ => inversion G end]).
         destruct (lookup_new s i p u id k0 start j K H N R) as [(e & ->)|(o & key & l & j' & -> & -> & NK & St & Kl & ->)].
         + right; right; left. exists e, (r_stack s). rewrite set_stack_self. reflexivity.
         + cbn [fst snd]. assert (holds l (i, p ++ [SKey key]) VReturn) as HV.
           { apply holds_step; [now apply keyed_F|]. exists (VObject (o ++ [(key, VReturn)])). split; [eapply stored_holds; eauto|]. cbn [rd]. rewrite assoc_new; auto.
             destruct (assoc key o) as [x|] eqn:Q; auto. apply assoc_In in Q. exfalso. apply NK. apply (in_map fst) in Q. exact Q. }
           inversion Mk as [|n' k' ks' ts' m' Mk1|n' k' ks' ts' m' Hts Mk1]; subst.
           * rewrite Nat.eqb_refl. unfold bind at 1. rewrite (pread_run (set_stack l s) _ _ _ (keyed_F _ Kl) HV). cbn [try_msg]. right; right; left. eexists. exists l. reflexivity.
           * inversion Mk1; subst. left. exists (i, p ++ [SKey key]), l. split; [right; eapply Ad_here; eauto|]. split; auto.
       - destruct (lookup_none s i p u id (id2 :: ids) k0 ks start j true false K' H N R eq_refl) as (e & ->).
         right; right; left. exists e, (r_stack s). rewrite set_stack_self. reflexivity. }
  destruct (lookup_some s i p u id ids k0 ks start j true (match ids with [] => true | _ => false end) v K' H N R) as (j' & N' & ->).
  assert (holds (r_stack s) (i, p ++ [k0]) v) as H2 by (apply holds_step; eauto).
  assert (match ids with [] => true | _ => false end = ends ks) as Hends by (inversion N'; reflexivity).
  rewrite Hends.
  destruct (lands (r_stack s) i p k0 (ends ks) v) as [q1|] eqn:La; [|right; right; right; eauto].
  assert (comes_to (r_stack s) (i, p) k0 (ends ks) q1 /\ exists w, holds (r_stack s) q1 w) as [Ct [w Hw]].
  { unfold lands in La. destruct v; try (inversion La; subst; split; [econstructor; eauto; right; discriminate|eauto]).
    destruct (ends ks) eqn:Q; [inversion La; subst; split; [econstructor; eauto|eauto]|].
    match type of La with match nth_error ?l ?r with _ => _ end = _ => destruct (nth_error l r) as [w|] eqn:W; [|discriminate] end.
    inversion La; subst. split; [apply Ct_ref; auto|]. exists w. exists w. split; auto. constructor. }
  clear La. cbn [fst snd].
  assert (forall l q q' l', adds VReturn l q [] q' l' -> False) as NA by (intros l q q' l' X; inversion X).
  (* without a mark *)
  assert (forall ts1 m1, marked (S n) ks ts1 m1 ->
    went_in k s (i, p) ((k0, false) :: m1) (lookup_ids ids (S n) q1 start j' true ts1 k s)) as Plain.
  { intros ts1 m1 Mk1. destruct q1 as [i1 p1].
    assert (ends ks = ends m1) as Em by (inversion Mk1; reflexivity). rewrite Em in Ct.
    destruct (IH (S n) s i1 p1 j' ks ts1 m1 w K Hw N' Mk1) as [(q' & l & [W|W] & Kl & O)|[(v1 & l & W & O)|O]].
    - left. exists q', l. split; [left; econstructor; eauto|auto].
    - left. exists q', l. split; [right|auto]. destruct m1; [exfalso; eapply NA; eauto|]. eapply Ad_plain; eauto.
    - right; left. exists v1, l. split; [econstructor; eauto|auto].
    - right; right. exact O. }
  assert (ends ks = ends (tl m)) as Em by (inversion Mk; subst; match goal with G : marked (S n) _ _ _ |- _ => inversion G; reflexivity end).
  inversion Mk as [|n' k' ks' ts' m' Mk1|n' k' ks' ts' m' Hts Mk1]; subst.
  - (* marked *) rewrite Nat.eqb_refl. unfold bind at 1.
    destruct q1 as [i1 p1]. rewrite (pread_run _ _ _ _ K' Hw). cbn in Em. rewrite Em in Ct.
    pose proof (try_msg_spec w) as Tm. destruct (try_msg w) as [[y|msg tr]|] eqn:Tq.
    + destruct (store_run s (i1, p1) w y K Hw Tm) as (l1 & Pw & St & K1 & Keep). unfold bind at 1. rewrite Pw.
      assert (names (r_stack (set_stack l1 s)) (start + j') ids ks) as N1 by (eapply names_keep; eauto).
      assert (holds l1 (i1, p1) y) as H1 by (eapply stored_holds; eauto).
      destruct (IH (S n) (set_stack l1 s) i1 p1 j' ks ts' m' y K1 H1 N1 Mk1) as [(q' & l & [W|W] & Kl & O)|[(v1 & l & W & O)|O]].
      * left. exists q', l. split; [left; eapply Wk_try; eauto|]. split; auto.
      * left. exists q', l. split; [right|auto]. destruct m'; [exfalso; eapply NA; eauto|]. eapply Ad_try; eauto.
      * right; left. exists v1, l. split; [eapply Sp_try; eauto|]. exact O.
      * right; right. exact O.
    + right; left. destruct Tm as [Tm NT]. exists w, (r_stack s). split; [eapply Sp_here; eauto|]. rewrite set_stack_self.
      destruct (leave_cases _ _ _ s Tq) as [(t & ->)|[O|O]]; auto.
      left. exists msg, tr, t. auto.
    + right; left. exists w, (r_stack s). split; [eapply Sp_here; eauto|]. rewrite set_stack_self.
      right; left. eexists. reflexivity.
  - destruct ts as [|t ts]; [exact (Plain _ _ Mk1)|].
    destruct (Nat.eqb_spec t n) as [->|D]; [specialize (Hts n (or_introl eq_refl)); lia|]. exact (Plain _ _ Mk1).
Qed.

(** [a.x?.k := e] that goes on stores the value of the right side at the place the path leads to with the payloads, or under the
    new last key of the object it leads to; nothing else changes but the wrappers on the way. *)
Theorem C08_try_insert : forall E n name sid cur tryf ids ks ts m right s b s0 s1 i u bv r s',
  eval E (S n) right Right s = Ok (Some b, FContinue) s0 ->
  (b = bv /\ (forall r, b <> VRef r)) \/ (exists r, b = VRef r /\ nth_error (r_stack s0) r = Some bv) ->
  lives E n name sid i s0 -> ids <> [] -> indexed E n ids s0 s1 -> Forall keyed_in (r_stack s1) ->
  names (r_stack s1) (length (r_stack s0)) ids ks -> marked 0 ks ts m -> nth_error (r_stack s1) i = Some u -> keyed_in bv ->
  eval E (S (S n)) (EAssign OpAssign (EItem (Item name sid cur tryf ids ts)) right) Right s = Ok (r, FContinue) s' ->
  r = None /\ exists q l l', (walks (r_stack s1) (i, []) m q l \/ adds VReturn (r_stack s1) (i, []) m q l) /\
    s' = set_stack l' s1 /\ stored q bv (firstn (length (r_stack s0)) l) l'.
Proof.
  intros E n name sid cur tryf ids ks ts m right s b s0 s1 i u bv r s' Hr Hb L Hne I K N Mk Hi Kb Ev.
  assert (match b with VRef i => slot i | _ => ret b end s0 = Ok bv s0) as G.
  { destruct Hb as [[-> NR]|(r0 & -> & N0)]; [destruct bv; try reflexivity; exfalso; eapply NR; reflexivity|]. unfold slot. rewrite N0. auto. }
  change (eval E (S (S n)) (EAssign OpAssign (EItem (Item name sid cur tryf ids ts)) right) Right) with
      (assign E (eval E (S n)) OpAssign (EItem (Item name sid cur tryf ids ts)) right) in Ev. unfold assign in Ev.
  unfold vexpr at 1, bind at 1 in Ev. rewrite Hr in Ev. unfold bind at 1 in Ev. rewrite G in Ev.
  destruct ids as [|z zs]; [contradiction|].
  unfold vexpr, bind at 1 in Ev. rewrite (item_run _ _ _ _ _ _ _ _ _ _ _ L Hne), (push_ids_run _ _ _ _ _ _ I) in Ev.
  assert (holds (r_stack s1) (i, []) u) as Hu by (exists u; split; auto; constructor).
  rewrite <- (Nat.add_0_r (length (r_stack s0))) in N.
  match type of Ev with match lookup_ids _ _ _ _ _ _ _ ?k _ with _ => _ end = _ =>
    destruct (lookup_went_in k (length (r_stack s0)) (z :: zs) 0 s1 i [] 0 ks ts m u K Hu N Mk)
      as [(q & l & W & Kl & O)|[(v & l & W & [(msg & tr & t & Hv & O)|[(e & O)|(w & O)]])|[(e & l & O)|(w & O)]]] end;
  rewrite O in Ev; try discriminate.
  destruct q as [qi qp]. cbn in Ev. unfold bind in Ev. unfold trunc_stack, modify, ret in Ev. cbn in Ev.
  set (sd := set_stack (firstn (length (r_stack s0)) l) (set_stack l s1)) in *.
  destruct (pwrite (qi, qp) bv sd) as [[] s2| | |] eqn:P; try discriminate. injection Ev as <- <-. split; [reflexivity|].
  exists (qi, qp), l. unfold pwrite, bind, slot in P. cbn [fst snd] in P. destruct (nth_error (r_stack sd) qi) as [w|] eqn:NW; [|discriminate].
  destruct (wr w qp bv) as [w'|] eqn:WR; [|discriminate]. unfold modify in P. injection P as <-. exists (list_set qi w' (firstn (length (r_stack s0)) l)).
  split; [exact W|]. split; [reflexivity|]. apply stored_wr with (r := w); auto; [|now apply keyed_in_keyed].
  apply keyed_in_keyed. cbn in NW. apply (nth_error_Forall _ _ _ _ (firstn_all_F _ _ _ Kl) NW).
Qed.
Print Assumptions C08_try_insert.

(** a.x?.w := 5 with the variables of P_PathTry.v: the wrapper is gone and the key is there. *)
Example C08_example_try_insert : exists s', eval std_ 6 (num 5) Right wrapped_ = Ok (Some (f_ 5), FContinue) wrapped_ /\
  lives std_ 5 "a" (Some 2) 1 wrapped_ /\ indexed std_ 5 [IdStr "x"; IdStr "w"] wrapped_ wrapped_ /\ Forall keyed_in (r_stack wrapped_) /\
  names (r_stack wrapped_) 3 [IdStr "x"; IdStr "w"] [SKey "x"; SKey "w"] /\ marked 0 [SKey "x"; SKey "w"] [0] [(SKey "x", true); (SKey "w", false)] /\
  eval std_ 7 (EAssign OpAssign (EItem (Item "a" (Some 2) false false [IdStr "x"; IdStr "w"] [0])) (num 5)) Right wrapped_ = Ok (None, FContinue) s' /\
  nth_error (r_stack s') 1 = Some (VObject [("x", VObject [("y", VArray [VSome (f_ 7)]); ("w", f_ 5)]); ("z", VErr (VStr "no") ["t"])]).
Proof.
  eexists. assert (NoDup ["x"; "z"]) as ND by (constructor; [intros [H|[]]; discriminate|]; constructor; [intros []|constructor]).
  assert (NoDup ["y"]) as ND1 by (constructor; [intros []|constructor]).
  split; [vm_compute; reflexivity|]. split; [reflexivity|]. split; [apply Ix_const; [discriminate|]; apply Ix_const; [discriminate|]; apply Ix_nil|].
  split; [repeat apply Forall_cons; try apply Forall_nil; try exact Logic.I; simpl; auto 10|].
  split; [apply Nm_str; apply Nm_str; apply Nm_nil|]. split; [apply Mk_try; apply Mk_plain; [intros t []|]; apply Mk_nil|].
  split; [vm_compute; reflexivity|]. vm_compute. reflexivity.
Qed.
(** A path with [?] behind a new key is an error, but the key stays, with a value that no program can write: the host finds it in the
    runtime. *)
Theorem C08_try_leftover_refuted : ~ forall E n op name sid cur tryf ids ts right s e s' i o, op = OpAssign ->
  eval E (S (S n)) (EAssign op (EItem (Item name sid cur tryf ids ts)) right) Right s = Err e s' ->
  nth_error (r_stack s) i = Some (VObject o) -> nth_error (r_stack s') i = Some (VObject o).
Proof.
  intros H. assert (exists s', eval std_ 7 (EAssign OpAssign (EItem (Item "a" (Some 2) false false [IdStr "w"] [0])) (num 5)) Right wrapped_ = Err "expected ok or err" s' /\
    nth_error (r_stack s') 1 = Some (VObject [("x", VOk (VObject [("y", VArray [VSome (f_ 7)])])); ("z", VErr (VStr "no") ["t"]); ("w", VReturn)])) as (s' & A & B).
  { eexists. split; [vm_compute; reflexivity|]. vm_compute. reflexivity. }
  pose proof (H _ _ _ _ _ _ _ _ _ _ _ _ _ 1 _ eq_refl A eq_refl) as C. rewrite B in C. discriminate.
Qed.
