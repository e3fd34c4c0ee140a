(** * Lemmas for the errors of the type checker. *)
From Coq Require Import String List Bool Arith Lia.
From Verif Require Import Syntax TypeModel LifetimeModel TypecheckModel TypeSpec TypecheckSpec TypeErrSpec TypeProofs TypecheckProofs TypecheckShape TypecheckInv TypecheckVisit TypecheckClosed TypecheckReason.
Import ListNotations.
Local Open Scope string_scope.
Local Open Scope nat_scope.
Local Open Scope list_scope.

Lemma tbind_err : forall A B (a : tres A) (f : A -> tres B) c i, tbind a f = TErr c i -> a = TErr c i \/ exists x, a = TOk x /\ f x = TErr c i.
Proof. intros A B [a|d j| | |] f c i H; simpl in H; try discriminate; eauto. injection H as -> ->. auto. Qed.
Lemma get_err : forall g i c j, get g i <> TErr c j.
Proof. intros g i c j. unfold get. destruct (nth_error g i); discriminate. Qed.
Lemma find_child__err : forall g k l c j, find_child_ g k l <> TErr c j.
Proof.
  induction l as [|a l IH]; intros c j H; simpl in H; [discriminate|]. apply tbind_err in H. destruct H as [H|(x & E & H)]; [now apply get_err in H|].
  destruct (is_kind _ _); [discriminate|]. now apply IH in H.
Qed.
Lemma find_child_err : forall g n k c j, find_child g n k <> TErr c j.
Proof. intros. apply find_child__err. Qed.
(** one step into a computation that gives an error *)
Ltac terr H :=
  match type of H with
  | tbind (get _ _) _ = TErr _ _ => let x := fresh "x" in let E := fresh "E" in
      apply tbind_err in H; destruct H as [H|(x & E & H)]; [exfalso; exact (get_err _ _ _ _ H)|apply get_ok in E]
  | tbind (find_child _ _ _) _ = TErr _ _ => let x := fresh "o" in let E := fresh "E" in
      apply tbind_err in H; destruct H as [H|(x & E & H)]; [exfalso; exact (find_child_err _ _ _ _ _ H)|]
  end.

(** ** The last checks *)
Lemma check_fn_err : forall n g t l found code d, check_fn n g t l found = TErr code d ->
  exists r, (In d l \/ exists m, In m l /\ ~ kind_at g m K_Closure /\ within g m d) /\ returns g d r /\ goes_with t r = false /\
    ((code = 1200 /\ kind_at g d K_Return) \/ (code = 1250 /\ assigned_return g d) \/ (code = 1300 /\ kind_at g d K_ReturnVoid)).
Proof.
  induction n as [|n IH]; intros g t l found code d H; simpl in H; [discriminate|]. destruct l as [|c l]; [discriminate|]. terr H.
  assert (forall f, check_fn n g t l f = TErr code d -> exists r, (In d (c :: l) \/ exists m, In m (c :: l) /\ ~ kind_at g m K_Closure /\ within g m d) /\ returns g d r /\ goes_with t r = false /\
    ((code = 1200 /\ kind_at g d K_Return) \/ (code = 1250 /\ assigned_return g d) \/ (code = 1300 /\ kind_at g d K_ReturnVoid))) as Rest.
  { intros f B. destruct (IH _ _ _ _ _ _ B) as (r & [D|(m & M & D)] & R); exists r; (split; [|exact R]); [left; now right|right; exists m; split; [now right|exact D]]. }
  assert (forall f, g_kind x <> K_Closure -> tbind (check_fn n g t (g_children x) f) (fun f => check_fn n g t l f) = TErr code d ->
    exists r, (In d (c :: l) \/ exists m, In m (c :: l) /\ ~ kind_at g m K_Closure /\ within g m d) /\ returns g d r /\ goes_with t r = false /\
    ((code = 1200 /\ kind_at g d K_Return) \/ (code = 1250 /\ assigned_return g d) \/ (code = 1300 /\ kind_at g d K_ReturnVoid))) as Below.
  { intros f NC B. apply tbind_err in B. destruct B as [B|(y & _ & B)]; [|now apply Rest in B].
    destruct (IH _ _ _ _ _ _ B) as (r & D & R). exists r. split; [|exact R]. right. exists c. split; [now left|].
    split; [intros (m & M & Y); rewrite (node_det _ _ _ _ M E) in Y; auto|].
    destruct D as [D|(m & M & N & D)]; [eapply In_child; eauto|eapply In_deeper; eauto]. }
  destruct (g_kind x) eqn:Kx; try (apply (Below found); [congruence|exact H]); try (now apply Rest in H).
  - (* Item *) destruct (match g_name x with Some y => (y =? "return")%string | None => false end) eqn:Nm; [|apply (Below found); [congruence|exact H]].
    apply tbind_err in H. destruct H as [H|(b & E0 & H)].
    { exfalso. destruct (g_parent x); [|discriminate]. terr H. destruct (is_kind _ _); [|discriminate]. destruct (g_parent x0); [|discriminate]. terr H. discriminate. }
    destruct b; [|apply (Below found); [congruence|exact H]].
    destruct (g_ty x) as [r|] eqn:T; [|apply (Below true); [congruence|exact H]]. destruct (goes_with t r) eqn:G; [apply (Below true); [congruence|exact H]|].
    injection H as <- <-. assert (assigned_return g c) as AR.
    { destruct (g_name x) as [nm|] eqn:Nx; [|discriminate]. apply String.eqb_eq in Nm. subst nm.
      destruct (g_parent x) as [p|] eqn:Px; [|discriminate]. tinv E0. apply get_ok in E1.
      destruct (is_kind (g_kind x0) K_Left) eqn:KL; [|discriminate]. apply is_kind_iff in KL.
      destruct (g_parent x0) as [q|] eqn:Pq; [|discriminate]. tinv E0. apply get_ok in E2. injection E0 as E0. apply is_kind_iff in E0.
      exists x, p, x0, q. repeat split; auto. eexists; eauto. }
    exists r. split; [left; now left|]. split; [|auto]. apply R_assigned; auto. now rewrite (node_ty _ _ _ E).
  - (* return *) destruct (g_ty x) as [r|] eqn:T; [|apply (Below true); [congruence|exact H]]. destruct (goes_with t r) eqn:G; [apply (Below true); [congruence|exact H]|].
    injection H as <- <-. assert (kind_at g c K_Return) as KR by (exists x; auto). exists r. split; [left; now left|]. split; [|auto]. apply R_value; auto. now rewrite (node_ty _ _ _ E).
  - destruct (goes_with t TVoid) eqn:G; [apply (Below true); [congruence|exact H]|].
    injection H as <- <-. assert (kind_at g c K_ReturnVoid) as KR by (exists x; auto). exists TVoid. split; [left; now left|]. split; [now apply R_nothing|auto].
Qed.
(** nothing found: there is no return statement *)
Lemma check_fn_none : forall n g t l found, check_fn n g t l found = TOk false ->
  found = false /\ forall c, In c l \/ (exists m, In m l /\ ~ kind_at g m K_Closure /\ within g m c) -> ~ return_statement g c.
Proof.
  induction n as [|n IH]; intros g t l found H; simpl in H; [discriminate|]. destruct l as [|c l].
  { injection H as ->. split; auto. intros c [[]|(m & [] & _)]. }
  tinv H. apply get_ok in E.
  assert (forall f, tbind (check_fn n g t (g_children x) f) (fun f => check_fn n g t l f) = TOk false -> ~ return_statement g c ->
    f = false /\ forall d, In d (c :: l) \/ (exists m, In m (c :: l) /\ ~ kind_at g m K_Closure /\ within g m d) -> ~ return_statement g d) as Below.
  { intros f B NR. tinv B. destruct (IH _ _ _ _ B) as [-> J]. destruct (IH _ _ _ _ E0) as [-> I']. split; auto.
    intros d [[<- |D]|(m & [<- |M] & N & D)]; auto.
    - apply I'. inversion D as [i y e A1 A2|i y m e A1 A2 A3 A4]; subst; rewrite (node_det _ _ _ _ A1 E) in A2; eauto 6.
    - apply J. eauto. }
  assert (g_kind x <> K_Return -> g_kind x <> K_ReturnVoid -> g_kind x <> K_Item -> ~ return_statement g c) as Other.
  { intros N1 N2 N3 [(m & M & Y)|[(m & M & Y)|(m & ? & ? & ? & M & Y & _)]]; rewrite (node_det _ _ _ _ M E) in Y; auto. }
  assert (tbind (check_fn n g t (g_children x) true) (fun f => check_fn n g t l f) = TOk false -> False) as True'.
  { intros B. tinv B. destruct (IH _ _ _ _ B) as [-> _]. destruct (IH _ _ _ _ E0) as [X _]. discriminate X. }
  destruct (g_kind x) eqn:Kx; try (apply Below; [exact H|apply Other; discriminate]).
  - destruct (match g_name x with Some y => (y =? "return")%string | None => false end) eqn:Nm.
    + tinv H. destruct x0.
      * exfalso. destruct (g_ty x) as [r|]; [destruct (goes_with t r); [|discriminate]|]; auto.
      * apply Below; auto. intros [(m & M & Y)|[(m & M & Y)|(m & p & pn & a & M & _ & _ & Q1 & Q2 & Q3 & Q4 & Q5)]].
        -- rewrite (node_det _ _ _ _ M E), Kx in Y. discriminate.
        -- rewrite (node_det _ _ _ _ M E), Kx in Y. discriminate.
        -- rewrite (node_det _ _ _ _ M E) in Q1. rewrite Q1 in E0.
           tinv E0. apply get_ok in E1. rewrite (node_det _ _ _ _ E1 Q2), Q3, is_kind_refl, Q4 in E0. tinv E0. apply get_ok in E2.
           destruct Q5 as (an & A1 & A2). rewrite (node_det _ _ _ _ E2 A1), A2, is_kind_refl in E0. discriminate.
    + apply Below; auto. intros [(m & M & Y)|[(m & M & Y)|(m & p & pn & a & M & _ & Q0 & _)]].
      * rewrite (node_det _ _ _ _ M E), Kx in Y. discriminate.
      * rewrite (node_det _ _ _ _ M E), Kx in Y. discriminate.
      * rewrite (node_det _ _ _ _ M E) in Q0. rewrite Q0, String.eqb_refl in Nm. discriminate.
  - exfalso. destruct (g_ty x) as [r|]; [destruct (goes_with t r); [|discriminate]|]; auto.
  - exfalso. destruct (goes_with t TVoid); [auto|discriminate].
  - destruct (IH _ _ _ _ H) as [-> J]. split; auto. intros d [[<- |D]|(m & [<- |M] & N & D)]; auto.
    + apply Other; discriminate.
    + exfalso. apply N. exists x. auto.
    + apply J. eauto.
Qed.
Lemma no_child : forall g n k, find_child g n k = TOk None -> forall c, In c (g_children n) -> ~ kind_at g c k.
Proof.
  intros g n k. unfold find_child. induction (g_children n) as [|a l IH]; intros H c C; simpl in C; [contradiction|]. simpl in H. tinv H. apply get_ok in E.
  destruct (is_kind (g_kind x) k) eqn:X; [discriminate|]. destruct C as [<- |C]; [|now apply IH].
  intros (m & M & Y). rewrite (node_det _ _ _ _ M E) in Y. apply is_kind_iff in Y. congruence.
Qed.
Lemma no_results_err : forall g l c d, no_results g l = TErr c d ->
  c = 1100 /\ In d l /\ ~ kind_at g d K_Return /\ exists t, ty_at g d = Some t /\ t <> TVoid /\ t <> TUnreachable.
Proof.
  induction l as [|a l IH]; intros c d H; simpl in H; [discriminate|]. terr H.
  assert (no_results g l = TErr c d -> c = 1100 /\ In d (a :: l) /\ ~ kind_at g d K_Return /\ exists t, ty_at g d = Some t /\ t <> TVoid /\ t <> TUnreachable) as R.
  { intros B. destruct (IH _ _ B) as (A1 & A2 & A3). split; auto. split; [now right|auto]. }
  destruct (is_kind (g_kind x) K_Return) eqn:X; auto. destruct (g_ty x) as [t|] eqn:T; auto.
  assert (~ kind_at g a K_Return) as NK by (intros (m & M & Y); rewrite (node_det _ _ _ _ M E) in Y; apply is_kind_iff in Y; congruence).
  destruct t; auto; injection H as <- <-; split; auto; (split; [now left|]); (split; auto); eexists; (split; [rewrite (node_ty _ _ _ E); exact T|]); split; discriminate.
Qed.
Lemma else_ifs_err : forall g t l c d, else_ifs g t l = TErr c d -> In d l /\
  ((c = 1500 /\ kind_at g d K_ElseIfCond /\ exists u, ty_at g d = Some u /\ goes_with TBool u = false) \/
   (c = 1600 /\ kind_at g d K_ElseIfBlock /\ exists u, ty_at g d = Some u /\ goes_with u t = false)).
Proof.
  induction l as [|a l IH]; intros c d H; simpl in H; [discriminate|]. terr H.
  assert (else_ifs g t l = TErr c d -> In d (a :: l) /\
  ((c = 1500 /\ kind_at g d K_ElseIfCond /\ exists u, ty_at g d = Some u /\ goes_with TBool u = false) \/
   (c = 1600 /\ kind_at g d K_ElseIfBlock /\ exists u, ty_at g d = Some u /\ goes_with u t = false))) as R.
  { intros B. destruct (IH _ _ B) as (A1 & A2). split; [now right|auto]. }
  destruct (g_kind x) eqn:KK; auto; destruct (g_ty x) as [u|] eqn:T; auto.
  - destruct (goes_with TBool u) eqn:G; auto. injection H as <- <-. split; [now left|]. left. split; auto. split; [exists x; auto|]. exists u. rewrite (node_ty _ _ _ E). auto.
  - destruct (goes_with u t) eqn:G; auto. injection H as <- <-. split; [now left|]. right. split; auto. split; [exists x; auto|]. exists u. rewrite (node_ty _ _ _ E). auto.
Qed.
Lemma after_err : forall fuel g i c d, after fuel g i = TErr c d -> at_odds g c d.
Proof.
  intros fuel g i c d H. unfold after in H. terr H. rename x into n, E into N. destruct (g_kind n) eqn:KK; try discriminate.
  - (* function *) unfold after_fn in H. destruct (g_ty n) as [t|] eqn:T; [|injection H as <- <-; eapply O_untyped; eauto].
    terr H. apply tbind_err in H. destruct H as [H|(u & _ & H)].
    { destruct o as [e|]; [|discriminate]. apply find_child_first in E. terr H. destruct (g_ty x) as [et|] eqn:T'; [|discriminate].
      destruct (goes_with t et) eqn:G; [discriminate|]. injection H as <- <-. apply (O_body g i n t e et); auto. now rewrite (node_ty _ _ _ E0). }
    apply tbind_err in H. destruct H as [H|(b & B & H)].
    + destruct (check_fn_err _ _ _ _ _ _ _ H) as (r & W & R & G & X).
      assert (within g i d) as W' by (destruct W as [W|(m & M & NC & W)]; [eapply In_child; eauto|eapply In_deeper; eauto]).
      destruct X as [[-> X]|[[-> X]|[-> X]]]; [eapply O_return; eauto|eapply O_assigned_return; eauto|].
      eapply O_return_nothing; eauto. inversion R as [q (m & M & Y)|_|q (m & ? & ? & ? & M & Y & _)]; subst; auto;
        destruct X as (m' & M' & Y'); rewrite (node_det _ _ _ _ M M') in Y; congruence.
    + destruct (negb b && negb (ty_eqb t TVoid) && match o with None => true | Some _ => false end) eqn:X; [|discriminate]. injection H as <- <-.
      apply andb_true_iff in X. destruct X as [X X3]. apply andb_true_iff in X. destruct X as [X1 X2]. destruct b; [discriminate|]. destruct o; [discriminate|].
      destruct (check_fn_none _ _ _ _ _ B) as [_ NR]. eapply O_no_result; eauto.
      * intros ->. discriminate X2.
      * now apply no_child.
      * intros c W. apply NR. inversion W as [? y ? A1 A2|? y m ? A1 A2 A3 A4]; subst; rewrite (node_det _ _ _ _ A1 N) in A2; eauto 6.
  - (* block *) unfold after_block in H. destruct (g_children n) as [|a l] eqn:CC; [discriminate|]. rewrite <- CC in H.
    assert (no_results g (statements g n) = TErr c d -> at_odds g c d) as Go.
    { intros B. destruct (no_results_err _ _ _ _ B) as (-> & A & D & t & F1 & F2 & F3). eapply O_result; eauto. }
    apply Go. unfold statements. destruct (g_parent n) as [p|]; [|exact H]. terr H. unfold is_node in E. rewrite E.
    destruct (is_kind (g_kind x) K_Fn) eqn:KF.
    + apply is_kind_iff in KF. rewrite KF. destruct (g_ty x) as [[]|]; try discriminate; exact H.
    + destruct (g_kind x); try exact H. discriminate KF.
  - (* assignment *) unfold after_assign in H.
    assert (forall o, g_op n = Some o -> o = OpAdd \/ o = OpSub -> forall l r ln rn t u, first_of g n K_Left l -> first_of g n K_Right r -> is_node g l ln -> is_node g r rn ->
      g_ty ln = Some t -> g_ty rn = Some u -> add_assign t u = false -> at_odds g 1000 i) as Go.
    { intros o O1 O2 l r ln rn t u A1 A2 A3 A4 A5 A6 A7. apply (O_add g i n l r t u); auto; try (destruct O2 as [-> | ->]; auto; fail); try (now rewrite (node_ty _ _ _ A3)); now rewrite (node_ty _ _ _ A4). }
    destruct (g_op n) as [op|] eqn:O; [|discriminate].
    destruct op; try discriminate; terr H; (destruct o as [l|]; [|discriminate]); terr H; (destruct o as [r|]; [|discriminate]); terr H; terr H;
      (destruct (g_ty x) as [t|] eqn:T1; [|discriminate]); (destruct (g_ty x0) as [u|] eqn:T2; [|discriminate]); (destruct (add_assign t u) eqn:G; [discriminate|]);
      injection H as <- <-; apply find_child_first in E, E0; eapply (Go _ eq_refl); eauto.
  - (* if *) unfold check_if in H. terr H. apply tbind_err in H. destruct H as [H|(u & _ & H)].
    { destruct o as [k|]; [|discriminate]. apply find_child_first in E. terr H. destruct (g_ty x) as [ct|] eqn:T; [|discriminate]. destruct (goes_with TBool ct) eqn:G; [discriminate|].
      injection H as <- <-. apply (O_condition g i n k ct); auto. now rewrite (node_ty _ _ _ E0). }
    destruct (g_ty n) as [t|] eqn:T; [|discriminate]. apply tbind_err in H. destruct H as [H|(u' & _ & H)].
    + destruct (else_ifs_err _ _ _ _ _ H) as (A & [(-> & B & v & D & F)|(-> & B & v & D & F)]); [eapply O_else_if_condition; eauto|eapply O_else_if; eauto].
    + terr H. destruct o0 as [e|]; [|discriminate]. apply find_child_first in E0. terr H. destruct (g_ty x) as [et|] eqn:T'; [|discriminate]. destruct (goes_with et t) eqn:G; [discriminate|].
      injection H as <- <-. apply (O_else g i n e t et); auto. now rewrite (node_ty _ _ _ E1).
  - (* go *) unfold after_go in H. destruct (g_children n) as [|a l] eqn:CC; [discriminate|]. terr H. destruct (g_decl x) as [e|] eqn:D; [|discriminate]. terr H.
    assert (ty_at g e = None \/ ty_at g e = Some TVoid -> at_odds g 900 i) as Go.
    { intros X. eapply (O_go g i n a x e); eauto. now rewrite CC. }
    rewrite (node_ty _ _ _ E0) in Go. destruct (g_ty x0) as [[]|]; try discriminate; injection H as <- <-; auto.
  - (* swizzle *) unfold after_swizzle in H. terr H. destruct o as [e|]; [|discriminate]. apply find_child_first in E. terr H. destruct (g_ty x) as [t|] eqn:T; [|discriminate].
    rewrite inner_behind in H. destruct (goes_with (behind x t) TVec4) eqn:G; [discriminate|]. injection H as <- <-. now apply (O_swizzle g i n e x t).
Qed.
Lemma after_all_err : forall fuel g l c d, after_all fuel g l = TErr c d -> at_odds g c d.
Proof.
  induction l as [|i l IH]; intros c d H; simpl in H; [discriminate|]. apply tbind_err in H. destruct H as [H|(u & _ & H)]; [eapply after_err; eauto|auto].
Qed.
