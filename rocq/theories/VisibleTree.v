(** * What the linking passes see in a tree: names that variables and calls are looked up by, and scopes as lists of names. *)
From Coq Require Import String List Bool Arith ZArith Lia Sorting.Sorted.
From Verif Require Import Syntax Float64 TypeModel LifetimeModel PrintModel NodesModel NodesSpec NodesProofs NodesLayout NodesScope NodesCalls NodesFits P_Nodes P_Scope.
Import ListNotations.
Local Open Scope string_scope.
Local Open Scope nat_scope.
Local Open Scope list_scope.

(** ** Names *)
Definition tmarks (ts : list ntree) : list bool :=
  flat_map (fun t => match t_kind t with K_Arg | K_CallArg => [x_mut (t_data t)] | _ => [] end) ts.
Definition t_names (w : option string) (d : data) (ts : list ntree) : list string :=
  let l := x_names d in
  match x_kind d with
  | K_Fn | K_Call | K_CallClosure => if existsb id (tmarks ts) then match l with y :: _ => [marked y (tmarks ts)] | [] => [] end else l
  | K_Item => match ts, w, l with [], Some w, y :: l => (y ++ "__" ++ w)%string :: l | _, _, _ => l end
  | _ => l
  end.
(** the first item of the call of a closure gets the word *)
Definition ren_all (ren : option string -> ntree -> ntree) : option string -> list ntree -> list ntree :=
  fix go w l := match l with [] => [] | t :: l => if of_ K_Item t then ren w t :: go None l else ren None t :: go w l end.
Definition word_in (d : data) : option string := match x_kind d with K_CallClosure => hd_error (x_names d) | _ => None end.
Fixpoint ren (w : option string) (t : ntree) : ntree :=
  match t with NT d ts => NT (with_names (t_names w d ts) d) (ren_all ren (word_in d) ts) end.
Lemma ren_none : forall ts, ren_all ren None ts = map (ren None) ts.
Proof. induction ts as [|t ts IH]; [reflexivity|]. cbn [ren_all map]. rewrite IH. now destruct (of_ K_Item t). Qed.
Lemma ren_kind : forall w t, t_kind (ren w t) = t_kind t.
Proof. now intros w [d ts]. Qed.

Section Ren.
Context (g0 g : fgraph).
Context (T : tree_ok g0) (LEN : length g = length g0).
Context (NAMES : forall i n, nth_error g0 i = Some n -> nth_error g i = Some (rename (new_names g0 i n) n)).
Lemma marks_tree : forall n ts, Forall2 (reads g0) (f_children n) ts -> marks g0 n = tmarks ts.
Proof.
  intros n ts F. unfold marks, tmarks. induction F as [|c t cs ts R F IH]; [reflexivity|]. cbn [flat_map]. rewrite IH.
  inversion R as [i m ls E F' E1 E2]; subst. rewrite E. reflexivity.
Qed.
Definition word_fits (w : option string) (i : nat) : Prop := forall n, nth_error g0 i = Some n -> f_kind n = K_Item -> f_children n = [] -> word_of g0 i n = w.
Lemma ren_reads : forall t i w, reads g0 i t -> word_fits w i -> reads g i (ren w t).
Proof.
  induction t as [d ts IH] using ntree_ind'. intros i w R W. inversion R as [i' n ls E F E1 E2]; subst. cbn [ren].
  pose proof (NAMES _ _ E) as Eg.
  assert (X : t_names w (f_data n) ts = new_names g0 i n).
  { unfold t_names, new_names. rewrite (marks_tree _ _ F). change (x_kind (f_data n)) with (f_kind n).
    destruct (f_kind n) eqn:K; try reflexivity.
    destruct ts as [|t ts].
    - inversion F as [C|]; subst. rewrite (W n E K (eq_sym C)). destruct w, (x_names (f_data n)); reflexivity.
    - unfold word_of. inversion F as [|c t' cs ts' R' F']; subst. destruct (x_names (f_data n)); reflexivity. }
  rewrite X. change (with_names (new_names g0 i n) (f_data n)) with (f_data (rename (new_names g0 i n) n)). constructor; [exact Eg|]. cbn [rename with_data f_children].
  (* children *)
  assert (P : forall c, In c (f_children n) -> exists cn, nth_error g0 c = Some cn /\ f_parent cn = Some i) by (intros c I; exact (to_child _ T _ _ _ E I)).
  pose proof (to_nodup _ T _ _ E) as ND.
  assert (WO : forall c cn, In c (f_children n) -> nth_error g0 c = Some cn -> f_children cn = [] ->
     word_of g0 c cn = match f_kind n, first_item g0 n with K_CallClosure, Some it => if it =? c then f_name n else None | _, _ => None end).
  { intros c cn I Ec C. unfold word_of. rewrite C. destruct (P c I) as (cn' & Ec' & PP). rewrite Ec in Ec'. injection Ec' as <-. rewrite PP, E. reflexivity. }
  (* the items before the first one are none *)
  enough (G : forall cs us w', Forall2 (reads g0) cs us -> Forall (fun t => forall i w, reads g0 i t -> word_fits w i -> reads g i (ren w t)) us -> NoDup cs -> incl cs (f_children n) ->
     (forall c cn, In c cs -> nth_error g0 c = Some cn -> f_kind cn = K_Item -> f_children cn = [] ->
        word_of g0 c cn = match find (fun c => match nth_error g0 c with Some m => is_kind (f_kind m) K_Item | None => false end) cs with Some it => if it =? c then w' else None | None => None end) ->
     Forall2 (reads g) cs (ren_all ren w' us)).
  { apply G; auto. apply incl_refl. intros c cn I Ec K C. rewrite (WO c cn I Ec C). unfold word_in. change (x_kind (f_data n)) with (f_kind n).
    change (hd_error (x_names (f_data n))) with (f_name n). unfold first_item. destruct (f_kind n), (find _ (f_children n)) as [it|]; try reflexivity; now destruct (it =? c). }
  clear IH F R W X E Eg WO. induction cs as [|c cs IHc]; intros us w' F IH N I H; inversion F as [|? t ? us' R F']; subst; [constructor|].
  inversion_clear IH as [|? ? IH1 IH2]. inversion_clear N as [|? ? N1 N2]. cbn [ren_all].
  inversion R as [c' cn ls Ec Fc E1 E2]; subst.
  assert (OF : of_ K_Item (NT (f_data cn) ls) = is_kind (f_kind cn) K_Item) by reflexivity. rewrite OF.
  cbn [find] in H. rewrite Ec in H.
  destruct (is_kind (f_kind cn) K_Item) eqn:KI.
  - constructor.
    + apply IH1; [exact R|]. intros n' En K C. rewrite Ec in En. injection En as <-. rewrite (H c cn (or_introl eq_refl) Ec K C), Nat.eqb_refl. reflexivity.
    + apply IHc; auto; [intros x J; apply I; now right|]. intros x xn J Ex K C. rewrite (H x xn (or_intror J) Ex K C).
      destruct (Nat.eqb_spec c x) as [->|_]; [contradiction|]. destruct (find _ cs) as [it|]; [now destruct (it =? x)|reflexivity].
  - constructor.
    + apply IH1; [exact R|]. intros n' En K C. rewrite Ec in En. injection En as <-. rewrite K in KI. discriminate.
    + apply IHc; auto; [intros x J; apply I; now right|]. intros x xn J Ex K C. exact (H x xn (or_intror J) Ex K C).
Qed.
End Ren.

(** ** Scopes *)
Definition t_name (t : ntree) : list string := match x_names (t_data t) with x :: _ => [x] | [] => [] end.
Definition none {A} (l : list A) : bool := match l with [] => true | _ => false end.
(** the variable that a statement with these parts introduces *)
Definition declares_t (ts : list ntree) : list string :=
  match ts with
  | NT da (NT _ (m :: _) :: _) :: _ =>
      match x_op da with Some OpAssign => if of_ K_Item m && negb (none (t_children m)) then [] else t_name m | _ => [] end
  | _ => []
  end.
Definition loopb (k : kind) : bool :=
  existsb (is_kind k) [K_ForN; K_Sum; K_Prod; K_SumVec4; K_ProdVec4; K_Min; K_Max; K_Sift; K_Any; K_All; K_LinkFor; K_Vec4UnLoop;
        K_ForIn; K_SumIn; K_ProdIn; K_MinIn; K_MaxIn; K_AnyIn; K_AllIn; K_SiftIn; K_LinkIn].
Definition over (d : data) : list string := if loopb (x_kind d) then x_names d else [].
Definition params (d : data) (ts : list ntree) : list string :=
  if is_kind (x_kind d) K_Fn || is_kind (x_kind d) K_Closure then flat_map (fun t => if of_ K_Arg t || of_ K_Current t then t_name t else []) ts else [].
(** the values of the arguments of a call *)
Definition t_width (t : ntree) : nat :=
  match filter (of_ K_Swizzle) (t_children t) with
  | s :: _ => length (filter (fun c => of_ K_Sw0 c || of_ K_Sw1 c || of_ K_Sw2 c || of_ K_Sw3 c) (t_children s))
  | [] => 1
  end.
Definition t_values (ts : list ntree) : nat := fold_right (fun a m => t_width a + m) 0 (filter (of_ K_CallArg) ts).

Definition is_local (o : option assign_op) : bool := match o with Some OpAssign => true | _ => false end.
Section Check.
Context (callable : string -> nat -> Prop).
(** what the parts of a node may use: the variables of the loop, those of the statements before, the parameters, and what is around *)
Definition kids (tok : bool -> bool -> list string -> ntree -> Prop) (d : data) (lf : bool) (P V : list string) : bool -> list string -> list ntree -> Prop :=
  fix go (first : bool) (pre : list string) (l : list ntree) : Prop :=
    match l with
    | [] => True
    | t :: l =>
        tok (first && is_local (x_op d)) (first && lf) (over d ++ pre ++ P ++ (if is_kind (x_kind d) K_Closure then [] else V)) t /\
        go false (pre ++ declares_t (t_children t)) l
    end.
(** [lf]: the node is on the left of [:=]; [dc]: it is the first part of what is there. Nothing is said about what is grabbed. *)
Fixpoint tok (lf dc : bool) (V : list string) (t : ntree) : Prop :=
  match t with
  | NT d ts =>
      (x_kind d = K_Item -> dc && none ts = false -> forall x, hd_error (x_names d) = Some x -> x = "return" \/ In x V) /\
      (x_kind d = K_Call -> x_alias d = None -> forall x, hd_error (x_names d) = Some x -> callable x (t_values ts)) /\
      (x_kind d = K_Grab \/ kids tok d lf (params d ts) V true [] ts)
  end.
End Check.

(** ** An accepted graph *)
Lemma is_kind_iff : forall a b, is_kind a b = true <-> a = b.
Proof. intros a b. split; [apply is_kind_true|intros ->; now destruct b]. Qed.
Section Graph.
Context (g : fgraph).
Context (T : tree_ok g).

Lemma out_child : forall c cn i n, nth_error g c = Some cn -> f_parent cn = Some i -> nth_error g i = Some n -> f_kind n <> K_Grab ->
  forall k c' p l, outwards g c k c' p l ->
  (k = 0 /\ c' = c /\ p = i /\ l = 0%Z) \/ (exists k', k = S k' /\ f_kind n <> K_Closure /\ outwards g i k' c' p l).
Proof.
  intros c cn i n Ec Pc Ei KG.
  assert (A0 : asked g i 0 = 0%Z). { unfold asked. rewrite Ei. destruct (is_kind (f_kind n) K_Grab) eqn:K; auto. apply is_kind_iff in K. contradiction. }
  intros k c' p l O. induction O as [n0 p0 E0 P0|k c' p l m q O IH Em KC Q LZ|k c' p l m q O IH Em KC Q].
  - left. rewrite Ec in E0. injection E0 as <-. rewrite Pc in P0. injection P0 as <-. auto.
  - right. destruct IH as [(-> & -> & -> & ->)|(k' & -> & NC & O')]; [lia|]. exists (S k'). split; auto. split; auto. econstructor 2; eauto.
  - right. destruct IH as [(-> & -> & -> & ->)|(k' & -> & NC & O')].
    + rewrite Ei in Em. injection Em as <-. exists 0. split; auto. split; auto. econstructor 1; eauto.
    + exists (S k'). split; auto. split; auto. econstructor 3; eauto.
Qed.

Lemma app_mid : forall {A} (c : A) l r l' r', NoDup (l ++ c :: r) -> l ++ c :: r = l' ++ c :: r' -> l = l' /\ r = r'.
Proof.
  induction l as [|x l IH]; intros r l' r' N E; destruct l' as [|y l']; simpl in E; injection E; intros; subst.
  - auto.
  - exfalso. inversion_clear N as [|? ? X _]. apply X. apply in_or_app. right. now left.
  - exfalso. inversion_clear N as [|? ? X _]. apply X. apply in_or_app. right. now left.
  - inversion_clear N as [|? ? _ X]. destruct (IH r l' r' X H) as [-> ->]. auto.
Qed.
Lemma name_tree : forall i t x, reads g i t -> has_name g i x -> In x (t_name t).
Proof.
  intros i t x R (n & E & N). inversion R as [i' n' ls E' F E1 E2]; subst. rewrite E in E'. injection E' as <-. unfold t_name. cbn [t_data].
  unfold f_name in N. destruct (x_names (f_data n)); [discriminate|]. injection N as ->. now left.
Qed.
Lemma hd_reads : forall n ts c, Forall2 (reads g) (f_children n) ts -> hd_error (f_children n) = Some c -> exists t r, ts = t :: r /\ reads g c t.
Proof. intros n ts c F H. destruct F as [|c' t cs ts R F]; [discriminate|]. injection H as ->. eauto. Qed.
Lemma intro_tree : forall j t it x, reads g j t -> introduces g j it -> has_name g it x -> In x (declares_t (t_children t)).
Proof.
  intros j t it x R (n & a & an & l & ln & m & E & A & Ea & O & L & El & I & Em & NI) N.
  inversion R as [j' n' ts E' F E1 E2]; subst. rewrite E in E'. injection E' as <-. cbn [t_children].
  destruct (hd_reads _ _ _ F A) as (ta & r & -> & Ra). inversion Ra as [a' an' la Ea' Fa E1 E2]; subst. rewrite Ea in Ea'. injection Ea' as <-.
  destruct (hd_reads _ _ _ Fa L) as (tl & r' & -> & Rl). inversion Rl as [l' ln' ll El' Fl E1 E2]; subst. rewrite El in El'. injection El' as <-.
  destruct (hd_reads _ _ _ Fl I) as (tm & r'' & -> & Rm). cbn [declares_t]. rewrite O.
  destruct (of_ K_Item tm && negb (none (t_children tm))) eqn:B; [|eapply name_tree; eauto]. exfalso.
  inversion Rm as [i' m' lm Em' Fm E1 E2]; subst. rewrite Em in Em'. injection Em' as <-. apply andb_true_iff in B. destruct B as [B1 B2]. cbn [t_children] in B2.
  apply NI. split; [apply is_kind_iff; exact B1|]. intros C. rewrite C in Fm. inversion Fm; subst. discriminate.
Qed.

Section Accepted.
Context (callable : string -> nat -> Prop).
Context (VARS : forall i x, variable g i x -> exists d, refers g i x d).
Context (CALLS : forall c n x, nth_error g c = Some n -> f_kind n = K_Call -> f_name n = Some x -> x_alias (f_data n) = None -> callable x (values g n)).

Lemma kind_tree : forall k c t, reads g c t -> kind_at g k c = of_ k t.
Proof. intros k c t R. unfold kind_at. inversion R; subst. rewrite H. reflexivity. Qed.
Lemma parts_tree : forall k n ts, Forall2 (reads g) (f_children n) ts -> Forall2 (reads g) (parts g k n) (filter (of_ k) ts).
Proof.
  intros k n ts F. unfold parts. induction F as [|c t cs ts R F IH]; [constructor|]. cbn [filter]. rewrite (kind_tree k c t R).
  destruct (of_ k t); [constructor; auto|auto].
Qed.
Lemma width_tree : forall c t, reads g c t -> NodesSpec.width g c = t_width t.
Proof.
  intros c t R. inversion R as [c' n ts E F E1 E2]; subst. unfold NodesSpec.width, t_width. rewrite E. cbn [t_children].
  pose proof (parts_tree K_Swizzle n ts F) as P. destruct P as [|s u ss us Rs P]; [reflexivity|].
  unfold letters. inversion Rs as [s' sn ls Es Fs E1 E2]; subst. rewrite Es. cbn [t_children]. clear - Fs. induction Fs as [|c t cs ts R F IH]; [reflexivity|].
  cbn [filter]. rewrite !(kind_tree _ c t R). destruct (_ || _); cbn [length]; rewrite IH; reflexivity.
Qed.
Lemma values_tree : forall n ts, Forall2 (reads g) (f_children n) ts -> values g n = t_values ts.
Proof.
  intros n ts F. unfold values, t_values. pose proof (parts_tree K_CallArg n ts F) as P. induction P as [|c t cs us R P IH]; [reflexivity|].
  cbn [fold_right]. rewrite IH, (width_tree c t R). reflexivity.
Qed.

Definition known (V : list string) (i : nat) : Prop := forall x k c p l w d, outwards g i k c p l -> binds g c p x w d -> In x V.
Definition on_left (i : nat) : Prop := exists a an, nth_error g a = Some an /\ x_op (f_data an) = Some OpAssign /\ hd_error (f_children an) = Some i.
Definition first_left (i : nat) : Prop := exists l ln, on_left l /\ nth_error g l = Some ln /\ hd_error (f_children ln) = Some i.
Lemma hd_parent : forall a an c cn i, nth_error g a = Some an -> hd_error (f_children an) = Some c -> nth_error g c = Some cn -> f_parent cn = Some i -> a = i.
Proof.
  intros a an c cn i Ea H Ec P. destruct (to_child _ T _ _ c Ea) as (cn' & Ec' & P'); [destruct (f_children an); [discriminate|injection H as ->; now left]|]. congruence.
Qed.

Lemma tree_accepted : forall t i lf dc V, reads g i t -> known V i -> (lf = true <-> on_left i) -> (dc = true <-> first_left i) -> tok callable lf dc V t.
Proof.
  induction t as [d ts IH] using ntree_ind'. intros i lf dc V R KN HL HD. inversion R as [i' n ls E F E1 E2]; subst. cbn [tok].
  change (x_kind (f_data n)) with (f_kind n). split; [|split].
  - intros K B x X. destruct (string_dec x "return") as [->|NR]; [now left|right].
    destruct (VARS i x) as [dd (p & l & w & (k & c & O & BI & _) & _)].
    + split; [exists n; auto|]. split; [exact NR|]. split; [|exists n; auto].
      intros (a & an & l & ln & m & Ea & OP & HA & El & HH & Em & NI). rewrite E in Em. injection Em as <-.
      assert (D : dc = true). { apply HD. exists l, ln. split; [exists a, an; auto|auto]. } rewrite D in B. cbn in B.
      apply NI. split; [exact K|]. intros C. rewrite C in F. inversion F; subst. discriminate.
    + eapply KN; eauto.
  - intros K A x X. rewrite <- (values_tree n ts F). eapply CALLS; eauto.
  - destruct (is_kind (f_kind n) K_Grab) eqn:KG; [left; now apply is_kind_iff|right].
    assert (NG : f_kind n <> K_Grab) by (intros Y; rewrite Y in KG; discriminate).
    pose proof (to_nodup _ T _ _ E) as ND.
    set (P := params (f_data n) ts).
    enough (G : forall l1 l2 t1 t2 first pre, f_children n = l1 ++ l2 -> ts = t1 ++ t2 -> Forall2 (reads g) l1 t1 -> Forall2 (reads g) l2 t2 ->
      (first = true <-> l1 = []) -> incl (flat_map (fun t => declares_t (t_children t)) t1) pre -> kids (tok callable) (f_data n) lf P V first pre t2).
    { apply (G [] (f_children n) [] ts true []); [reflexivity|reflexivity|constructor|exact F|split; reflexivity|intros x []]. }
    intros l1 l2. revert l1. induction l2 as [|c l2 IHl]; intros l1 t1 t2 first pre EC ET F1 F2 FI PRE; inversion F2 as [|? t ? t2' Rc F2']; subst; [exact Logic.I|].
    cbn [kids]. split.
    + rewrite Forall_forall in IH. apply (IH t) with (i := c); [apply in_or_app; right; now left|exact Rc| | |].
      * assert (I : In c (f_children n)) by (rewrite EC; apply in_or_app; right; now left).
        destruct (to_child _ T _ _ _ E I) as (cn & Ec & Pc).
        intros x k c' p l w d0 O BI. destruct (out_child c cn i n Ec Pc E NG k c' p l O) as [(-> & -> & -> & ->)|(k' & -> & NC & O')].
        -- inversion BI as [LO|it NL LB|a NL NB PA]; subst.
           ++ destruct LO as (n' & E' & LK & IN). rewrite E in E'. injection E' as <-. apply in_or_app. left. unfold over, loopb.
              change (x_kind (f_data n)) with (f_kind n). replace (existsb _ _) with true; [exact IN|]. symmetry. apply existsb_exists.
              exists (f_kind n). split; [exact LK|now apply is_kind_iff].
           ++ destruct LB as (n' & l & j & m & r & E' & EC' & IT & HN & _). rewrite E in E'. injection E' as <-. apply in_or_app. right. apply in_or_app. left. apply PRE.
              assert (X : l1 = l ++ j :: m). { rewrite EC in EC', ND. replace (l ++ j :: m ++ c :: r) with ((l ++ j :: m) ++ c :: r) in EC' by (rewrite <- app_assoc; reflexivity). apply (app_mid _ _ _ _ _ ND EC'). }
              destruct (F2_in _ _ _ j F1) as (tj & Ij & Rj); [rewrite X; apply in_or_app; right; now left|]. apply in_flat_map. exists tj. split; [exact Ij|].
              eapply intro_tree; eauto.
           ++ destruct PA as (n' & l & r & E' & KF & EC' & (HN & an & Ea & KA) & _). rewrite E in E'. injection E' as <-.
              apply in_or_app. right. apply in_or_app. right. apply in_or_app. left. unfold P, params. change (x_kind (f_data n)) with (f_kind n).
              replace (is_kind (f_kind n) K_Fn || is_kind (f_kind n) K_Closure) with true by (destruct KF as [-> | ->]; reflexivity).
              apply in_flat_map. destruct (F2_in _ _ _ d0 F) as (ta & Ia & Ra); [rewrite EC'; apply in_or_app; right; now left|]. exists ta. split; [exact Ia|].
              rewrite <- !(kind_tree _ d0 ta Ra). unfold kind_at. rewrite Ea. destruct KA as [-> | ->]; eapply name_tree; eauto.
        -- apply in_or_app. right. apply in_or_app. right. apply in_or_app. right. change (x_kind (f_data n)) with (f_kind n).
           destruct (is_kind (f_kind n) K_Closure) eqn:KC; [apply is_kind_iff in KC; contradiction|]. eapply KN; eauto.
      * assert (I : In c (f_children n)) by (rewrite EC; apply in_or_app; right; now left).
        destruct (to_child _ T _ _ _ E I) as (cn & Ec & Pc). split.
        -- intros B. apply andb_true_iff in B. destruct B as [B1 B2]. apply FI in B1. subst l1. exists i, n. split; [exact E|]. split.
           { unfold is_local in B2. destruct (x_op (f_data n)) as [[]|]; try discriminate. reflexivity. } rewrite EC. reflexivity.
        -- intros (a & an & Ea & OP & HA). pose proof (hd_parent _ _ _ _ _ Ea HA Ec Pc) as ->. rewrite E in Ea. injection Ea as <-. rewrite OP.
           replace first with true; [reflexivity|]. symmetry. apply FI. rewrite EC in HA, ND. destruct l1 as [|y l1]; [reflexivity|]. exfalso. injection HA as ->.
           inversion_clear ND as [|? ? Y _]. apply Y. apply in_or_app. right. now left.
      * assert (I : In c (f_children n)) by (rewrite EC; apply in_or_app; right; now left).
        destruct (to_child _ T _ _ _ E I) as (cn & Ec & Pc). split.
        -- intros B. apply andb_true_iff in B. destruct B as [B1 B2]. apply FI in B1. subst l1. exists i, n. split; [now apply HL|]. split; [exact E|]. rewrite EC. reflexivity.
        -- intros (l & ln & OL & El & HA). pose proof (hd_parent _ _ _ _ _ El HA Ec Pc) as ->. rewrite E in El. injection El as <-. rewrite (proj2 HL OL), andb_true_r.
           apply FI. rewrite EC in HA, ND. destruct l1 as [|y l1]; [reflexivity|]. exfalso. injection HA as ->.
           inversion_clear ND as [|? ? Y _]. apply Y. apply in_or_app. right. now left.
    + apply (IHl (l1 ++ [c]) (t1 ++ [t]) t2').
      * rewrite EC, <- app_assoc. reflexivity.
      * rewrite <- app_assoc. reflexivity.
      * apply Forall2_app; [exact F1|constructor; [exact Rc|constructor]].
      * exact F2'.
      * split; [discriminate|]. intros X. destruct l1; discriminate.
      * rewrite flat_map_app. cbn [flat_map]. rewrite app_nil_r. apply incl_app; [apply incl_appl; exact PRE|apply incl_appr; apply incl_refl].
Qed.
End Accepted.
End Graph.
