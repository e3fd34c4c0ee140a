(** * Lemmas about the lifetime checks of a linked file. *)
From Coq Require Import String List Bool Arith ZArith Lia.
From Verif Require Import Syntax Float64 TypeModel LifetimeModel LifetimeSpec LifetimeProofs P_Lifetime PrintModel NodesModel NodesSpec NodesProofs NodesLayout NodesScope NodesCalls LivesModel LivesSpec.
Import ListNotations.
Local Open Scope string_scope.
Local Open Scope nat_scope.
Local Open Scope list_scope.

Lemma is_kind_spec : forall a b, is_kind a b = true <-> a = b.
Proof. intros a b. unfold is_kind. destruct (kind_eq_dec a b); split; congruence. Qed.
Lemma is_kind_no : forall a b, is_kind a b = false <-> a <> b.
Proof. intros a b. unfold is_kind. destruct (kind_eq_dec a b); split; congruence. Qed.
Lemma is_kind_refl : forall a, is_kind a a = true.
Proof. intros a. apply is_kind_spec. reflexivity. Qed.
Lemma nth_as : forall g i, nth_error (as_nodes g) i = option_map as_node (nth_error g i).
Proof. intros g i. unfold as_nodes. apply nth_error_map. Qed.
Lemma as_arg_children : forall g n, arg_children (as_nodes g) (as_node n) = parts g K_Arg n.
Proof.
  intros g n. unfold arg_children, parts, kind_at. apply filter_ext. intros c. rewrite nth_as. destruct (nth_error g c); reflexivity.
Qed.
Lemma has_lifetime_spec : forall n, has_lifetime (as_node n) = false <-> no_references n.
Proof.
  intros n. unfold has_lifetime, no_references. cbn [n_kind as_node n_children].
  destruct (f_kind n); cbn; split; intros H; try discriminate; auto 40;
    try (right; split; [auto|apply Nat.eqb_neq; assumption]);
    try (apply Nat.eqb_neq; destruct H as [H|[_ H]]; auto; intuition discriminate);
    exfalso; destruct H as [H|[H _]]; intuition discriminate.
Qed.
Lemma counts_cases : forall k c, k <> K_CallClosure ->
  match child_counts k c with
  | CTake => c <> K_CallArg /\ ~ aside c /\ ~ odd c
  | CSkip => c <> K_CallArg /\ aside c
  | CCallArg => c = K_CallArg
  | CPanic => odd c \/ (c = K_CallArg /\ k <> K_Call)
  end.
Proof.
  intros k c H. destruct c; cbn [child_counts];
    try (split; [discriminate|]); try (split; unfold aside, odd; cbn; intuition discriminate); unfold aside, odd; cbn; auto 40.
  - destruct k; auto; right; split; congruence.
  - destruct k; try contradiction; (split; [discriminate|split; intuition discriminate]).
Qed.

Section Lives.
Variables (g : fgraph) (m : LifetimeModel.arg_names).
Let nodes := as_nodes g.
Hypothesis FIT : lives_fit g.
Hypothesis M : forall f x a j, arg_get m f x = Some (a, j) <->
  exists fn, nth_error g f = Some fn /\ f_kind fn = K_Fn /\ nth_error (parts g K_Arg fn) j = Some a /\ has_name g a x.
Hypothesis KN : forall a n x p, nth_error g a = Some n -> f_kind n = K_Arg -> x_lifetime (f_data n) = Some x -> x <> "return" -> f_parent n = Some p ->
  exists a', arg_named g p x a'.

Lemma part_child : forall k n c, In c (parts g k n) -> In c (f_children n) /\ exists cn, nth_error g c = Some cn /\ f_kind cn = k.
Proof.
  intros k n c H. unfold parts in H. apply filter_In in H. destruct H as [A B]. split; auto. unfold kind_at in B.
  destruct (nth_error g c) as [cn|]; [|discriminate]. exists cn. split; auto. now apply is_kind_spec.
Qed.
Lemma child_part : forall k n c cn, In c (f_children n) -> nth_error g c = Some cn -> f_kind cn = k -> In c (parts g k n).
Proof. intros k n c cn A B C. unfold parts. apply filter_In. split; auto. unfold kind_at. rewrite B. now apply is_kind_spec. Qed.
Lemma arg_of : forall p x a, arg_named g p x a -> exists n, nth_error g a = Some n /\ f_kind n = K_Arg /\ f_parent n = Some p.
Proof.
  intros p x a (fn & F & K & I & N). destruct (part_child _ _ _ I) as (C & cn & E & KC). destruct (to_child _ (lf_tree _ FIT) _ _ _ F C) as (cn' & E' & P).
  rewrite E in E'. injection E' as <-. eauto.
Qed.
Lemma named_get : forall p x a, arg_named g p x a -> exists j, arg_get m p x = Some (a, j).
Proof.
  intros p x a (fn & F & K & I & N). apply In_nth_error in I. destruct I as [j J]. exists j. apply M. eauto.
Qed.
Lemma get_named : forall p x a j, arg_get m p x = Some (a, j) -> arg_named g p x a.
Proof. intros p x a j H. apply M in H. destruct H as (fn & F & K & J & N). exists fn. do 2 (split; auto). split; auto. eapply nth_error_In; eauto. Qed.
Lemma lives_proper : proper nodes m.
Proof.
  intros f x c j H. destruct (arg_of _ _ _ (get_named _ _ _ _ H)) as (n & E & _ & P). exists (as_node n). unfold nodes. rewrite nth_as, E. split; auto.
Qed.
Lemma leads_chain : forall a b l, leads g a b l -> chain nodes m b l /\ hd_error l = Some a.
Proof.
  intros a b l H. induction H as [a n E L|a n E L|a n x p a' b l E L NR P A H [C D]].
  - split; auto. eapply ch_end with (n := as_node n); [unfold nodes; now rewrite nth_as, E|exact L].
  - split; auto. eapply ch_ret with (n := as_node n); [unfold nodes; now rewrite nth_as, E|exact L].
  - split; auto. destruct (named_get _ _ _ A) as [j J]. destruct l as [|z l]; [discriminate|]. injection D as ->.
    eapply ch_step with (n := as_node n); eauto. unfold nodes. now rewrite nth_as, E.
Qed.
Lemma chain_leads : forall b l, chain nodes m b l -> forall a, hd_error l = Some a -> leads g a b l.
Proof.
  intros b l H. induction H as [c n E L|c n E L|b c n l p c' j rest E L NR P A H IH]; intros a D; injection D as <-;
    unfold nodes in E; rewrite nth_as in E; destruct (nth_error g c) as [fn|] eqn:EC; try discriminate; injection E as <-.
  - eapply Le_end; eauto.
  - eapply Le_return; eauto.
  - eapply Le_step with (n := fn) (x := l) (p := p) (a' := c'); auto. eapply get_named; eauto.
Qed.
Lemma leads_fun : forall a b l b' l', leads g a b l -> leads g a b' l' -> b = b' /\ l = l'.
Proof.
  intros a b l b' l' A B. destruct (leads_chain _ _ _ A) as [C D]. destruct (leads_chain _ _ _ B) as [C' D'].
  eapply (chain_det nodes m); eauto. congruence.
Qed.
Lemma span_fun : forall o l l', span g o l -> span g o l' -> l = l'.
Proof.
  intros o l l' A B. inversion A; subst; inversion B; subst; try congruence. 
  match goal with X : leads g d _ _, Y : leads g d _ _ |- _ => destruct (leads_fun _ _ _ _ _ X Y) as [-> ->] end. reflexivity.
Qed.
Lemma arg_loop_ok : forall b l, chain nodes m b l -> forall c rest, l = c :: rest -> forall fuel p name j acc, arg_get m p name = Some (c, j) -> length rest < fuel ->
  arg_loop fuel nodes m p name acc = LOk ((if b then Return else Argument) (rev acc ++ l)).
Proof.
  intros b l H. induction H as [c n E L|c n E L|b c n l p c' j rest E L NR P A H IH]; intros c0 r0 Q fuel q name j0 acc G LT; injection Q as <- <-;
    (destruct fuel as [|fuel]; [simpl in LT; lia|]); cbn [arg_loop]; rewrite G, E, L.
  - reflexivity.
  - reflexivity.
  - rewrite (proj2 (String.eqb_neq _ _) NR). assert (q = p) as ->.
    { destruct (lives_proper _ _ _ _ G) as (n' & E' & P'). congruence. }
    rewrite (IH _ _ eq_refl fuel p l j (c :: acc) A) by (simpl in LT; lia). simpl. rewrite <- app_assoc. reflexivity.
Qed.
Lemma arg_lifetime_ok : forall d n b l fuel, nth_error g d = Some n -> leads g d b l -> length l < fuel ->
  arg_lifetime fuel d (as_node n) nodes m = LOk (if b then Return l else Argument l).
Proof.
  intros d n b l fuel E H LT. destruct H as [a n' E' L|a n' E' L|a n' x p a' b l E' L NR P A H];
    rewrite E in E'; injection E' as <-; unfold arg_lifetime; cbn [n_lifetime as_node n_parent]; rewrite L; auto.
  rewrite (proj2 (String.eqb_neq _ _) NR), P. destruct (named_get _ _ _ A) as [j J]. destruct (leads_chain _ _ _ H) as [C D].
  destruct l as [|z l]; [discriminate|]. injection D as ->. rewrite (arg_loop_ok _ _ C _ _ eq_refl fuel p x j [a] J) by (simpl in LT; lia). destruct b; reflexivity.
Qed.
Lemma span_life : forall o l, span g o l -> lifetime_of nodes m l.
Proof.
  intros o l H. destruct H as [d n b l E K L|d n E K|d n E K K'|]; try constructor.
  eapply lo_arg with (d := d) (n := as_node n) (fuel := S (length l)); [unfold nodes; now rewrite nth_as, E|]. eapply arg_lifetime_ok; eauto.
Qed.
Lemma arg_loop_safe : forall fuel p name acc a, arg_named g p name a -> (exists l, arg_loop fuel nodes m p name acc = LOk l) \/ arg_loop fuel nodes m p name acc = LOof.
Proof.
  induction fuel as [|fuel IH]; intros p name acc a A; cbn [arg_loop]; auto. destruct (named_get _ _ _ A) as [j ->].
  destruct (arg_of _ _ _ A) as (n & E & K & P). unfold nodes at 1 3. rewrite nth_as, E. cbn [option_map as_node n_lifetime].
  destruct (x_lifetime (f_data n)) as [l|] eqn:L; [|left; eauto]. destruct (String.eqb_spec l "return"); [left; eauto|].
  destruct (KN _ _ _ _ E K L n0 P) as [a' A']. eapply IH; eauto.
Qed.
Lemma arg_lifetime_spec : forall fuel d n, nth_error g d = Some n -> f_kind n = K_Arg ->
  match arg_lifetime fuel d (as_node n) nodes m with
  | LOk r => exists b l, leads g d b l /\ r = if b then Return l else Argument l
  | LOof => True
  | _ => False
  end.
Proof.
  intros fuel d n E K. assert (nth_error nodes d = Some (as_node n)) as EN by (unfold nodes; now rewrite nth_as, E).
  destruct (arg_lifetime fuel d (as_node n) nodes m) as [r| | | |] eqn:R; auto.
  - destruct (arg_lifetime_chain nodes m lives_proper _ _ _ _ EN R) as (b & l & C & D & ->). exists b, l. split; [eapply chain_leads; eauto|]. destruct b; auto.
  - exfalso. unfold arg_lifetime in R. destruct (n_lifetime (as_node n)) as [l|] eqn:L; [|discriminate]. destruct (String.eqb_spec l "return"); [discriminate|].
    destruct (n_parent (as_node n)) as [p|] eqn:P; [|discriminate]. destruct (KN _ _ _ _ E K L n0 P) as [a' A']. destruct (arg_loop_safe fuel p l [d] a' A') as [[r Q]|Q]; congruence.
  - exfalso. unfold arg_lifetime in R. destruct (n_lifetime (as_node n)) as [l|] eqn:L; [|discriminate]. destruct (String.eqb_spec l "return"); [discriminate|].
    destruct (n_parent (as_node n)) as [p|] eqn:P; [|discriminate]. destruct (KN _ _ _ _ E K L n0 P) as [a' A']. destruct (arg_loop_safe fuel p l [d] a' A') as [[r Q]|Q]; congruence.
  - unfold arg_lifetime in R. destruct (n_lifetime (as_node n)) as [l|] eqn:L; [|discriminate]. destruct (String.eqb_spec l "return"); [discriminate|].
    destruct (n_parent (as_node n)) as [p|] eqn:P; [|eapply (lf_arg_parent _ FIT); eauto]. destruct (KN _ _ _ _ E K L n0 P) as [a' A']. destruct (arg_loop_safe fuel p l [d] a' A') as [[r Q]|Q]; congruence.
Qed.

(** ** The lifetime of an expression is the longest of what it refers to *)
Definition chars (P : origin -> Prop) (r : lres) : Prop :=
  match r with
  | LOk l => (exists o, P o /\ span g o l) /\ forall o, P o -> exists l', span g o l' /\ geq l l'
  | LNone => forall o, ~ P o
  | LUnify => exists o o' l l', P o /\ P o' /\ span g o l /\ span g o' l' /\ partial_cmp l l' = None
  | LPanic => False
  | LOof => True
  end.
Lemma chars_iff : forall P Q r, (forall o, P o <-> Q o) -> chars P r -> chars Q r.
Proof.
  intros P Q [l| | | |] H C; simpl in *; auto.
  - destruct C as [(o & A & B) C]. split; [exists o; split; auto; now apply H|]. intros o' A'. apply C. now apply H.
  - intros o A. apply (C o). now apply H.
  - destruct C as (o & o' & l & l' & A & B & C). exists o, o', l, l'. split; [now apply H|split; [now apply H|auto]].
Qed.
Definition opt_life (min : option lifetime) : lres := match min with Some l => LOk l | None => LNone end.
Lemma chars_join : forall (P Q : origin -> Prop) min l, chars P (opt_life min) -> chars Q (LOk l) ->
  match join min l with Some min' => chars (fun o => P o \/ Q o) (opt_life min') | None => chars (fun o => P o \/ Q o) LUnify end.
Proof.
  intros P Q min l A [(o & B1 & B2) B3]. destruct (join min l) as [min'|] eqn:J.
  - assert (match min with Some a => lifetime_of nodes m a | None => True end) as LM.
    { destruct min as [a|]; auto. destruct A as [(o' & _ & S) _]. eapply span_life; eauto. }
    destruct (join_geq nodes m lives_proper min l min' LM (span_life _ _ B2) J) as (x & -> & H & G1 & G2). simpl.
    assert (lifetime_of nodes m x) as LX by (destruct H as [-> | ->]; [eapply span_life; eauto|exact LM]).
    split.
    + destruct H as [-> | ->]; [exists o; auto|]. destruct A as [(o' & A1 & A2) _]. exists o'. auto.
    + intros o' [A1|A1].
      * destruct min as [a|]; [|destruct (A _ A1)]. destruct A as [_ A2]. destruct (A2 _ A1) as (l' & S & G). exists l'. split; auto.
        eapply (geq_trans nodes m lives_proper); [exact LX|exact LM|eapply span_life; eauto|exact G2|exact G].
      * destruct (B3 _ A1) as (l' & S & G). exists l'. split; auto.
        eapply (geq_trans nodes m lives_proper); [exact LX|eapply span_life; exact B2|eapply span_life; eauto|exact G1|exact G].
  - destruct min as [a|]; [|discriminate]. simpl in J. destruct (partial_cmp a l) as [[]|] eqn:C; try discriminate.
    destruct A as [(o' & A1 & A2) _]. exists o', o, a, l. auto 10.
Qed.

Lemma lt_returns_spec : forall fuel lts l, (forall k k', nth_error lts k = Some (LtArg k') -> k' < length lts) -> (forall k, l = LtArg k -> k < length lts) ->
  match lt_returns fuel lts l with Some (Some true) => lt_leads lts l | Some (Some false) => ~ lt_leads lts l | Some None => False | None => True end.
Proof.
  induction fuel as [|fuel IH]; intros lts l H1 H2; cbn [lt_returns]; auto. destruct l as [x| |].
  - destruct (nth_error lts x) as [y|] eqn:E; [|apply nth_error_None in E; specialize (H2 x eq_refl); lia].
    specialize (IH lts y H1). assert (forall k, y = LtArg k -> k < length lts) as H3 by (intros k ->; eauto). specialize (IH H3).
    destruct (lt_returns fuel lts y) as [[[|]|]|]; auto; [econstructor; eauto|]. intros L. inversion L; subst. apply IH. congruence.
  - constructor.
  - intros L. inversion L.
Qed.
Lemma returns_static_spec : forall fuel lts rest, (forall k k', nth_error lts k = Some (LtArg k') -> k' < length lts) -> (forall l, In l rest -> In l lts) ->
  match returns_static fuel lts rest with
  | Some (Some true) => forall l, In l rest -> ~ lt_leads lts l
  | Some (Some false) => exists l, In l rest /\ lt_leads lts l
  | Some None => False
  | None => True
  end.
Proof.
  intros fuel lts rest H1. induction rest as [|l rest IH]; intros H2; cbn [returns_static]; [intros l []|].
  assert (forall k, l = LtArg k -> k < length lts) as H3.
  { intros k ->. assert (In (LtArg k) lts) as I by (apply H2; now left). apply In_nth_error in I. destruct I as [j J]. eauto. }
  pose proof (lt_returns_spec fuel lts l H1 H3) as S. destruct (lt_returns fuel lts l) as [[[|]|]|]; auto.
  - exists l. split; auto. now left.
  - specialize (IH (fun l I => H2 l (or_intror I))). destruct (returns_static fuel lts rest) as [[[|]|]|]; auto.
    + intros l' [<-|I]; auto.
    + destruct IH as (l' & I & L). exists l'. split; auto. now right.
Qed.

(** the place of a part among the parts of its kind *)
Lemma part_place : forall k n pre c cs cn, f_children n = pre ++ c :: cs -> nth_error g c = Some cn -> f_kind cn = k ->
  nth_error (parts g k n) (length (filter (kind_at g k) pre)) = Some c.
Proof.
  intros k n pre c cs cn E N K. unfold parts. rewrite E, filter_app. rewrite nth_error_app2 by lia. rewrite Nat.sub_diag. simpl.
  assert (kind_at g k c = true) as -> by (unfold kind_at; rewrite N; now apply is_kind_spec). reflexivity.
Qed.
Lemma parts_nodup : forall i n k, nth_error g i = Some n -> NoDup (parts g k n).
Proof. intros i n k E. apply NoDup_filter. eapply (to_nodup _ (lf_tree _ FIT)); eauto. Qed.

Section Node.
Variables (fuel : nat) (rec : node -> lres) (i : nat) (n : fnode).
Hypothesis NI : nth_error g i = Some n.
Hypothesis HI : f_kind n <> K_Item.
Hypothesis HR : ~ no_references n.
Hypothesis HO : ~ odd (f_kind n).
Hypothesis REC : forall c cn, nth_error g c = Some cn -> ~ odd (f_kind cn) -> chars (refers_to g c) (rec (as_node cn)).
Definition kept (l : list nat) (o : origin) : Prop := exists c, In c l /\ keeps g n c /\ refers_to g c o.

Lemma not_closure : f_kind n <> K_CallClosure.
Proof. intros E. apply HR. left. rewrite E. simpl. auto 40. Qed.
Lemma call_arg_spec : forall pre c cs cn, f_children n = pre ++ c :: cs -> nth_error g c = Some cn -> f_kind cn = K_CallArg ->
  match call_arg_counts fuel nodes m (as_node n) (length (filter (kind_at g K_CallArg) pre)) with
  | inl r => r = LOof
  | inr true => keeps g n c
  | inr false => ~ keeps g n c
  end.
Proof.
  intros pre c cs cn E N K. assert (In c (parts g K_CallArg n)) as IP by (eapply child_part; eauto; rewrite E; apply in_or_app; right; now left).
  pose proof (part_place K_CallArg n pre c cs cn E N K) as PP. set (k := length (filter (kind_at g K_CallArg) pre)) in *.
  unfold call_arg_counts. cbn [n_decl as_node]. destruct (f_decl n) as [f|] eqn:D; [|now apply Ke_outside].
  destruct (lf_callarg _ FIT _ _ _ NI IP) as [KC|KC]; [|destruct (not_closure KC)].
  destruct (lf_target _ FIT _ _ _ NI KC D) as (fn & F & KF & _). unfold nodes at 1. rewrite nth_as, F. cbn [option_map].
  unfold nodes at 1. rewrite as_arg_children. destruct (nth_error (parts g K_Arg fn) k) as [a|] eqn:A.
  - destruct (part_child _ _ _ (nth_error_In _ _ A)) as (_ & an & EA & KA). unfold nodes at 1. rewrite nth_as, EA. cbn [option_map].
    pose proof (arg_lifetime_spec fuel a an EA KA) as S. destruct (arg_lifetime fuel a (as_node an) nodes m) as [r| | | |]; try contradiction; auto.
    destruct S as (b & l & L & ->). destruct b.
    + eapply Ke_function; eauto. intros a' A'. assert (a' = a) as -> by congruence. eauto.
    + intros X. destruct X as [cn' _ N' C' _|_ D'|k' f' fn' P' D' F' X]; [congruence|congruence|].
      assert (k' = k) as ->. { apply (proj1 (NoDup_nth_error (parts g K_CallArg n)) (parts_nodup _ _ _ NI)); [apply nth_error_Some; congruence|congruence]. }
      assert (f' = f) as -> by congruence. assert (fn' = fn) as -> by congruence. destruct (X _ A) as [l' L']. destruct (leads_fun _ _ _ _ _ L L'). discriminate.
  - eapply Ke_function; eauto. intros a A'. congruence.
Qed.
Lemma kept_snoc : forall pre c o, kept (pre ++ [c]) o <-> kept pre o \/ (keeps g n c /\ refers_to g c o).
Proof.
  intros pre c o. split.
  - intros (c' & I & K & R). apply in_app_or in I. destruct I as [I|[<-|[]]]; [left; exists c'; auto|right; auto].
  - intros [(c' & I & K & R)|[K R]]; [exists c'|exists c]; split; auto; apply in_or_app; [left|right; left]; auto.
Qed.
Lemma children_chars : forall cs pre min, f_children n = pre ++ cs -> chars (kept pre) (opt_life min) ->
  chars (kept (f_children n)) (children_lifetime fuel rec nodes m (as_node n) cs (length (filter (kind_at g K_CallArg) pre)) min).
Proof.
  induction cs as [|c cs IH]; intros pre min E H; cbn [children_lifetime].
  - rewrite app_nil_r in E. rewrite E. destruct min; exact H.
  - assert (In c (f_children n)) as IC by (rewrite E; apply in_or_app; right; now left).
    destruct (to_child _ (lf_tree _ FIT) _ _ _ NI IC) as (cn & N & _). unfold nodes at 1. rewrite nth_as, N. cbn [option_map].
    assert (f_children n = (pre ++ [c]) ++ cs) as E2 by (now rewrite <- app_assoc).
    assert (~ odd (f_kind cn)) as OC.
    { intros O. pose proof (lf_kinds _ FIT _ _ _ _ NI IC N O) as X. simpl in X.
      destruct X as [X|[X|[X|[X|[X|[X|[X|[X|[X|[X|[X|[]]]]]]]]]]]]; try congruence; try (apply HO; rewrite <- X; unfold odd; simpl; auto 40; fail); apply HR; left; rewrite <- X; simpl; auto 40. }
    assert (forall k, (kind_at g K_CallArg c = true /\ k = S (length (filter (kind_at g K_CallArg) pre)) \/ kind_at g K_CallArg c = false /\ k = length (filter (kind_at g K_CallArg) pre)) ->
      k = length (filter (kind_at g K_CallArg) (pre ++ [c]))) as CO.
    { intros k C. rewrite filter_app, app_length. simpl. destruct C as [[-> ->]|[-> ->]]; simpl; lia. }
    assert (forall k, (k = length (filter (kind_at g K_CallArg) (pre ++ [c]))) -> keeps g n c -> chars (kept (f_children n))
      (match rec (as_node cn) with
       | LOk l => match join min l with None => LUnify | Some min => children_lifetime fuel rec nodes m (as_node n) cs k min end
       | LNone => children_lifetime fuel rec nodes m (as_node n) cs k min
       | r => r end)) as LOOK.
    { intros k -> KE. pose proof (REC c cn N OC) as RC. destruct (rec (as_node cn)) as [l| | | |].
      - pose proof (chars_join _ _ _ _ H RC) as J. destruct (join min l) as [min'|].
        + apply IH; auto. eapply chars_iff; [|exact J]. intros o. rewrite kept_snoc. tauto.
        + destruct J as (o & o' & l1 & l2 & A & B & J). exists o, o', l1, l2.
          assert (forall o, kept pre o \/ refers_to g c o -> kept (f_children n) o) as KK.
          { intros x [(c' & I & X)|X]; [exists c'|exists c]; split; auto. rewrite E. apply in_or_app. auto. }
          split; auto.
      - apply IH; auto. eapply chars_iff; [|exact H]. intros o. rewrite kept_snoc. split; auto. intros [A|[_ A]]; auto. destruct (RC _ A).
      - destruct RC as (o & o' & l1 & l2 & A & B & J). exists o, o', l1, l2. split; [exists c; auto|split; [exists c; auto|auto]].
      - destruct RC.
      - exact I. }
    assert (forall k, (k = length (filter (kind_at g K_CallArg) (pre ++ [c]))) -> ~ keeps g n c -> chars (kept (f_children n)) (children_lifetime fuel rec nodes m (as_node n) cs k min)) as SKIP.
    { intros k -> KE. apply IH; auto. eapply chars_iff; [|exact H]. intros o. rewrite kept_snoc. tauto. }
    pose proof (counts_cases (f_kind n) (f_kind cn) not_closure) as CC. cbn [n_kind as_node].
    destruct (child_counts (f_kind n) (f_kind cn)).
    + destruct CC as (C1 & C2 & _). apply LOOK; [|eapply Ke_part; eauto]. apply CO. right. split; auto. unfold kind_at. rewrite N. now apply is_kind_no.
    + destruct CC as [C1 C2]. apply SKIP; [apply CO; right; split; auto; unfold kind_at; rewrite N; now apply is_kind_no|].
      intros X. destruct X as [cn' _ N' _ C'|X _|k f fn X _ _ _]; [assert (cn' = cn) as -> by congruence; contradiction| |apply nth_error_In in X];
        destruct (part_child _ _ _ X) as (_ & cn' & N' & K'); congruence.
    + pose proof (call_arg_spec pre c cs cn E N CC) as S. assert (kind_at g K_CallArg c = true) as KC by (unfold kind_at; rewrite N; now apply is_kind_spec).
      destruct (call_arg_counts fuel nodes m (as_node n) (length (filter (kind_at g K_CallArg) pre))) as [r|[|]].
      * subst r. exact I.
      * apply LOOK; auto.
      * apply SKIP; auto.
    + exfalso. destruct CC as [O|[KC KN']]; [contradiction|]. destruct (lf_callarg _ FIT _ _ _ NI (child_part _ _ _ _ IC N KC)) as [X|X]; [contradiction|destruct (not_closure X)].
Qed.
End Node.

Lemma node_chars : forall fuel i n, nth_error g i = Some n -> ~ odd (f_kind n) -> chars (refers_to g i) (node_lifetime fuel nodes m (as_node n)).
Proof.
  induction fuel as [|fuel IH]; intros i n E O; cbn [node_lifetime]; [exact I|].
  destruct (has_lifetime (as_node n)) eqn:HL; cbn [negb].
  2: { apply has_lifetime_spec in HL. intros o R. inversion R; subst; assert (n0 = n) by congruence; subst; try contradiction;
       destruct HL as [HL|[HL _]]; rewrite H0 in HL; simpl in HL; intuition discriminate. }
  assert (~ no_references n) as HR by (rewrite <- has_lifetime_spec; congruence).
  assert (f_kind n <> K_Item -> ~ copies n -> chars (refers_to g i) (children_lifetime fuel (node_lifetime fuel nodes m) nodes m (as_node n) (n_children (as_node n)) 0 None)) as REST.
  { intros KI NC. eapply chars_iff; [|exact (children_chars fuel (node_lifetime fuel nodes m) i n E KI HR O IH (f_children n) [] None eq_refl (fun o X => match X with ex_intro _ c (conj F _) => F end))].
    intros o. split.
    - intros (c & IC & K & R). eapply Rf_part; eauto.
    - intros R. inversion R; subst; assert (n0 = n) by congruence; subst; try contradiction. exists c. split; auto.
      destruct H3 as [cn A _ _ _|A _|k f fn A _ _ _]; auto; [|apply nth_error_In in A]; now destruct (part_child _ _ _ A). }
  cbn [n_decl as_node n_kind n_lts]. destruct (f_decl n) as [d|] eqn:D.
  - destruct (is_kind (f_kind n) K_Item) eqn:KI.
    + apply is_kind_spec in KI. pose proof (lf_item _ FIT _ _ E KI) as LI. rewrite D in LI. destruct LI as (dn & ED & _). unfold nodes at 1. rewrite nth_as, ED. cbn [option_map n_kind as_node].
      assert (forall o, refers_to g i o <-> o = OVar d) as ONE.
      { intros o. split; [|intros ->; eapply Rf_item; eauto]. intros R. inversion R; subst; assert (n0 = n) by congruence; subst; try contradiction; congruence. }
      assert (forall l, span g (OVar d) l -> chars (refers_to g i) (LOk l)) as ONLY.
      { intros l S. split; [exists (OVar d); split; auto; now apply ONE|]. intros o R. apply ONE in R. subst. exists l. split; auto. apply (geq_refl nodes m lives_proper). eapply span_life; eauto. }
      destruct (is_kind (f_kind dn) K_Arg) eqn:KA.
      * apply is_kind_spec in KA. pose proof (arg_lifetime_spec fuel d dn ED KA) as S. destruct (arg_lifetime fuel d (as_node dn) nodes m); try contradiction; try exact I.
        destruct S as (b & l0 & L & ->). apply ONLY. eapply Sp_arg; eauto.
      * apply is_kind_no in KA. destruct (is_kind (f_kind dn) K_Current) eqn:KC; [apply is_kind_spec in KC|apply is_kind_no in KC]; apply ONLY; econstructor; eauto.
    + apply is_kind_no in KI. apply REST; auto. intros (_ & X & _). congruence.
  - destruct (is_kind (f_kind n) K_Call && negb (length (f_lts n) =? 0)) eqn:KC.
    + apply andb_true_iff in KC. destruct KC as [KC NL]. apply is_kind_spec in KC. destruct (lf_outside _ FIT _ _ E KC D) as [_ RG].
      pose proof (returns_static_spec fuel (f_lts n) (f_lts n) RG (fun l I => I)) as S. destruct (returns_static fuel (f_lts n) (f_lts n)) as [[[|]|]|]; try contradiction; try exact I.
      * intros o R. inversion R; subst; assert (n0 = n) by congruence; subst; try congruence. apply H2. do 3 (split; auto). intros X. rewrite X in NL. discriminate.
      * apply REST; [congruence|]. intros (_ & _ & _ & X). destruct S as (l & I & L). exact (X l I L).
    + destruct (is_kind (f_kind n) K_Item) eqn:KI; cbn [andb].
      * apply is_kind_spec in KI. cbn [n_name n_names as_node]. unfold n_name. cbn [n_names as_node]. change (hd_error (x_names (f_data n))) with (f_name n).
        pose proof (lf_item _ FIT _ _ E KI) as LI. rewrite D in LI.
        destruct (match f_name n with Some x => (x =? "return")%string | None => false end) eqn:RT.
        -- assert (f_name n = Some "return") as NR by (destruct (f_name n) as [x|]; [apply String.eqb_eq in RT; congruence|discriminate]).
           split; [exists OReturn; split; [eapply Rf_return; eauto|constructor]|]. intros o R. inversion R; subst; assert (n0 = n) by congruence; subst; try congruence.
           exists (Return []). split; [constructor|]. right. reflexivity.
        -- destruct LI as [C|C]; [|rewrite C in RT; discriminate]. cbn [n_children as_node]. rewrite C. cbn [children_lifetime].
           intros o R. inversion R; subst; assert (n0 = n) by congruence; subst; try congruence. rewrite H2 in RT. discriminate.
      * apply is_kind_no in KI. apply REST; auto. intros (K & _ & X & _). rewrite K, is_kind_refl in KC. cbn in KC. destruct (f_lts n); [contradiction|discriminate].
Qed.

(** ** Comparing the lifetimes of a place and a value *)
Definition gives (S : lifetime -> Prop) (r : lres) : Prop :=
  (forall l, S l -> lifetime_of nodes m l) /\
  match r with
  | LOk l => S l /\ forall l', S l' -> geq l l'
  | LNone => forall l, ~ S l
  | LUnify => exists a b, S a /\ S b /\ partial_cmp a b = None
  | LPanic => False
  | LOof => True
  end.
Lemma chars_gives : forall i r, chars (refers_to g i) r -> gives (spans g i) r.
Proof.
  intros i r H. split; [intros l (o & _ & S); eapply span_life; eauto|]. destruct r as [l| | | |]; simpl in *; auto.
  - destruct H as [(o & A & B) H]. split; [exists o; auto|]. intros l' (o' & A' & B'). destruct (H _ A') as (l'' & B'' & G). now rewrite (span_fun _ _ _ B' B'').
  - intros l (o & A & _). exact (H _ A).
  - destruct H as (o & o' & l & l' & A & B & X & Y & Z). exists l, l'. split; [exists o; auto|split; [exists o'; auto|auto]].
Qed.
Lemma one_gives : forall l, lifetime_of nodes m l -> gives (eq l) (LOk l).
Proof. intros l L. split; [intros l' <-; auto|]. split; auto. intros l' <-. now apply (geq_refl nodes m lives_proper). Qed.
(** what is below a common lifetime is comparable *)
Lemma below_cmp : forall c a b, lifetime_of nodes m c -> lifetime_of nodes m a -> lifetime_of nodes m b -> geq c a -> geq c b -> partial_cmp a b <> None.
Proof.
  intros c a b Lc La Lb Ga Gb. pose proof (arg_kind nodes m lives_proper _ Lc) as Kc. pose proof (arg_kind nodes m lives_proper _ La) as Ka. pose proof (arg_kind nodes m lives_proper _ Lb) as Kb.
  assert (forall b1 l0 l1 l2, chain nodes m b1 l0 -> chain nodes m b1 l1 -> chain nodes m b1 l2 -> compare_argument_outlives l0 l1 <> None -> compare_argument_outlives l0 l2 <> None ->
    compare_argument_outlives l1 l2 <> None) as SH.
  { intros b1 l0 l1 l2 C0 C1 C2 H1 H2. destruct (compare_argument_outlives l0 l1) eqn:E1; [|congruence]. destruct (compare_argument_outlives l0 l2) eqn:E2; [|congruence].
    apply cao_inv in E1. apply cao_inv in E2. destruct E1 as [S1 _]. destruct E2 as [S2 _].
    destruct (share_last nodes m _ _ _ _ C0 C1 S1) as [_ L1]. destruct (share_last nodes m _ _ _ _ C0 C2 S2) as [_ L2].
    rewrite (cao_some l1 l2); [discriminate|]. eapply (last_share nodes m); eauto. congruence. }
  assert (partial_cmp c a <> None) as Na by (destruct Ga as [E|E]; rewrite E; discriminate).
  assert (partial_cmp c b <> None) as Nb by (destruct Gb as [E|E]; rewrite E; discriminate).
  assert (forall x y, geq x y -> partial_cmp x y <> Some Lt) as NL by (intros x y [E|E]; rewrite E; discriminate). apply NL in Ga. apply NL in Gb. clear NL.
  destruct c as [lc|lc|ic|ic], a as [la|la|ia|ia], b as [lb|lb|ib|ib]; cbn [partial_cmp] in *; try congruence.
  - destruct lc as [|c1 lc], la as [|a1 la], lb as [|b1 lb]; try congruence.
    destruct Kc as [Kc|Kc], Ka as [Ka|Ka], Kb as [Kb|Kb]; try discriminate. eapply SH; eauto.
  - eapply SH; eauto.
  - destruct (Nat.eqb_spec ic ia); [|congruence]. destruct (Nat.eqb_spec ic ib); [|congruence]. subst. rewrite Nat.eqb_refl. discriminate.
Qed.
Lemma outlives_trans : forall a b c, lifetime_of nodes m a -> lifetime_of nodes m b -> lifetime_of nodes m c -> (outlives a b /\ geq b c \/ geq a b /\ outlives b c) -> outlives a c.
Proof.
  intros a b c La Lb Lc H. unfold outlives, geq in *.
  assert (exists x y, partial_cmp a b = Some x /\ partial_cmp b c = Some y /\ x <> Lt /\ y <> Lt /\ (x = Gt \/ y = Gt)) as (x & y & A & B & C & D & E).
  { destruct H as [[H [K|K]]|[[K|K] H]]; do 2 eexists; (split; [eauto|split; [eauto|]]); auto; split; try discriminate; split; try discriminate; auto. }
  rewrite (cmp_trans nodes m lives_proper _ _ _ _ _ La Lb Lc A B C D). destruct x, y; intuition congruence.
Qed.
Lemma compare_exact : forall L R l r, gives L l -> gives R r -> l <> LOof -> r <> LOof -> (compare_lifetimes l r nodes = COk <-> long_enough L R).
Proof.
  intros L R l r [LL GL] [LR GR] HL HR. unfold long_enough.
  assert (forall (S : lifetime -> Prop) x, (forall l, S l -> lifetime_of nodes m l) -> S x -> (forall y, S y -> geq x y) -> comparable S) as CO.
  { intros S x LS Sx H a b A B. eapply below_cmp; [apply LS; exact Sx|apply LS; exact A|apply LS; exact B|auto|auto]. }
  destruct l as [l| | | |], r as [r| | | |]; try contradiction; try congruence.
  - destruct GL as [Ll GL]. destruct GR as [Rr GR]. rewrite C31_accepts. split.
    + intros O. split; [eapply CO; eauto|]. split; [left; eapply CO; eauto|]. right. right. exists r. split; auto. intros l' Ll'. eapply outlives_trans with (b := l); auto.
    + intros (_ & _ & [H|[H|(r' & Rr' & H)]]); [destruct (H _ Ll)|destruct (H _ Rr)|]. eapply outlives_trans with (b := r'); auto.
  - destruct GL as [Ll GL]. cbn [compare_lifetimes]. assert (comparable L) as CL by (eapply CO; eauto). split; [|intros _; destruct l; reflexivity].
    intros _. split; auto. split; [left; intros a b A; destruct (GR _ A)|auto].
  - destruct GL as [Ll GL]. cbn [compare_lifetimes]. assert (comparable L) as CL by (eapply CO; eauto). split.
    + intros E. destruct l as [x|x|x|x]; try discriminate. clear E. split; auto.
      assert (forall l', L l' -> is_local l') as AL.
      { intros l' A. destruct (GL _ A) as [E|E]; destruct l'; cbn in E; try discriminate; eexists; reflexivity. }
      split; [right; eauto|]. right. right.
      assert (exists r, R r /\ ~ is_local r) as (r & Rr & NLr).
      { destruct GR as (a & b & A & B & N). destruct a as [x1|x1|x1|x1]; [exists (Return x1)|exists (Argument x1)|exists b|exists (Current x1)]; (split; [auto|]); intros [j Q]; try discriminate.
        subst b. discriminate. }
      exists r. split; auto. intros l' A. destruct (AL _ A) as [i ->]. unfold outlives. destruct r; try reflexivity. destruct NLr. eexists; reflexivity.
    + intros (_ & [H|[_ H]] & _); [destruct GR as (a & b & A & B & N); destruct (H a b A B N)|]. destruct (H _ Ll) as [i ->]. reflexivity.
  - cbn [compare_lifetimes]. split; auto. intros _. split; [intros a b A; destruct (GL _ A)|]. split; auto. left. destruct GR as [Rr GR]. eapply CO; eauto.
  - cbn [compare_lifetimes]. split; auto. intros _. split; [intros a b A; destruct (GL _ A)|]. split; auto. left. intros a b A. destruct (GR _ A).
  - cbn [compare_lifetimes]. split; [discriminate|]. intros (_ & [H|[[x H] _]] & _); [destruct GR as (a & b & A & B & N); destruct (H a b A B N)|destruct (GL _ H)].
  - cbn [compare_lifetimes]. split; [discriminate|]. intros (H & _). destruct GL as (a & b & A & B & N). destruct (H a b A B N).
  - cbn [compare_lifetimes]. split; [discriminate|]. intros (H & _). destruct GL as (a & b & A & B & N). destruct (H a b A B N).
  - cbn [compare_lifetimes]. split; [discriminate|]. intros (H & _). destruct GL as (a & b & A & B & N). destruct (H a b A B N).
Qed.

(** ** Checks against what is wrong *)
Definition spec (x : xres unit) (U : xerr -> nat -> Prop) : Prop :=
  match x with XOk _ => forall e i, ~ U e i | XErr e i => U e i | XPanic => untold g /\ exists e i, U e i | XOof => True end.
Lemma spec_iff : forall x U V, (forall e i, U e i <-> V e i) -> spec x U -> spec x V.
Proof.
  intros [a|e i| |] U V H S; simpl in *; auto.
  - intros e i X. apply (S e i). now apply H.
  - now apply H.
  - destruct S as (T & e & i & X). split; auto. exists e, i. now apply H.
Qed.
Lemma spec_none : forall U, (forall e i, ~ U e i) -> spec (XOk tt) U.
Proof. intros U H. exact H. Qed.
Lemma spec_then : forall x y U V, spec x U -> spec y V -> spec (xbind x (fun _ => y)) (fun e i => U e i \/ V e i).
Proof.
  intros [a|e i| |] [b|e' i'| |] U V A B; simpl in *; auto.
  - intros e i [X|X]; [exact (A _ _ X)|exact (B _ _ X)].
  - destruct B as (T & e & i & X). split; auto. exists e, i. auto.
  - destruct A as (T & e & i & X). split; auto. exists e, i. auto.
  - destruct A as (T & e & i & X). split; auto. exists e, i. auto.
  - destruct A as (T & e & i & X). split; auto. exists e, i. auto.
  - destruct A as (T & e & i & X). split; auto. exists e, i. auto.
Qed.
Lemma spec_each : forall f l (U : nat -> xerr -> nat -> Prop), (forall a, In a l -> spec (f a) (U a)) -> spec (xeach f l) (fun e i => exists a, In a l /\ U a e i).
Proof.
  intros f l U. induction l as [|a l IH]; intros H; cbn [xeach].
  - intros e i (a & [] & _).
  - eapply spec_iff; [|exact (spec_then _ _ _ _ (H a (or_introl eq_refl)) (IH (fun a I => H a (or_intror I))))].
    intros e i. split; [intros [X|(b & I & X)]; [exists a|exists b]; split; auto; [now left|now right]|]. intros (b & [<-|I] & X); [left; auto|right; exists b; auto].
Qed.
Lemma spec_each2 : forall A B (f : A -> B -> xres unit) l (U : A -> B -> xerr -> nat -> Prop), (forall a b, In (a, b) l -> spec (f a b) (U a b)) ->
  spec (xeach2 f l) (fun e i => exists a b, In (a, b) l /\ U a b e i).
Proof.
  intros A B f l U. induction l as [|[a b] l IH]; intros H; cbn [xeach2].
  - intros e i (a & b & [] & _).
  - eapply spec_iff; [|exact (spec_then _ _ _ _ (H a b (or_introl eq_refl)) (IH (fun a b I => H a b (or_intror I))))].
    intros e i. split; [intros [X|(a' & b' & I & X)]; [exists a, b|exists a', b']; split; auto; [now left|now right]|].
    intros (a' & b' & [Q|I] & X); [injection Q as <- <-; left; auto|right; exists a', b'; auto].
Qed.
(** a pass over all nodes *)
Lemma spec_all : forall f (U : nat -> xerr -> nat -> Prop), (forall a n, nth_error g a = Some n -> spec (f a) (U a)) -> (forall a e i, U a e i -> exists n, nth_error g a = Some n) ->
  spec (xeach f (seq 0 (length g))) (fun e i => exists a, U a e i).
Proof.
  intros f U H1 H2. eapply spec_iff; [|apply (spec_each f (seq 0 (length g)) U)].
  - intros e i. split; [intros (a & _ & X); eauto|]. intros (a & X). destruct (H2 _ _ _ X) as [n E]. exists a. split; auto. apply in_seq. assert (a < length g) by (apply nth_error_Some; congruence). lia.
  - intros a I. apply in_seq in I. destruct (nth_error g a) as [n|] eqn:E; [eauto|]. apply nth_error_None in E. lia.
Qed.
Lemma xat_some : forall A (l : list A) i x, nth_error l i = Some x -> xat l i = XOk x.
Proof. intros A l i x E. unfold xat. now rewrite E. Qed.

Definition bad_value (L : lifetime -> Prop) (r : nat) (e : xerr) (i : nat) : Prop := i = r /\ (exists c, e = X_lifetime c) /\ ~ long_enough L (spans g r).
(** which nodes an error message names *)
Definition is_arg_node (a : nat) : Prop := exists n, nth_error g a = Some n /\ f_kind n = K_Arg.
Definition has_a_name (d : nat) : Prop := exists n, nth_error g d = Some n /\ f_name n <> None.
Definition tells (l : lifetime) : Prop :=
  match l with
  | Local d | Current d => has_a_name d
  | Argument l => l <> [] /\ forall a, In a l -> is_arg_node a
  | Return l => forall a, In a l -> is_arg_node a
  end.
Lemma leads_args : forall a b l, leads g a b l -> is_arg_node a -> l <> [] /\ forall x, In x l -> is_arg_node x.
Proof.
  intros a b l H. induction H as [a n E L|a n E L|a n x p a' b l E L NR P A H IH]; intros IA.
  - split; [discriminate|]. intros x [<-|[]]; auto.
  - split; [discriminate|]. intros x [<-|[]]; auto.
  - split; [discriminate|]. destruct (arg_of _ _ _ A) as (n' & E' & K' & _). destruct IH as [_ IH]; [exists n'; auto|]. intros y [<-|I]; auto.
Qed.
Lemma refers_named : forall i o, refers_to g i o -> forall d, o = OVar d -> has_a_name d.
Proof.
  intros i o H. induction H as [i n d' E K D|i n E K D N|i n c o E K NR NC KE R IH]; intros d Q; [|discriminate|auto].
  injection Q as <-. pose proof (lf_item _ FIT _ _ E K) as X. rewrite D in X. exact X.
Qed.
Lemma spans_tell : forall i l, spans g i l -> tells l.
Proof.
  intros i l (o & R & S). destruct S as [d n b l E K L|d n E K|d n E K K'|]; simpl; try (eapply refers_named; eauto; fail); [|intros a []].
  destruct (leads_args _ _ _ L) as [A B]; [exists n; auto|]. destruct b; simpl; auto.
Qed.
Lemma place_tells : forall r L l, place g r L -> L l -> (exists d, l = Local d) \/ tells l.
Proof.
  intros r L l P H. destruct P; subst; try (left; eexists; reflexivity); try (right; intros x []; fail); right; eapply spans_tell; eauto.
Qed.
Lemma named_fine : forall d r, has_a_name d -> named nodes d r = r.
Proof.
  intros d r (n & E & N). unfold named, nodes. rewrite nth_as, E. cbn [option_map]. change (n_name (as_node n)) with (f_name n). destruct (f_name n); congruence.
Qed.
Lemma arg_has_name : forall a, is_arg_node a -> has_a_name a.
Proof. intros a (n & E & K). exists n. split; auto. apply (lf_named _ FIT _ _ E). rewrite K. simpl. auto. Qed.
Lemma last_arg : forall x l, (forall a, In a (x :: l) -> is_arg_node a) -> is_arg_node (last l x).
Proof.
  intros x l. revert x. induction l as [|y l IH]; intros x H; [apply H; now left|]. destruct l as [|z l]; [apply H; right; now left|].
  change (last (y :: z :: l) x) with (last (z :: l) x). replace (last (z :: l) x) with (last (z :: l) y).
  - apply IH. intros a I. apply H. now right.
  - clear. revert z. induction l as [|w l IH]; intros z; [reflexivity|]. change (last (w :: l) y = last (w :: l) x). apply IH.
Qed.
Lemma compare_panics : forall L l r lr, place g r L -> gives L l -> gives (spans g r) lr -> compare_lifetimes l lr nodes = CPanicked -> untold g.
Proof.
  intros L l r lr P [_ GL] [_ GR] C. destruct l as [l| | | |], lr as [x| | | |]; simpl in GL, GR; try contradiction; try (cbn in C; discriminate); try (destruct l; cbn in C; discriminate).
  destruct GL as [Ll _]. destruct GR as [Rx _]. pose proof (spans_tell _ _ Rx) as TX. assert (x = Return [] -> untold g) as XR.
  { intros ->. left. exists r, L. split; auto. destruct Rx as (o & R & S). inversion S; subst; auto. destruct b; try discriminate. 
    match goal with X : Return _ = Return [] |- _ => injection X as -> end. match goal with X : leads g _ _ [] |- _ => inversion X end. }
  pose proof (place_tells _ _ _ P Ll) as TL.
  assert (forall a, is_arg_node a -> forall r, named nodes a r = r) as NA by (intros a IA r0; apply named_fine; now apply arg_has_name).
  cbn [compare_lifetimes] in C.
  destruct (partial_cmp l x) as [[]|] eqn:E.
  - destruct x as [[|y ys]|[|y ys]|y|y]; try (auto; fail); simpl in TX.
    + rewrite NA in C by (apply TX; now left). destruct l; discriminate.
    + destruct TX; congruence.
    + rewrite NA in C by (apply TX; now left). destruct l; discriminate.
    + rewrite named_fine in C by auto. destruct l; discriminate.
    + rewrite named_fine in C by auto. destruct l; discriminate.
  - destruct l, x; discriminate.
  - destruct x as [[|y ys]|[|y ys]|y|y]; try (auto; fail); simpl in TX.
    + rewrite NA in C by (apply TX; now left). destruct l; discriminate.
    + destruct TX; congruence.
    + rewrite NA in C by (apply TX; now left). destruct l; discriminate.
    + rewrite named_fine in C by auto. destruct l; discriminate.
    + rewrite named_fine in C by auto. destruct l; discriminate.
  - destruct TL as [[d ->]|TL].
    { destruct x; discriminate. }
    destruct l as [[|z zs]|[|z zs]|z|z]; try (destruct x; discriminate); try (destruct TL; congruence); simpl in TL.
    + destruct x as [[|y ys]|[|y ys]|y|y]; try (auto; fail); simpl in TX; try discriminate.
      * destruct TX; congruence.
      * rewrite NA in C; [discriminate|]. apply last_arg. apply TX.
      * rewrite named_fine in C by auto. discriminate.
    + destruct x as [[|y ys]|[|y ys]|y|y]; try (auto; fail); simpl in TX; try discriminate.
      * rewrite NA in C by (apply TX; now left). rewrite NA in C by (apply TL; now left). discriminate.
      * destruct TX; congruence.
      * rewrite NA in C by (apply TX; now left). discriminate.
      * rewrite named_fine in C by auto. discriminate.
    + destruct TL as [_ TL]. destruct x as [[|y ys]|[|y ys]|y|y]; try (auto; fail); simpl in TX; try discriminate.
      * rewrite NA in C by (apply TX; now left). rewrite NA in C by (apply TL; now left). discriminate.
      * destruct TX; congruence.
      * destruct TX as [_ TX]. destruct (TX y (or_introl eq_refl)) as (n & EN & KN'). unfold nodes at 1 in C. rewrite nth_as, EN in C. cbn [option_map n_parent as_node] in C.
        destruct (f_parent n) as [p|] eqn:PN; [|destruct (lf_arg_parent _ FIT _ _ EN KN' PN)]. destruct (to_parent _ (lf_tree _ FIT) _ _ _ EN PN) as (pn & EP & _).
        destruct (kind_eq_dec (f_kind pn) K_Fn) as [KP|KP]; [|right; exists y, n, p, pn; auto].
        rewrite named_fine in C by (exists pn; split; auto; apply (lf_named _ FIT _ _ EP); rewrite KP; simpl; auto).
        rewrite NA in C by (apply TX; now left). rewrite NA in C by (apply TL; now left). discriminate.
      * rewrite named_fine in C by auto. discriminate.
    + rewrite named_fine in C by auto. destruct x; discriminate.
Qed.
Lemma compare_at_spec : forall L l r lr, place g r L -> gives L l -> gives (spans g r) lr -> l <> LOof -> lr <> LOof -> spec (compare_at g l lr r) (bad_value L r).
Proof.
  intros L l r lr P GL GR HL HR. pose proof (compare_exact _ _ _ _ GL GR HL HR) as X. unfold compare_at. fold nodes.
  destruct (compare_lifetimes l lr nodes) as [|e|] eqn:C; simpl.
  - intros e i (_ & _ & N). apply N. now apply X.
  - do 2 (split; eauto). intros Y. apply X in Y. discriminate.
  - split; [eapply compare_panics; eauto|]. exists (X_lifetime CUnify), r. do 2 (split; eauto). intros Y. apply X in Y. discriminate.
Qed.
Variable fuel : nat.
Lemma life_spec : forall i n, nth_error g i = Some n -> ~ odd (f_kind n) ->
  life fuel g m i = XOof \/ exists r, life fuel g m i = XOk r /\ gives (spans g i) r /\ r <> LOof.
Proof.
  intros i n E O. unfold life. rewrite (xat_some _ _ _ _ E). cbn [xbind]. fold nodes. pose proof (chars_gives _ _ (node_chars fuel i n E O)) as G.
  destruct (node_lifetime fuel nodes m (as_node n)); auto; try (right; eexists; split; [reflexivity|split; [exact G|discriminate]]). destruct G as [_ []].
Qed.
Lemma good_for_spec : forall l r n, lifetime_of nodes m l -> nth_error g r = Some n -> ~ odd (f_kind n) -> place g r (eq l) -> spec (good_for fuel g m l r) (bad_value (eq l) r).
Proof.
  intros l r n L E O P. unfold good_for. destruct (life_spec r n E O) as [->|(x & -> & G & N)]; [exact I|]. cbn [xbind]. apply compare_at_spec; auto; [now apply one_gives|discriminate].
Qed.
Lemma two_spec : forall l ln r rn, nth_error g l = Some ln -> ~ odd (f_kind ln) -> nth_error g r = Some rn -> ~ odd (f_kind rn) -> place g r (spans g l) ->
  spec (xbind (life fuel g m l) (fun ll => xbind (life fuel g m r) (fun lr => compare_at g ll lr r))) (bad_value (spans g l) r).
Proof.
  intros l ln r rn EL OL ER OR P. destruct (life_spec l ln EL OL) as [->|(x & -> & G & N)]; [exact I|]. cbn [xbind].
  destruct (life_spec r rn ER OR) as [->|(y & -> & G' & N')]; [exact I|]. cbn [xbind]. now apply compare_at_spec.
Qed.
Lemma child_fine : forall i n c, nth_error g i = Some n -> In c (f_children n) -> ~ In (f_kind n) [K_Fn; K_Item; K_Ty; K_Ns; K_Uses; K_Use; K_For; K_Vec4; K_Mat4; K_Swizzle; K_ItemExtra] ->
  exists cn, nth_error g c = Some cn /\ ~ odd (f_kind cn) /\ f_parent cn = Some i.
Proof.
  intros i n c E C N. destruct (to_child _ (lf_tree _ FIT) _ _ _ E C) as (cn & EC & P). exists cn. do 2 (split; auto). intros O. apply N. eapply (lf_kinds _ FIT); eauto.
Qed.
(** the parts of an assignment *)
Lemma assigns_fine : forall a n o i r, nth_error g a = Some n -> assigns g n o i r ->
  left_item g n = XOk i /\ nth_error (f_children n) 1 = Some r /\ (exists l ln, f_children n = l :: tl (f_children n) /\ nth_error g l = Some ln /\ f_children ln = i :: tl (f_children ln)) /\
  (exists it, nth_error g i = Some it /\ ~ odd (f_kind it)) /\ exists rn, nth_error g r = Some rn /\ ~ odd (f_kind rn).
Proof.
  intros a n o i r E (O & l & ln & C0 & EL & CI & C1). destruct (lf_assign _ FIT _ _ _ E O) as [K _]. pose proof (lf_left _ FIT _ _ _ _ E K C0 EL) as KL.
  split; [|split; [auto|split; [|split]]].
  - unfold left_item. rewrite (xat_some _ _ _ _ C0). cbn [xbind]. rewrite (xat_some _ _ _ _ EL). cbn [xbind]. now apply xat_some.
  - exists l, ln. destruct (f_children n) as [|c cs]; [discriminate|]. injection C0 as ->. split; auto. split; auto. destruct (f_children ln) as [|c' cs']; [discriminate|]. injection CI as ->. auto.
  - destruct (child_fine l ln i EL (nth_error_In _ _ CI)) as (it & EI & OI & _); [rewrite KL; simpl; intuition discriminate|]. eauto.
  - destruct (child_fine a n r E (nth_error_In _ _ C1)) as (rn & ER & OR & _); [rewrite K; simpl; intuition discriminate|]. eauto.
Qed.
Lemma assigns_fun : forall n o i r o' i' r', assigns g n o i r -> assigns g n o' i' r' -> o = o' /\ i = i' /\ r = r'.
Proof.
  intros n o i r o' i' r' (A & l & ln & B & C & D & E) (A' & l' & ln' & B' & C' & D' & E'). assert (l' = l) as -> by congruence. assert (ln' = ln) as -> by congruence. split; [|split]; congruence.
Qed.
Definition U_set (a : nat) (e : xerr) (i : nat) : Prop := exists n x r, nth_error g a = Some n /\ assigns g n OpSet x r /\ bad_value (spans g x) r e i.
Lemma set_spec : forall a n, nth_error g a = Some n -> spec (check_set fuel g m a) (U_set a).
Proof.
  intros a n E. unfold check_set. rewrite (xat_some _ _ _ _ E). cbn [xbind].
  destruct (x_op (f_data n)) as [o|] eqn:O.
  2: { apply spec_none. intros e i (n' & x & r & E' & A & _). assert (n' = n) as -> by congruence. destruct A. congruence. }
  destruct (lf_assign _ FIT _ _ _ E O) as [_ (x & r & A)].
  destruct o; try (apply spec_none; intros e i (n' & x' & r' & E' & A' & _); assert (n' = n) as -> by congruence; destruct (assigns_fun _ _ _ _ _ _ _ A A') as [Q _]; discriminate).
  destruct (assigns_fine _ _ _ _ _ E A) as (-> & R & _ & (it & EI & OI) & rn & ER & OR). cbn [xbind]. rewrite (xat_some _ _ _ _ R). cbn [xbind].
  eapply spec_iff; [|exact (two_spec x it r rn EI OI ER OR (Pl_set g a n x r E A))]. intros e i. split; [intros B; exists n, x, r; auto|].
  intros (n' & x' & r' & E' & A' & B). assert (n' = n) as -> by congruence. destruct (assigns_fun _ _ _ _ _ _ _ A A') as (_ & <- & <-). exact B.
Qed.
Lemma ids_within : forall n, f_item_ids n = true <-> within n.
Proof.
  intros n. unfold f_item_ids, within. rewrite andb_true_iff, is_kind_spec. split; intros [A B]; split; auto; destruct (f_children n); congruence.
Qed.
Definition U_let (a : nat) (e : xerr) (i : nat) : Prop :=
  exists n x it r, nth_error g a = Some n /\ assigns g n OpAssign x r /\ nth_error g x = Some it /\ ~ within it /\ bad_value (eq (Local x)) r e i.
Definition U_put (a : nat) (e : xerr) (i : nat) : Prop :=
  exists n x it j r, nth_error g a = Some n /\ assigns g n OpAssign x r /\ nth_error g x = Some it /\ within it /\ f_decl it = Some j /\ bad_value (eq (Local j)) r e i.
Lemma is_let_spec : forall a n, nth_error g a = Some n ->
  (is_let g n = XOk false /\ forall x r, ~ assigns g n OpAssign x r) \/ (is_let g n = XOk true /\ exists x r, assigns g n OpAssign x r).
Proof.
  intros a n E. unfold is_let. destruct (x_op (f_data n)) as [o|] eqn:O.
  2: { left. split; auto. intros x r [X _]. congruence. }
  destruct (lf_assign _ FIT _ _ _ E O) as [_ (x & r & A)].
  destruct o; try (left; split; [reflexivity|intros x' r' A'; destruct (assigns_fun _ _ _ _ _ _ _ A A') as [Q _]; discriminate]).
  destruct (assigns_fine _ _ _ _ _ E A) as (_ & _ & (l & ln & CN & EL & CL) & _). right. rewrite CN, (xat_some _ _ _ _ EL). cbn [xbind]. rewrite CL. eauto.
Qed.
Lemma let_spec : forall a n, nth_error g a = Some n -> spec (check_let fuel g m a) (U_let a).
Proof.
  intros a n E. unfold check_let. rewrite (xat_some _ _ _ _ E). cbn [xbind]. destruct (is_let_spec a n E) as [[-> N]|[-> (x & r & A)]]; cbn [xbind].
  - apply spec_none. intros e i (n' & x & it & r & E' & A & _). assert (n' = n) as -> by congruence. exact (N _ _ A).
  - destruct (assigns_fine _ _ _ _ _ E A) as (-> & R & _ & (it & EI & OI) & rn & ER & OR). cbn [xbind]. rewrite (xat_some _ _ _ _ EI). cbn [xbind].
    destruct (f_item_ids it) eqn:W.
    + apply spec_none. intros e i (n' & x' & it' & r' & E' & A' & EI' & W' & _). assert (n' = n) as -> by congruence. destruct (assigns_fun _ _ _ _ _ _ _ A A') as (_ & <- & <-).
      assert (it' = it) as -> by congruence. apply W'. now apply ids_within.
    + rewrite (xat_some _ _ _ _ R). cbn [xbind]. eapply spec_iff; [|refine (good_for_spec (Local x) r rn (lo_local _ _ x) ER OR (Pl_let g a n x it r E A EI _)); rewrite <- ids_within; congruence].
      intros e i. split.
      * intros B. exists n, x, it, r. do 3 (split; auto). split; auto. rewrite <- ids_within. congruence.
      * intros (n' & x' & it' & r' & E' & A' & EI' & W' & B). assert (n' = n) as -> by congruence. destruct (assigns_fun _ _ _ _ _ _ _ A A') as (_ & <- & <-). exact B.
Qed.
Lemma put_spec : forall a n, nth_error g a = Some n -> spec (check_put fuel g m a) (U_put a).
Proof.
  intros a n E. unfold check_put. rewrite (xat_some _ _ _ _ E). cbn [xbind]. destruct (is_let_spec a n E) as [[-> N]|[-> (x & r & A)]]; cbn [xbind].
  - apply spec_none. intros e i (n' & x & it & j & r & E' & A & _). assert (n' = n) as -> by congruence. exact (N _ _ A).
  - destruct (assigns_fine _ _ _ _ _ E A) as (-> & R & _ & (it & EI & OI) & rn & ER & OR). cbn [xbind]. rewrite (xat_some _ _ _ _ EI). cbn [xbind].
    destruct (f_item_ids it) eqn:W.
    + destruct (f_decl it) as [j|] eqn:D.
      * rewrite (xat_some _ _ _ _ R). cbn [xbind]. eapply spec_iff; [|exact (good_for_spec (Local j) r rn (lo_local _ _ j) ER OR (Pl_put g a n x it j r E A EI (proj1 (ids_within it) W) D))]. intros e i. split.
        -- intros B. exists n, x, it, j, r. do 3 (split; auto). split; [now apply ids_within|auto].
        -- intros (n' & x' & it' & j' & r' & E' & A' & EI' & W' & D' & B). assert (n' = n) as -> by congruence. destruct (assigns_fun _ _ _ _ _ _ _ A A') as (_ & <- & <-).
           assert (it' = it) as -> by congruence. assert (j' = j) as -> by congruence. exact B.
      * apply spec_none. intros e i (n' & x' & it' & j' & r' & E' & A' & EI' & W' & D' & _). assert (n' = n) as -> by congruence. destruct (assigns_fun _ _ _ _ _ _ _ A A') as (_ & <- & <-).
        assert (it' = it) as -> by congruence. congruence.
    + apply spec_none. intros e i (n' & x' & it' & j' & r' & E' & A' & EI' & W' & _). assert (n' = n) as -> by congruence. destruct (assigns_fun _ _ _ _ _ _ _ A A') as (_ & <- & <-).
      assert (it' = it) as -> by congruence. apply ids_within in W'. congruence.
Qed.
Definition U_return (a : nat) (e : xerr) (i : nat) : Prop :=
  exists n r, nth_error g a = Some n /\ f_kind n = K_Return /\ nth_error (f_children n) 0 = Some r /\ bad_value (eq (Return [])) r e i.
Lemma return_spec : forall a n, nth_error g a = Some n -> spec (check_return fuel g m a) (U_return a).
Proof.
  intros a n E. unfold check_return. rewrite (xat_some _ _ _ _ E). cbn [xbind]. destruct (is_kind (f_kind n) K_Return) eqn:K.
  - apply is_kind_spec in K. pose proof (lf_return _ FIT _ _ E K) as C. destruct (f_children n) as [|r cs] eqn:CS; [congruence|]. cbn [xat nth_error xbind].
    destruct (child_fine a n r E) as (rn & ER & OR & _); [rewrite CS; now left|rewrite K; simpl; intuition discriminate|].
    eapply spec_iff; [|refine (good_for_spec (Return []) r rn (lo_return _ _) ER OR (Pl_return g a n r E K _)); now rewrite CS]. intros e i. split.
    + intros B. exists n, r. do 2 (split; auto). rewrite CS. auto.
    + intros (n' & r' & E' & K' & C' & B). assert (n' = n) as -> by congruence. rewrite CS in C'. injection C' as ->. exact B.
  - apply is_kind_no in K. apply spec_none. intros e i (n' & r' & E' & K' & _). congruence.
Qed.
Definition is_result (n : fnode) : Prop :=
  f_kind n = K_Expr /\ forall p pn, f_parent n = Some p -> nth_error g p = Some pn -> f_kind pn = K_Fn \/ f_kind pn = K_Closure.
Definition U_math (a : nat) (e : xerr) (i : nat) : Prop := exists n, nth_error g a = Some n /\ is_result n /\ bad_value (eq (Return [])) a e i.
Lemma math_spec : forall a n, nth_error g a = Some n -> spec (check_math fuel g m a) (U_math a).
Proof.
  intros a n E. unfold check_math. rewrite (xat_some _ _ _ _ E). cbn [xbind].
  assert ((is_math g n = XOk true /\ is_result n) \/ (is_math g n = XOk false /\ ~ is_result n)) as D.
  { unfold is_math, is_result. destruct (is_kind (f_kind n) K_Expr) eqn:K; [apply is_kind_spec in K|apply is_kind_no in K; right; split; auto; tauto].
    destruct (f_parent n) as [p|] eqn:P; [|left; split; auto; split; auto; intros p pn X; discriminate].
    destruct (to_parent _ (lf_tree _ FIT) _ _ _ E P) as (pn & EP & _). rewrite (xat_some _ _ _ _ EP). cbn [xbind].
    destruct (is_kind (f_kind pn) K_Fn) eqn:KF; [apply is_kind_spec in KF; left; split; auto; split; auto; intros p' pn' X Y; left; congruence|].
    destruct (is_kind (f_kind pn) K_Closure) eqn:KC; [apply is_kind_spec in KC; left; split; auto; split; auto; intros p' pn' X Y; right; congruence|].
    apply is_kind_no in KF. apply is_kind_no in KC. right. split; auto. intros [_ H]. destruct (H _ _ eq_refl EP); contradiction. }
  destruct D as [[-> D]|[-> D]]; cbn [xbind].
  - eapply spec_iff; [|apply (good_for_spec (Return []) a n (lo_return _ _) E)].
    + intros e i. split; [intros B; exists n; auto|]. intros (n' & _ & _ & B). exact B.
    + destruct D as [-> _]. unfold odd. simpl. intuition discriminate.
    + destruct D as [K P]. exact (Pl_math g a n E K P).
  - apply spec_none. intros e i (n' & E' & R & _). assert (n' = n) as -> by congruence. contradiction.
Qed.
Lemma fn_args_parts : forall n, fn_args g n = parts g K_Arg n.
Proof. reflexivity. Qed.
Definition U_void (a : nat) (e : xerr) (i : nat) : Prop :=
  exists n an, nth_error g a = Some n /\ f_kind n = K_Fn /\ x_ty (f_data n) = Some TVoid /\ In i (parts g K_Arg n) /\ nth_error g i = Some an /\ x_lifetime (f_data an) = Some "return" /\ e = X_void.
Lemma void_spec : forall a n, nth_error g a = Some n -> spec (check_void g a) (U_void a).
Proof.
  intros a n E. unfold check_void. rewrite (xat_some _ _ _ _ E). cbn [xbind].
  assert ((f_kind n <> K_Fn \/ x_ty (f_data n) <> Some TVoid) -> spec (XOk tt) (U_void a)) as NO.
  { intros H. apply spec_none. intros e i (n' & an & E' & K & T & _). assert (n' = n) as -> by congruence. tauto. }
  destruct (is_kind (f_kind n) K_Fn) eqn:K; [apply is_kind_spec in K|apply is_kind_no in K; auto].
  destruct (x_ty (f_data n)) as [t|] eqn:T; [|apply NO; right; discriminate]. destruct t; try (apply NO; right; discriminate).
  rewrite fn_args_parts. eapply spec_iff; [|apply (spec_each _ _ (fun j e i => i = j /\ exists an, nth_error g j = Some an /\ x_lifetime (f_data an) = Some "return" /\ e = X_void))].
  - intros e i. split.
    + intros (j & I & -> & an & EA & L & ->). exists n, an. auto 10.
    + intros (n' & an & E' & _ & _ & I & EA & L & ->). assert (n' = n) as -> by congruence. exists i. split; auto. split; eauto.
  - intros j I. destruct (part_child _ _ _ I) as (_ & an & EA & KA). rewrite (xat_some _ _ _ _ EA). cbn [xbind].
    destruct (x_lifetime (f_data an)) as [l|] eqn:L.
    + destruct (String.eqb_spec l "return") as [->|NR].
      * destruct (f_name an) eqn:N; [simpl; eauto|]. destruct (lf_named _ FIT _ _ EA); [rewrite KA; simpl; auto|auto].
      * apply spec_none. intros e i (_ & an' & EA' & L' & _). congruence.
    + apply spec_none. intros e i (_ & an' & EA' & L' & _). congruence.
Qed.
Definition counts_as_end (n : fnode) : Prop := forall c cn, f_kind n = K_Expr -> f_children n = [c] -> nth_error g c = Some cn -> ~ no_references cn.
Definition U_end (a : nat) (e : xerr) (i : nat) : Prop := exists n p, nth_error g a = Some n /\ ends_block g p a /\ counts_as_end n /\ bad_value (eq (Local p)) a e i.
Lemma is_block_spec : forall k, is_block k = true <-> In k [K_Block; K_ElseIfBlock; K_TrueBlock; K_ElseBlock].
Proof. intros k. destruct k; cbn; intuition discriminate. Qed.
Lemma ends_parent : forall a n p, nth_error g a = Some n -> ends_block g p a -> f_parent n = Some p.
Proof.
  intros a n p E (pn & l & EP & _ & C). destruct (to_child _ (lf_tree _ FIT) _ _ a EP) as (n' & E' & P); [rewrite C; apply in_or_app; right; now left|]. congruence.
Qed.
Lemma is_end_spec : forall a n, nth_error g a = Some n ->
  (is_end g a n = XOk true /\ counts_as_end n /\ exists p, f_parent n = Some p /\ ends_block g p a) \/ (is_end g a n = XOk false /\ forall p, ~ (counts_as_end n /\ ends_block g p a)).
Proof.
  intros a n E. unfold is_end.
  assert ((match is_kind (f_kind n) K_Expr, f_children n with true, [c] => xbind (xat g c) (fun cn => XOk (has_lifetime (as_node cn))) | _, _ => XOk true end = XOk true /\ counts_as_end n) \/
    (match is_kind (f_kind n) K_Expr, f_children n with true, [c] => xbind (xat g c) (fun cn => XOk (has_lifetime (as_node cn))) | _, _ => XOk true end = XOk false /\ ~ counts_as_end n)) as D.
  { destruct (is_kind (f_kind n) K_Expr) eqn:K; [apply is_kind_spec in K|apply is_kind_no in K; left; split; auto; intros c cn X; contradiction].
    destruct (f_children n) as [|c [|c' cs]] eqn:C; try (left; split; auto; intros x xn _ X; congruence).
    destruct (to_child _ (lf_tree _ FIT) _ _ c E) as (cn & EC & _); [rewrite C; now left|]. rewrite (xat_some _ _ _ _ EC). cbn [xbind].
    destruct (has_lifetime (as_node cn)) eqn:H.
    - left. split; auto. intros x xn _ X Y. assert (x = c) as -> by congruence. assert (xn = cn) as -> by congruence. rewrite <- has_lifetime_spec. congruence.
    - right. split; auto. intros X. apply (X c cn K C EC). now apply has_lifetime_spec. }
  destruct D as [[-> D]|[-> D]]; cbn [xbind]; [|right; split; auto; tauto].
  destruct (f_parent n) as [p|] eqn:P.
  2: { right. split; auto. intros p [_ X]. rewrite (ends_parent _ _ _ E X) in P. discriminate. }
  destruct (to_parent _ (lf_tree _ FIT) _ _ _ E P) as (pn & EP & IP). rewrite (xat_some _ _ _ _ EP). cbn [xbind].
  destruct (is_block (f_kind pn)) eqn:B.
  2: { right. split; auto. intros p' [_ X]. pose proof (ends_parent _ _ _ E X) as Q. destruct X as (pn' & l & EP' & K & _). apply is_block_spec in K. congruence. }
  destruct (f_children pn) as [|c l] eqn:C; [destruct IP|].
  assert (f_children pn = removelast (c :: l) ++ [last l c]) as SP by (rewrite C, (app_removelast_last c) at 1 by discriminate; f_equal; f_equal; destruct l; reflexivity).
  destruct (Nat.eqb_spec (last l c) a) as [Q|Q].
  - left. split; auto. split; auto. exists p. split; auto. exists pn, (removelast (c :: l)). split; auto. split; [now apply is_block_spec|]. congruence.
  - right. split; auto. intros p' [_ X]. pose proof (ends_parent _ _ _ E X) as Q'. destruct X as (pn' & l' & EP' & _ & C'). assert (p' = p) as -> by congruence. assert (pn' = pn) as -> by congruence.
    rewrite SP in C'. apply app_inj_tail in C'. destruct C'. contradiction.
Qed.
Lemma end_spec : forall a n, nth_error g a = Some n -> spec (check_end fuel g m a) (U_end a).
Proof.
  intros a n E. unfold check_end. rewrite (xat_some _ _ _ _ E). cbn [xbind]. destruct (is_end_spec a n E) as [(-> & CE & p & P & EB)|[-> N]]; cbn [xbind].
  - rewrite P. eapply spec_iff; [|apply (good_for_spec (Local p) a n (lo_local _ _ p) E)].
    + intros e i. split; [intros B; exists n, p; auto|]. intros (n' & p' & E' & EB' & _ & B). rewrite (ends_parent _ _ _ E EB') in P. congruence.
    + destruct EB as (pn & l & EP & K & C). destruct (child_fine p pn a EP) as (n' & E' & O & _); [rewrite C; apply in_or_app; right; now left| |congruence].
      simpl in *. intuition congruence.
    + exact (Pl_end g p a n E EB CE).
  - apply spec_none. intros e i (n' & p & E' & EB & CE & _). assert (n' = n) as -> by congruence. apply (N p). auto.
Qed.
Definition U_call (c : nat) (e : xerr) (i : nat) : Prop := exists n a, nth_error g c = Some n /\ f_kind n = K_Call /\ In a (parts g K_CallArg n) /\ bad_value (eq (Local c)) a e i.
Lemma call_kind : forall c n a, nth_error g c = Some n -> f_kind n = K_Call -> In a (f_children n) -> exists an, nth_error g a = Some an /\ f_kind an = K_CallArg /\ ~ odd (f_kind an).
Proof.
  intros c n a E K I. rewrite <- (lf_call _ FIT _ _ E K) in I. destruct (part_child _ _ _ I) as (_ & an & EA & KA). exists an. do 2 (split; auto). rewrite KA. unfold odd. simpl. intuition discriminate.
Qed.
Lemma call_spec : forall c n, nth_error g c = Some n -> spec (check_call fuel g m c) (U_call c).
Proof.
  intros c n E. unfold check_call. rewrite (xat_some _ _ _ _ E). cbn [xbind]. destruct (is_kind (f_kind n) K_Call) eqn:K; [apply is_kind_spec in K|apply is_kind_no in K].
  2: { apply spec_none. intros e i (n' & a & E' & K' & _). congruence. }
  eapply spec_iff; [|apply (spec_each _ _ (fun a => bad_value (eq (Local c)) a))].
  - intros e i. rewrite <- (lf_call _ FIT _ _ E K). split; [intros (a & I & B); exists n, a; auto|]. intros (n' & a & E' & K' & I & B). assert (n' = n) as -> by congruence. eauto.
  - intros a I. destruct (call_kind _ _ _ E K I) as (an & EA & KA & OA). rewrite (xat_some _ _ _ _ EA). cbn [xbind]. rewrite KA. cbn [is_kind]. apply (good_for_spec (Local c) a an (lo_local _ _ c) EA OA). apply (Pl_arg g c n a E K). eapply child_part; eauto.
Qed.

(** ** Calls with constraints *)
Lemma in_combine_nth : forall A B (l : list A) (l' : list B) a b, In (a, b) (combine l l') <-> exists k, nth_error l k = Some a /\ nth_error l' k = Some b.
Proof.
  intros A B. induction l as [|x l IH]; intros l' a b; simpl.
  - split; [intros []|]. intros ([|k] & H & _); discriminate.
  - destruct l' as [|y l']; simpl; [split; [intros []|intros ([|k] & _ & H); discriminate]|]. rewrite IH. split.
    + intros [Q|(k & C & D)]; [injection Q as -> ->; exists 0; auto|exists (S k); auto].
    + intros ([|k] & C & D); [left; simpl in *; congruence|right; exists k; auto].
Qed.
Lemma seq_nth_error : forall k s i, nth_error (seq s k) i = if i <? k then Some (s + i) else None.
Proof.
  induction k as [|k IH]; intros s i; [destruct i; reflexivity|]. destruct i as [|i]; simpl; [f_equal; lia|]. rewrite IH. change (S i <? S k) with (i <? k). destruct (i <? k); auto. f_equal. lia.
Qed.
Lemma in_numbered : forall A (l : list A) i a, In (i, a) (combine (seq 0 (length l)) l) <-> nth_error l i = Some a.
Proof.
  intros A l i a. rewrite in_combine_nth. split.
  - intros (k & H1 & H2). rewrite seq_nth_error in H1. destruct (k <? length l); [|discriminate]. injection H1 as <-. exact H2.
  - intros H. exists i. split; auto. rewrite seq_nth_error. replace (i <? length l) with true; auto. symmetry. apply Nat.ltb_lt. apply nth_error_Some. congruence.
Qed.
Lemma nth_numbered : forall A (l : list A) i a, nth_error l i = Some a -> nth_error (combine (seq 0 (length l)) l) i = Some (i, a).
Proof.
  intros A l i a. change i with (0 + i) at 3. generalize 0 as s. revert i. induction l as [|x l IH]; intros [|i] s H; try discriminate; simpl in *.
  - rewrite Nat.add_0_r. congruence.
  - rewrite (IH i (S s) H). f_equal. f_equal. lia.
Qed.
Lemma in_args : forall f n i a, nth_error g f = Some n -> f_kind n = K_Fn -> (In (i, a) (numbered_args g n) <-> nth_error (parts g K_Arg n) i = Some a).
Proof.
  intros f n i a E K. unfold numbered_args, numbered. rewrite filter_In, in_numbered. cbn [snd]. fold (kind_at g K_Arg a). destruct (lf_fn _ FIT _ _ E K) as [r C].
  assert (filter (kind_at g K_Arg) r = []) as FR.
  { assert (parts g K_Arg n = parts g K_Arg n ++ filter (kind_at g K_Arg) r) as Q.
    { unfold parts at 1. rewrite C, filter_app. f_equal. unfold parts. clear C. induction (f_children n) as [|x l IH]; simpl; auto. destruct (kind_at g K_Arg x) eqn:KX; simpl; rewrite ?KX, ?IH; auto. }
    apply (f_equal (@length nat)) in Q. rewrite app_length in Q. destruct (filter (kind_at g K_Arg) r); auto. simpl in Q. lia. }
  split.
  - intros [N KA]. rewrite C in N. destruct (Nat.lt_ge_cases i (length (parts g K_Arg n))) as [LT|GE]; [rewrite nth_error_app1 in N; auto|].
    rewrite nth_error_app2 in N by auto. apply nth_error_In in N. assert (In a (filter (kind_at g K_Arg) r)) as X by (apply filter_In; split; auto). rewrite FR in X. destruct X.
  - intros N. split; [rewrite C, nth_error_app1; auto; apply nth_error_Some; congruence|]. apply nth_error_In in N. unfold parts in N. now apply filter_In in N.
Qed.
Lemma values_one : forall c n, nth_error g c = Some n -> f_kind n = K_Call -> (forall a, In a (f_children n) -> width g a = 1) -> values g n = length (f_children n).
Proof.
  intros c n E K H. unfold values. rewrite (lf_call _ FIT _ _ E K). induction (f_children n) as [|a l IH]; auto. simpl. rewrite IH by (intros b B; apply H; now right). rewrite (H a); [reflexivity|now left].
Qed.
Lemma fail_at_ok : forall c n i ch e, nth_error g c = Some n -> nth_error (f_children n) i = Some ch -> fail_at g n i e = XErr e ch.
Proof.
  intros c n i ch e E C. unfold fail_at. rewrite (xat_some _ _ _ _ C). cbn [xbind]. destruct (to_child _ (lf_tree _ FIT) _ _ _ E (nth_error_In _ _ C)) as (cn & EC & _). now rewrite (xat_some _ _ _ _ EC).
Qed.
Lemma constrained_given : forall c n k, nth_error g c = Some n -> f_kind n = K_Call -> constrained g n k -> values g n = length (f_children n) /\ exists ch, given n k ch.
Proof.
  intros c n k E K C. pose proof (lf_single _ FIT _ _ _ E K C) as W. pose proof (values_one _ _ E K W) as V. split; auto.
  assert (k < length (f_children n)) as LT.
  { rewrite <- V. destruct C as [f fn k a an D F A _ _|k l D L _].
    - destruct (lf_target _ FIT _ _ _ E K D) as (fn' & F' & _ & LN). assert (fn' = fn) as -> by congruence. rewrite <- LN. apply nth_error_Some. congruence.
    - destruct (lf_outside _ FIT _ _ E K D) as [<- _]. apply nth_error_Some. congruence. }
  destruct (nth_error (f_children n) k) as [ch|] eqn:N; [exists ch; exact N|]. apply nth_error_None in N. lia.
Qed.
Definition in_go (n : fnode) : Prop := exists p pn, f_parent n = Some p /\ nth_error g p = Some pn /\ f_kind pn = K_Go.
Definition U_go (c : nat) (e : xerr) (i : nat) : Prop := exists n k, nth_error g c = Some n /\ f_kind n = K_Call /\ in_go n /\ constrained g n k /\ given n k i /\ e = X_go.
Lemma go_spec : forall c n, nth_error g c = Some n -> spec (check_go g c) (U_go c).
Proof.
  intros c n E. unfold check_go. rewrite (xat_some _ _ _ _ E). cbn [xbind].
  assert ((f_kind n <> K_Call \/ ~ in_go n) -> spec (XOk tt) (U_go c)) as NO.
  { intros H. apply spec_none. intros e i (n' & k & E' & K' & G & _). assert (n' = n) as -> by congruence. tauto. }
  destruct (is_kind (f_kind n) K_Call) eqn:K; [apply is_kind_spec in K|apply is_kind_no in K; auto].
  destruct (f_parent n) as [p|] eqn:P; [|apply NO; right; intros (p & pn & P' & _); congruence].
  destruct (to_parent _ (lf_tree _ FIT) _ _ _ E P) as (pn & EP & _). rewrite (xat_some _ _ _ _ EP). cbn [xbind].
  destruct (is_kind (f_kind pn) K_Go) eqn:KG; [apply is_kind_spec in KG|apply is_kind_no in KG; apply NO; right; intros (p' & pn' & P' & EP' & KG'); congruence].
  assert (in_go n) as IG by (exists p, pn; auto). clear NO.
  destruct (f_decl n) as [f|] eqn:D.
  - destruct (lf_target _ FIT _ _ _ E K D) as (fn & F & KF & LN). rewrite (xat_some _ _ _ _ F). cbn [xbind].
    eapply spec_iff; [|apply (spec_each2 _ _ _ _ (fun k a e i => given n k i /\ e = X_go /\ exists an, nth_error g a = Some an /\ x_lifetime (f_data an) <> None))].
    + intros e i. split.
      * intros (k & a & I & GV & -> & an & EA & L). apply (in_args _ _ _ _ F KF) in I. exists n, k. do 3 (split; auto). split; [eapply Co_function; eauto|auto].
      * intros (n' & k & E' & _ & _ & C & GV & ->). assert (n' = n) as -> by congruence. destruct C as [f' fn' k a an D' F' A EA L|k l D' _ _]; [|congruence].
        assert (f' = f) as -> by congruence. assert (fn' = fn) as -> by congruence. exists k, a. split; [now apply (in_args _ _ _ _ F KF)|eauto 10].
    + intros k a I. apply (in_args _ _ _ _ F KF) in I. destruct (part_child _ _ _ (nth_error_In _ _ I)) as (_ & an & EA & _). rewrite (xat_some _ _ _ _ EA). cbn [xbind].
      destruct (x_lifetime (f_data an)) as [l|] eqn:L.
      * assert (constrained g n k) as C by (eapply Co_function; eauto; congruence). destruct (constrained_given _ _ _ E K C) as (_ & ch & GV). rewrite (fail_at_ok _ _ _ _ _ E GV). simpl.
        split; auto. split; auto. exists an. split; auto. congruence.
      * apply spec_none. intros e i (_ & _ & an' & EA' & L'). congruence.
  - fold (kind_at g K_CallArg). fold (parts g K_CallArg n). rewrite (lf_call _ FIT _ _ E K).
    eapply spec_iff; [|apply (spec_each2 _ _ _ _ (fun (x : nat * lt) _ e i => given n (fst x) i /\ e = X_go /\ snd x <> LtDefault))].
    + intros e i. split.
      * intros ([k l] & a & I & GV & -> & L). cbn [fst snd] in *. apply in_combine_l in I. apply in_numbered in I. exists n, k. do 3 (split; auto). split; [eapply Co_outside; eauto|auto].
      * intros (n' & k & E' & _ & _ & C & GV & ->). assert (n' = n) as -> by congruence. destruct C as [f' fn' k a an D' F' A EA L|k l D' L ND]; [congruence|].
        exists (k, l), i. split; [|auto]. apply in_combine_nth. exists k. split; auto. 
        now apply nth_numbered.
    + intros [k l] a I. cbn [fst snd]. apply in_combine_l in I. apply in_numbered in I. destruct l as [x| |]; try (apply spec_none; intros e i (_ & _ & X); congruence);
        (assert (constrained g n k) as C by (eapply Co_outside; eauto; discriminate); destruct (constrained_given _ _ _ E K C) as (_ & ch & GV);
         rewrite (fail_at_ok _ _ _ _ _ E GV); simpl; split; auto; split; auto; discriminate).
Qed.
Lemma call_arg_from_ok : forall cs i j new, j <= i -> (forall c, In c cs -> exists cn, nth_error g c = Some cn) ->
  exists q, call_arg_from g cs i j new = XOk q /\ (i < j + fold_right (fun a k => width g a + k) 0 cs -> q < new + length cs) /\
    ((forall c, In c cs -> width g c = 1) -> j <= i < j + length cs -> q = new + (i - j)).
Proof.
  induction cs as [|c cs IH]; intros i j new JI H; cbn [call_arg_from].
  - exists new. split; auto. simpl. split; lia.
  - destruct (H c (or_introl eq_refl)) as [cn E]. rewrite (xat_some _ _ _ _ E). cbn [xbind].
    assert (there g (f_children cn)) as TC by (eapply there_children; [apply (lf_tree _ FIT)|eauto]). rewrite (find_kind_parts _ _ _ TC). cbn [xnres xbind]. fold (parts g K_Swizzle cn).
    match goal with |- context [xbind ?x _] => assert (x = XOk (width g c)) as -> end.
    { unfold width. rewrite E. destruct (parts g K_Swizzle cn) as [|s r] eqn:P; cbn [hd_error]; auto.
      assert (In s (f_children cn)) as S by (assert (In s (parts g K_Swizzle cn)) as X by (rewrite P; now left); now destruct (part_child _ _ _ X)).
      destruct (TC _ S) as [sn EN]. rewrite (xat_some _ _ _ _ EN). cbn [xbind]. rewrite count_kind_spec by (eapply there_children; [apply (lf_tree _ FIT)|eauto]). cbn [xnres]. unfold letters. now rewrite EN. }
    cbn [xbind]. destruct (Nat.ltb_spec i (j + width g c)) as [LT|GE].
    + exists new. split; auto. simpl. split; [lia|]. intros W R. rewrite (W c (or_introl eq_refl)) in LT. lia.
    + destruct (IH i (j + width g c) (S new) GE (fun c I => H c (or_intror I))) as (q & -> & Q1 & Q2). exists q. split; auto. simpl. split; [intros LT; lia|].
      intros W R. pose proof (W c (or_introl eq_refl)) as W1. specialize (Q2 (fun c I => W c (or_intror I))). lia.
Qed.
Lemma call_arg_index_ok : forall c n k, nth_error g c = Some n -> f_kind n = K_Call ->
  exists q, call_arg_index g n k = XOk q /\ (k < values g n -> q < length (f_children n)) /\ (constrained g n k -> q = k).
Proof.
  intros c n k E K. unfold call_arg_index. destruct (call_arg_from_ok (f_children n) k 0 0 (Nat.le_0_l k)) as (q & Q & Q1 & Q2).
  { intros a I. destruct (to_child _ (lf_tree _ FIT) _ _ _ E I) as (an & EA & _). eauto. }
  exists q. split; auto. split.
  - intros LT. unfold values in LT. rewrite (lf_call _ FIT _ _ E K) in LT. apply Q1. exact LT.
  - intros C. rewrite Q2; [lia|eapply (lf_single _ FIT); eauto|]. destruct (constrained_given _ _ _ E K C) as (_ & ch & GV). split; [lia|]. apply nth_error_Some. unfold given in GV. congruence.
Qed.
Lemma reaches_item_spec : forall k i n, nth_error g i = Some n ->
  match reaches_item g k i with XOk true => starts_with_item g i | XOk false => ~ starts_with_item g i | XOof => True | _ => False end.
Proof.
  induction k as [|k IH]; intros i n E; cbn [reaches_item]; auto. rewrite (xat_some _ _ _ _ E). cbn [xbind].
  assert (f_kind n <> K_Item -> f_kind n <> K_Call -> match (match f_children n with [] => XOk false | c :: _ => reaches_item g k c end) with
    XOk true => starts_with_item g i | XOk false => ~ starts_with_item g i | XOof => True | _ => False end) as REST.
  { intros K1 K2. destruct (f_children n) as [|c cs] eqn:C.
    - intros S. inversion S; subst; assert (n0 = n) by congruence; subst; congruence.
    - destruct (to_child _ (lf_tree _ FIT) _ _ c E) as (cn & EC & _); [rewrite C; now left|]. specialize (IH c cn EC). destruct (reaches_item g k c) as [[|]| | |]; auto.
      + eapply Si_part; eauto.
      + intros S. apply IH. inversion S; subst; assert (n0 = n) by congruence; subst; congruence. }
  destruct (f_kind n) eqn:K; try (apply REST; discriminate).
  - intros S. inversion S; subst; assert (n0 = n) by congruence; subst; congruence.
  - eapply Si_item; eauto.
Qed.
Lemma is_reference_spec : forall c n k ch, nth_error g c = Some n -> given n k ch ->
  match is_reference fuel g n k with XOk true => starts_with_item g ch | XOk false => ~ starts_with_item g ch | XOof => True | _ => False end.
Proof.
  intros c n k ch E GV. unfold is_reference. rewrite (xat_some _ _ _ _ GV). cbn [xbind]. destruct (to_child _ (lf_tree _ FIT) _ _ _ E (nth_error_In _ _ GV)) as (cn & EC & _). eapply reaches_item_spec; eauto.
Qed.
Lemma compare_args_spec : forall c n k k' ch ch', nth_error g c = Some n -> f_kind n = K_Call -> given n k ch -> given n k' ch' -> must_outlive g n k k' -> spec (compare_args fuel g m n k' k) (bad_value (spans g ch') ch).
Proof.
  intros c n k k' ch ch' E K G G' MO. unfold compare_args. rewrite (xat_some _ _ _ _ G'), (xat_some _ _ _ _ G). cbn [xbind].
  destruct (call_kind _ _ _ E K (nth_error_In _ _ G)) as (n1 & E1 & _ & O1). destruct (call_kind _ _ _ E K (nth_error_In _ _ G')) as (n2 & E2 & _ & O2). apply (two_spec ch' n2 ch n1 E2 O2 E1 O1). exact (Pl_outlives g c n k k' ch ch' E K MO G G').
Qed.
Definition U_arg (n : fnode) (k : nat) (e : xerr) (i : nat) : Prop :=
  constrained g n k /\ given n k i /\ ((e = X_reference /\ ~ starts_with_item g i) \/ exists k' ch', must_outlive g n k k' /\ given n k' ch' /\ bad_value (spans g ch') i e i).
Lemma constraint_spec : forall c n k ch (x : xres unit), nth_error g c = Some n -> given n k ch -> constrained g n k ->
  spec x (fun e i => i = ch /\ exists k' ch', must_outlive g n k k' /\ given n k' ch' /\ bad_value (spans g ch') ch e i) ->
  spec (xbind (xbind (is_reference fuel g n k) (fun b => if b then XOk tt else XErr X_reference ch)) (fun _ => x)) (U_arg n k).
Proof.
  intros c n k ch x E GV C S. pose proof (is_reference_spec _ _ _ _ E GV) as R. assert (forall i, given n k i <-> i = ch) as ONE by (unfold given in *; intros i; split; [congruence|intros ->; auto]).
  eapply spec_iff; [|eapply (spec_then _ x (fun e i => i = ch /\ e = X_reference /\ ~ starts_with_item g ch)); [|exact S]].
  - intros e i. unfold U_arg. rewrite ONE. split.
    + intros [(-> & -> & N)|(-> & k' & ch' & X & Y & Z)]; (split; [auto|split; [auto|]]); [left; auto|right; exists k', ch'; auto].
    + intros (_ & -> & [[-> N]|(k' & ch' & X & Y & Z)]); [left; auto|right; split; auto; exists k', ch'; auto].
  - destruct (is_reference fuel g n k) as [[|]| | |]; cbn [xbind]; try contradiction; simpl; auto. intros e i (_ & _ & N). contradiction.
Qed.
Lemma check_arg_spec : forall c n f fn k a, nth_error g c = Some n -> f_kind n = K_Call -> f_decl n = Some f -> nth_error g f = Some fn -> f_kind fn = K_Fn -> nth_error (parts g K_Arg fn) k = Some a ->
  spec (check_arg fuel g m n f k a) (U_arg n k).
Proof.
  intros c n f fn k a E K D F KF A. unfold check_arg. destruct (call_arg_index_ok c n k E K) as (q & -> & _ & Q). cbn [xbind].
  destruct (part_child _ _ _ (nth_error_In _ _ A)) as (CA & an & EA & KA). rewrite (xat_some _ _ _ _ EA). cbn [xbind].
  assert (f_parent an = Some f) as PA by (destruct (to_child _ (lf_tree _ FIT) _ _ _ F CA) as (an' & EA' & P); congruence).
  destruct (x_lifetime (f_data an)) as [l|] eqn:L.
  2: { apply spec_none. intros e i (C & _). destruct C as [f' fn' k a' an' D' F' A' EA' L'|k l D' _ _]; [|congruence].
       assert (f' = f) as -> by congruence. assert (fn' = fn) as -> by congruence. assert (a' = a) as -> by congruence. congruence. }
  assert (constrained g n k) as C by (eapply Co_function; eauto; congruence). rewrite (Q C). destruct (constrained_given _ _ _ E K C) as (V & ch & GV).
  pose proof (arg_lifetime_spec fuel a an EA KA) as AL. fold nodes.
  assert (forall k' x, must_outlive g n k k' -> x = l -> x <> "return" /\ exists a', nth_error (parts g K_Arg fn) k' = Some a' /\ has_name g a' x) as MO.
  { intros k' x H ->. destruct H as [f' fn' k a1 an1 x1 k' a' D' F' A1 EA1 L1 NR A' N|k k' D' _]; [|congruence].
    assert (f' = f) as -> by congruence. assert (fn' = fn) as -> by congruence. assert (a1 = a) as -> by congruence. assert (an1 = an) as -> by congruence. assert (x1 = l) as -> by congruence. eauto. }
  destruct (arg_lifetime fuel a (as_node an) nodes m) as [r| | | |]; try contradiction; [|exact I].
  rewrite (fail_at_ok _ _ _ _ X_reference E GV).
  assert (spec (if (l =? "return")%string then XOk tt else match arg_get m f l with None => XPanic | Some (_, ind) => compare_args fuel g m n ind k end)
    (fun e i => i = ch /\ exists k' ch', must_outlive g n k k' /\ given n k' ch' /\ bad_value (spans g ch') ch e i)) as REST.
  { destruct (String.eqb_spec l "return") as [->|NR].
    - apply spec_none. intros e i (_ & k' & ch' & MO' & _). destruct (MO _ _ MO' eq_refl) as [X _]. congruence.
    - destruct (KN _ _ _ _ EA KA L NR PA) as [a' AN]. destruct (named_get _ _ _ AN) as [ind G]. rewrite G. apply M in G. destruct G as (fn' & F' & _ & A' & N'). assert (fn' = fn) as -> by congruence.
      assert (exists ch', given n ind ch') as [ch' GV'].
      { destruct (nth_error (f_children n) ind) as [ch'|] eqn:X; [exists ch'; exact X|]. apply nth_error_None in X. destruct (lf_target _ FIT _ _ _ E K D) as (fn' & F'' & _ & LN). assert (fn' = fn) as -> by congruence.
        assert (ind < length (parts g K_Arg fn)) by (apply nth_error_Some; congruence). lia. }
      eapply spec_iff; [|refine (compare_args_spec c n k ind ch ch' E K GV GV' _); eapply Mo_function; eauto]. intros e i. split.
      + intros B. split; [exact (proj1 B)|]. exists ind, ch'. split; [|auto]. eapply Mo_function; eauto.
      + intros (-> & k' & ch2 & MO' & GV2 & B). destruct (MO _ _ MO' eq_refl) as [_ (a2 & A2 & N2)].
        assert (a2 = a') as -> by (eapply (lf_distinct _ FIT); eauto using nth_error_In).
        assert (k' = ind) as -> by (apply (proj1 (NoDup_nth_error (parts g K_Arg fn)) (parts_nodup _ _ _ F)); [apply nth_error_Some; congruence|congruence]).
        unfold given in *. assert (ch2 = ch') as -> by congruence. exact B. }
  destruct AL as (b & l0 & _ & ->). destruct b; exact (constraint_spec c n k ch _ E GV C REST).
Qed.
Lemma check_lt_spec : forall c n k l, nth_error g c = Some n -> f_kind n = K_Call -> f_decl n = None -> nth_error (f_lts n) k = Some l -> spec (check_lt fuel g m n k l) (U_arg n k).
Proof.
  intros c n k l E K D L. unfold check_lt. destruct (lf_outside _ FIT _ _ E K D) as [LN RG]. destruct (call_arg_index_ok c n k E K) as (q & -> & Q1 & Q2). cbn [xbind].
  assert (k < length (f_lts n)) as LT by (apply nth_error_Some; congruence). rewrite LN in LT. specialize (Q1 LT).
  destruct (nth_error (f_children n) q) as [ch|] eqn:CH; [|apply nth_error_None in CH; lia]. rewrite (xat_some _ _ _ _ CH). cbn [xbind].
  destruct (to_child _ (lf_tree _ FIT) _ _ _ E (nth_error_In _ _ CH)) as (cn & EC & _). rewrite (xat_some _ _ _ _ EC). cbn [xbind].
  assert (constrained g n k -> l <> LtDefault) as CL.
  { intros C. destruct C as [f' fn' k a' an' D' F' A' EA' L'|k l' D' L' ND]; congruence. }
  assert (l <> LtDefault -> constrained g n k) as LC by (intros ND; eapply Co_outside; eauto).
  destruct l as [k'| |].
  - assert (constrained g n k) as C by (apply LC; discriminate). rewrite (Q2 C) in *. destruct (constrained_given _ _ _ E K C) as [V _].
    assert (exists ch', given n k' ch') as [ch' GV'].
    { destruct (nth_error (f_children n) k') as [ch'|] eqn:X; [exists ch'; exact X|]. apply nth_error_None in X. pose proof (RG _ _ L). lia. }
    assert (spec (compare_args fuel g m n k' k) (fun e i => i = ch /\ exists k' ch', must_outlive g n k k' /\ given n k' ch' /\ bad_value (spans g ch') ch e i)) as REST.
    { eapply spec_iff; [|exact (compare_args_spec c n k k' ch ch' E K CH GV' (Mo_outside g n k k' D L))]. intros e i. split.
      - intros B. split; [exact (proj1 B)|]. exists k', ch'. split; [now apply Mo_outside|auto].
      - intros (-> & k2 & ch2 & MO & GV2 & B). destruct MO as [f' fn' k a1 an1 x1 k2 a' D' _ _ _ _ _ _ _|k k2 _ L2]; [congruence|]. assert (k2 = k') as -> by congruence.
        unfold given in *. assert (ch2 = ch') as -> by congruence. exact B. }
    pose proof (constraint_spec c n k ch _ E CH C REST) as S. destruct (is_reference fuel g n k) as [[|]| | |]; exact S.
  - assert (constrained g n k) as C by (apply LC; discriminate). rewrite (Q2 C) in *.
    assert (spec (XOk tt) (fun e i => i = ch /\ exists k' ch', must_outlive g n k k' /\ given n k' ch' /\ bad_value (spans g ch') ch e i)) as REST.
    { apply spec_none. intros e i (_ & k2 & ch2 & MO & _). destruct MO as [f' fn' k a1 an1 x1 k2 a' D' _ _ _ _ _ _ _|k k2 _ L2]; congruence. }
    pose proof (constraint_spec c n k ch _ E CH C REST) as S. destruct (is_reference fuel g n k) as [[|]| | |]; exact S.
  - apply spec_none. intros e i (C & _). apply (CL C). reflexivity.
Qed.
Definition U_constraints (c : nat) (e : xerr) (i : nat) : Prop := exists n k, nth_error g c = Some n /\ f_kind n = K_Call /\ U_arg n k e i.
Lemma constraints_spec : forall c n, nth_error g c = Some n -> spec (check_constraints fuel g m c) (U_constraints c).
Proof.
  intros c n E. unfold check_constraints. rewrite (xat_some _ _ _ _ E). cbn [xbind]. destruct (is_kind (f_kind n) K_Call) eqn:K; [apply is_kind_spec in K|apply is_kind_no in K].
  2: { apply spec_none. intros e i (n' & k & E' & K' & _). congruence. }
  destruct (f_decl n) as [f|] eqn:D.
  - destruct (lf_target _ FIT _ _ _ E K D) as (fn & F & KF & _). rewrite (xat_some _ _ _ _ F). cbn [xbind].
    eapply spec_iff; [|apply (spec_each2 _ _ _ _ (fun k a => U_arg n k))].
    + intros e i. split.
      * intros (k & a & _ & U). exists n, k. auto.
      * intros (n' & k & E' & _ & U). assert (n' = n) as -> by congruence. destruct U as [C U]. destruct (C) as [f' fn' k a an D' F' A _ _|k l D' _ _]; [|congruence].
        assert (f' = f) as -> by congruence. assert (fn' = fn) as -> by congruence. exists k, a. split; [now apply (in_args _ _ _ _ F KF)|split; auto].
    + intros k a I. apply (in_args _ _ _ _ F KF) in I. eapply check_arg_spec; eauto.
  - eapply spec_iff; [|apply (spec_each2 _ _ _ _ (fun k l => U_arg n k))].
    + intros e i. split.
      * intros (k & a & _ & U). exists n, k. auto.
      * intros (n' & k & E' & _ & U). assert (n' = n) as -> by congruence. destruct U as [C U]. destruct (C) as [f' fn' k a an D' F' A _ _|k l D' L _]; [congruence|].
        exists k, l. split; [now apply in_numbered|split; auto].
    + intros k l I. apply in_numbered in I. eapply check_lt_spec; eauto.
Qed.

(** ** Changes *)
Lemma changes_spec : forall i n, nth_error g i = Some n -> spec (changes g i) (fun e j => j = i /\ e = X_mut /\ immutable g i).
Proof.
  intros i n E. unfold changes. rewrite (xat_some _ _ _ _ E). cbn [xbind]. destruct (f_decl n) as [d|] eqn:D.
  2: { apply spec_none. intros e j (_ & _ & n' & d & dn & E' & D' & _). congruence. }
  assert (exists dn, nth_error g d = Some dn /\ ((f_kind dn = K_Arg \/ f_kind dn = K_Current) -> f_kind n = K_Item)) as (dn & ED & KI).
  { destruct (lf_decl _ FIT _ _ _ E D) as [K|K].
    - pose proof (lf_item _ FIT _ _ E K) as X. rewrite D in X. destruct X as (dn & ED & _). eauto.
    - destruct (lf_target _ FIT _ _ _ E K D) as (fn & F & KF & _). exists fn. split; auto. rewrite KF. intuition discriminate. }
  unfold fixed. rewrite (xat_some _ _ _ _ ED). cbn [xbind].
  destruct ((is_kind (f_kind dn) K_Arg || is_kind (f_kind dn) K_Current) && negb (x_mut (f_data dn))) eqn:B.
  - apply andb_true_iff in B. destruct B as [B MU]. apply orb_true_iff in B. rewrite !is_kind_spec in B. apply negb_true_iff in MU.
    destruct (f_name n) eqn:N; [|destruct (lf_named _ FIT _ _ E); [rewrite (KI B); simpl; auto|auto]]. simpl. do 2 (split; auto). exists n, d, dn. auto 10.
  - apply spec_none. intros e j (_ & _ & n' & d' & dn' & E' & D' & ED' & KD & MU). assert (n' = n) as -> by congruence. assert (d' = d) as -> by congruence. assert (dn' = dn) as -> by congruence.
    rewrite MU in B. cbn [negb] in B. rewrite andb_true_r in B. apply orb_false_iff in B. rewrite !is_kind_no in B. tauto.
Qed.
Definition U_changed (a : nat) (e : xerr) (i : nat) : Prop := exists n o r, nth_error g a = Some n /\ o <> OpAssign /\ assigns g n o i r /\ immutable g i /\ e = X_mut.
Lemma changed_spec : forall a n, nth_error g a = Some n -> spec (check_changed g a) (U_changed a).
Proof.
  intros a n E. unfold check_changed. rewrite (xat_some _ _ _ _ E). cbn [xbind].
  destruct (x_op (f_data n)) as [o|] eqn:O.
  2: { apply spec_none. intros e i (n' & o & r & E' & _ & A & _). assert (n' = n) as -> by congruence. destruct A. congruence. }
  destruct (lf_assign _ FIT _ _ _ E O) as [_ (x & r & A)]. destruct (assigns_fine _ _ _ _ _ E A) as (LI & _ & _ & (it & EI & _) & _).
  assert (o <> OpAssign -> spec (xbind (left_item g n) (fun i => changes g i)) (U_changed a)) as Y.
  { intros NO. rewrite LI. cbn [xbind]. eapply spec_iff; [|exact (changes_spec _ _ EI)]. intros e i. split.
    - intros (-> & -> & IM). exists n, o, r. auto 10.
    - intros (n' & o' & r' & E' & _ & A' & IM & ->). assert (n' = n) as -> by congruence. destruct (assigns_fun _ _ _ _ _ _ _ A A') as (_ & <- & _). auto. }
  destruct o; try (apply Y; discriminate). apply spec_none. intros e i (n' & o' & r' & E' & NO & A' & _). assert (n' = n) as -> by congruence. destruct (assigns_fun _ _ _ _ _ _ _ A A') as (<- & _). congruence.
Qed.
Definition U_mut (c : nat) (e : xerr) (i : nat) : Prop :=
  exists n a an im, nth_error g c = Some n /\ f_kind n = K_Call /\ In a (parts g K_CallArg n) /\ nth_error g a = Some an /\ x_mut (f_data an) = true /\
    nth_error (f_children an) 0 = Some i /\ nth_error g i = Some im /\ f_kind im = K_Item /\ immutable g i /\ e = X_mut.
Lemma mut_spec : forall c n, nth_error g c = Some n -> spec (check_mut g c) (U_mut c).
Proof.
  intros c n E. unfold check_mut. rewrite (xat_some _ _ _ _ E). cbn [xbind]. destruct (is_kind (f_kind n) K_Call) eqn:K; [apply is_kind_spec in K|apply is_kind_no in K].
  2: { apply spec_none. intros e i (n' & a & an & im & E' & K' & _). congruence. }
  eapply spec_iff; [|apply (spec_each _ _ (fun a e i => exists an im, nth_error g a = Some an /\ x_mut (f_data an) = true /\
    nth_error (f_children an) 0 = Some i /\ nth_error g i = Some im /\ f_kind im = K_Item /\ immutable g i /\ e = X_mut))].
  - intros e i. rewrite <- (lf_call _ FIT _ _ E K). split.
    + intros (a & I & an & im & H). exists n, a, an, im. auto.
    + intros (n' & a & an & im & E' & _ & I & H). assert (n' = n) as -> by congruence. exists a. split; auto. exists an, im. exact H.
  - intros a I. destruct (call_kind _ _ _ E K I) as (an & EA & KA & OA). rewrite (xat_some _ _ _ _ EA). cbn [xbind]. rewrite KA. cbn [is_kind kind_eq_dec andb]. rewrite is_kind_refl. cbn [andb].
    destruct (x_mut (f_data an)) eqn:MU.
    2: { apply spec_none. intros e i (an' & im & EA' & MU' & _). congruence. }
    unfold reference. rewrite (xat_some _ _ _ _ EA). cbn [xbind]. rewrite KA. change (is_kind K_CallArg K_Item) with false. cbn iota.
    destruct (f_children an) as [|x xs] eqn:CX.
    { apply spec_none. intros e i (an' & im & EA' & _ & C & _). assert (an' = an) as -> by congruence. rewrite CX in C. discriminate. }
    destruct (to_child _ (lf_tree _ FIT) _ _ x EA) as (xn & EX & _); [rewrite CX; now left|]. rewrite (xat_some _ _ _ _ EX). cbn [xbind].
    destruct (is_kind (f_kind xn) K_Item) eqn:KX; [apply is_kind_spec in KX|apply is_kind_no in KX].
    + cbn [xbind]. eapply spec_iff; [|exact (changes_spec _ _ EX)]. intros e i. split.
      * intros (-> & -> & IM). exists an, xn. rewrite CX. auto 10.
      * intros (an' & im & EA' & _ & C & _ & _ & IM & ->). assert (an' = an) as -> by congruence. rewrite CX in C. injection C as ->. auto.
    + cbn [xbind]. apply spec_none. intros e i (an' & im & EA' & _ & C & EI & KI & _). assert (an' = an) as -> by congruence. rewrite CX in C. injection C as ->. congruence.
Qed.

(** ** All checks of values *)
Definition not_sig (e : xerr) : Prop := forall s, e <> X_signature s.
Lemma values_spec : spec (check_values fuel g m) (fun e i => unsafe g e i /\ not_sig e).
Proof.
  assert (forall U (f : nat -> xres unit), (forall a n, nth_error g a = Some n -> spec (f a) (U a)) -> (forall a e i, U a e i -> exists n, nth_error g a = Some n) ->
    spec (xeach f (seq 0 (length g))) (fun e i => exists a, U a e i)) as ALL by (intros; now apply spec_all).
  unfold check_values. eapply spec_iff.
  2: { repeat (eapply spec_then).
       - apply (ALL _ _ set_spec). intros a e i (n & x & r & H & _). eauto.
       - apply (ALL _ _ let_spec). intros a e i (n & x & it & r & H & _). eauto.
       - apply (ALL _ _ put_spec). intros a e i (n & x & it & j & r & H & _). eauto.
       - apply (ALL _ _ return_spec). intros a e i (n & r & H & _). eauto.
       - apply (ALL _ _ math_spec). intros a e i (n & H & _). eauto.
       - apply (ALL _ _ void_spec). intros a e i (n & an & H & _). eauto.
       - apply (ALL _ _ end_spec). intros a e i (n & p & H & _). eauto.
       - apply (ALL _ _ call_spec). intros a e i (n & x & H & _). eauto.
       - apply (ALL _ _ go_spec). intros a e i (n & k & H & _). eauto.
       - apply (ALL _ _ constraints_spec). intros a e i (n & k & H & _). eauto.
       - apply (ALL _ _ changed_spec). intros a e i (n & o & r & H & _). eauto.
       - apply (ALL _ _ mut_spec). intros a e i (n & x & an & im & H & _). eauto. }
  assert (forall L r e i, place g r L -> bad_value L r e i -> unsafe g e i /\ not_sig e) as BV.
  { intros L r e i P (-> & (c & ->) & N). split; [eapply Us_value; eauto|intros s; discriminate]. }
  intros e i. split.
  - intros H. repeat destruct H as [H|H]; destruct H as [a H].
    + destruct H as (n & x & r & E & A & B). eapply BV; [exact (Pl_set g a n x r E A)|exact B].
    + destruct H as (n & x & it & r & E & A & EI & W & B). eapply BV; [exact (Pl_let g a n x it r E A EI W)|exact B].
    + destruct H as (n & x & it & j & r & E & A & EI & W & D & B). eapply BV; [exact (Pl_put g a n x it j r E A EI W D)|exact B].
    + destruct H as (n & r & E & K & C & B). eapply BV; [exact (Pl_return g a n r E K C)|exact B].
    + destruct H as (n & E & [K P] & B). eapply BV; [exact (Pl_math g a n E K P)|exact B].
    + destruct H as (n & an & E & K & T & I & EA & L & ->). split; [exact (Us_void g a n i an E K T I EA L)|intros s; discriminate].
    + destruct H as (n & p & E & EB & CE & B). eapply BV; [exact (Pl_end g p a n E EB CE)|exact B].
    + destruct H as (n & x & E & K & I & B). eapply BV; [exact (Pl_arg g a n x E K I)|exact B].
    + destruct H as (n & k & E & K & (p & pn & P & EP & KP) & C & GV & ->). split; [exact (Us_go g a n p pn k i E K P EP KP C GV)|intros s; discriminate].
    + destruct H as (n & k & E & K & C & GV & [[-> N]|(k' & ch' & MO & GV' & B)]); [split; [exact (Us_reference g a n k i E K C GV N)|intros s; discriminate]|]. eapply BV; [exact (Pl_outlives g a n k k' i ch' E K MO GV GV')|exact B].
    + destruct H as (n & o & r & E & NO & A & IM & ->). split; [|intros s; discriminate]. apply Us_mut; auto. destruct A as (O & l & ln & C0 & EL & CI & _). exact (Ch_assign g i a n o l ln E O NO C0 EL CI).
    + destruct H as (n & x & an & im & E & K & I & EA & MU & C & EI & KI & IM & ->). split; [|intros s; discriminate]. apply Us_mut; auto. exact (Ch_given g i a n x an im E K I EA MU C EI KI).
  - intros [U NS]. destruct U as [s B|c r L P N|f fn a an E K T I EA L|c n p pn k ch E K P EP KP C GV|c n k ch E K C GV N|j CH IM].
    + destruct (NS s eq_refl).
    + destruct P as [a n x r E A|a n x it r E A EI W|a n x it j r E A EI W D|a n r E K C|a n E K P|p a n E EB CE|a n x E K I|a n k k' ch ch' E K MO GV GV'].
      * left. exists a, n, x, r. split; auto. split; auto. split; eauto.
      * right. left. exists a, n, x, it, r. do 4 (split; auto). split; eauto.
      * right. right. left. exists a, n, x, it, j, r. do 5 (split; auto). split; eauto.
      * do 3 right. left. exists a, n, r. do 3 (split; auto). split; eauto.
      * do 4 right. left. exists a, n. split; auto. split; [split; auto|]. split; eauto.
      * do 6 right. left. exists a, n, p. do 3 (split; auto). split; eauto.
      * do 7 right. left. exists a, n, x. do 3 (split; auto). split; eauto.
      * do 9 right. left. exists a, n, k. do 2 (split; auto). split; [|split; [auto|right; exists k', ch'; do 2 (split; auto); split; eauto]].
        destruct MO as [f fn k a0 an x k' a' D F A EA L NR A' Na|k k' D L]; [eapply Co_function; eauto; congruence|eapply Co_outside; eauto; discriminate].
    + do 5 right. left. exists f, fn, an. auto 10.
    + do 8 right. left. exists c, n, k. do 2 (split; auto). split; [exists p, pn; auto|auto].
    + do 9 right. left. exists c, n, k. do 2 (split; auto). split; auto.
    + destruct CH as [a n o l ln E O NO C0 EL CI|c n a an im E K I EA MU C EI KI].
      * do 10 right. left. destruct (lf_assign _ FIT _ _ _ E O) as [_ (x & r & A)]. exists a, n, o, r. do 2 (split; auto). split; auto.
        destruct A as (_ & l' & ln' & C0' & EL' & CI' & C1). split; auto. exists l, ln. do 3 (split; auto). 
      * do 11 right. exists c, n, a, an, im. auto 10.
Qed.

(** ** The checks end *)
Section Ends.
Variable F : nat.
Hypothesis HA : forall a n, nth_error g a = Some n -> f_kind n = K_Arg -> exists b l, leads g a b l /\ length l < F.
Hypothesis HL : forall c n l k, nth_error g c = Some n -> f_kind n = K_Call -> f_decl n = None -> In l (f_lts n) -> F <= k -> lt_returns k (f_lts n) l <> None.
Lemma arg_ends : forall k a n, nth_error g a = Some n -> f_kind n = K_Arg -> F <= k -> arg_lifetime k a (as_node n) nodes m <> LOof.
Proof. intros k a n E K L. destruct (HA a n E K) as (b & l & LE & LT). rewrite (arg_lifetime_ok a n b l k E LE) by lia. discriminate. Qed.
Lemma children_end : forall k rec self cs q min, (forall c cn, In c cs -> nth_error g c = Some cn -> rec (as_node cn) <> LOof) ->
  (forall q, call_arg_counts k nodes m self q <> inl LOof) -> children_lifetime k rec nodes m self cs q min <> LOof.
Proof.
  intros k rec self cs. induction cs as [|c cs IH]; intros q min H1 H2; cbn [children_lifetime]; [destruct min; discriminate|].
  unfold nodes at 1. rewrite nth_as. destruct (nth_error g c) as [cn|] eqn:E; cbn [option_map]; [|discriminate].
  assert (forall q min, children_lifetime k rec nodes m self cs q min <> LOof) as IH' by (intros; apply IH; auto; intros x xn I; apply H1; now right).
  pose proof (H1 c cn (or_introl eq_refl) E) as R.
  assert (forall q, match rec (as_node cn) with LOk l => match join min l with None => LUnify | Some min => children_lifetime k rec nodes m self cs q min end
    | LNone => children_lifetime k rec nodes m self cs q min | r => r end <> LOof) as LOOK.
  { intros q'. destruct (rec (as_node cn)); auto; try discriminate. destruct (join min l); [auto|discriminate]. }
  destruct (child_counts (n_kind self) (n_kind (as_node cn))); auto; [|discriminate]. specialize (H2 q). destruct (call_arg_counts k nodes m self q) as [r|[|]]; auto. congruence.
Qed.
Lemma counts_end : forall k n q, F <= k -> call_arg_counts k nodes m n q <> inl LOof.
Proof.
  intros k n q L. unfold call_arg_counts. destruct (n_decl n) as [d|]; [|discriminate]. destruct (nth_error nodes d) as [f|]; [|discriminate].
  destruct (nth_error (arg_children nodes f) q) as [a|] eqn:A; [|discriminate]. apply nth_error_In in A. unfold arg_children in A. apply filter_In in A. destruct A as [_ A].
  destruct (nth_error nodes a) as [an|] eqn:EA; [|discriminate]. apply is_kind_spec in A. unfold nodes in EA. rewrite nth_as in EA. destruct (nth_error g a) as [n0|] eqn:E; [|discriminate]. injection EA as <-.
  pose proof (arg_ends k a n0 E A L) as X. destruct (arg_lifetime k a (as_node n0) nodes m) as [[| | |]| | | |]; try discriminate. congruence.
Qed.
Lemma static_ends : forall k lts rest, (forall l, In l rest -> lt_returns k lts l <> None) -> returns_static k lts rest <> None.
Proof.
  intros k lts. induction rest as [|l rest IH]; intros H; cbn [returns_static]; [discriminate|]. pose proof (H l (or_introl eq_refl)) as X.
  destruct (lt_returns k lts l) as [[[|]|]|]; try discriminate; [|congruence]. apply IH. intros l' I. apply H. now right.
Qed.
Lemma node_ends : forall d i n k, nth_error g i = Some n -> length g - i <= d -> F + d <= k -> node_lifetime k nodes m (as_node n) <> LOof.
Proof.
  induction d as [|d IH]; intros i n k E D K; assert (i < length g) as LT by (apply nth_error_Some; congruence); [lia|].
  destruct k as [|k]; [lia|]. cbn [node_lifetime].
  assert (children_lifetime k (node_lifetime k nodes m) nodes m (as_node n) (n_children (as_node n)) 0 None <> LOof) as REST.
  { apply children_end; [|intros q; apply counts_end; lia]. intros c cn I EC. destruct (to_child _ (lf_tree _ FIT) _ _ _ E I) as (cn' & EC' & P). assert (cn' = cn) as -> by congruence.
    pose proof (io_parent _ (lf_order _ FIT) _ _ _ EC P). apply (IH c cn); auto; lia. }
  destruct (negb (has_lifetime (as_node n))); [discriminate|]. cbn [n_decl as_node n_kind n_lts]. destruct (f_decl n) as [d'|] eqn:DN.
  - destruct (is_kind (f_kind n) K_Item); auto. unfold nodes at 1. rewrite nth_as. destruct (nth_error g d') as [dn|] eqn:ED; cbn [option_map]; [|discriminate]. cbn [n_kind as_node].
    destruct (is_kind (f_kind dn) K_Arg) eqn:KA; [apply is_kind_spec in KA; apply arg_ends; auto; lia|]. destruct (is_kind (f_kind dn) K_Current); discriminate.
  - destruct (is_kind (f_kind n) K_Call && negb (length (f_lts n) =? 0)) eqn:KC.
    + apply andb_true_iff in KC. destruct KC as [KC _]. apply is_kind_spec in KC. assert (returns_static k (f_lts n) (f_lts n) <> None) as X by (apply static_ends; intros l I; eapply HL; eauto; lia).
      destruct (returns_static k (f_lts n) (f_lts n)) as [[[|]|]|]; auto; try discriminate; congruence.
    + destruct (is_kind (f_kind n) K_Item && match n_name (as_node n) with Some x => (x =? "return")%string | None => false end); [discriminate|auto].
Qed.
Hypothesis HF : F + length g <= fuel.
Lemma xbind_ends : forall A B (x : xres A) (f : A -> xres B), x <> XOof -> (forall a, x = XOk a -> f a <> XOof) -> xbind x f <> XOof.
Proof. intros A B [a|e i| |] f H1 H2; simpl; auto; discriminate. Qed.
Lemma xat_ends : forall A (l : list A) i, xat l i <> XOof.
Proof. intros A l i. unfold xat. destruct (nth_error l i); discriminate. Qed.
Lemma xeach_ends : forall f l, (forall a, f a <> XOof) -> xeach f l <> XOof.
Proof. intros f l H. induction l as [|a l IH]; cbn [xeach]; [discriminate|]. apply xbind_ends; auto. Qed.
Lemma xeach2_ends : forall A B (f : A -> B -> xres unit) l, (forall a b, In (a, b) l -> f a b <> XOof) -> xeach2 f l <> XOof.
Proof. intros A B f l H. induction l as [|[a b] l IH]; cbn [xeach2]; [discriminate|]. apply xbind_ends; [apply H; now left|]. intros _ _. apply IH. intros x y I. apply H. now right. Qed.
Lemma life_ends : forall i, life fuel g m i <> XOof.
Proof.
  intros i. unfold life, xat. destruct (nth_error g i) as [n|] eqn:E; cbn [xbind]; [|discriminate]. fold nodes. pose proof (node_ends (length g - i) i n fuel E (le_n _) ltac:(lia)) as X.
  destruct (node_lifetime fuel nodes m (as_node n)); try discriminate. congruence.
Qed.
Lemma compare_ends : forall l r i, compare_at g l r i <> XOof.
Proof. intros l r i. unfold compare_at. destruct (compare_lifetimes l r (as_nodes g)); discriminate. Qed.
Lemma find_ends : forall k l, xnres (find_kind g k l) <> XOof.
Proof.
  intros k l. induction l as [|c l IH]; cbn [find_kind]; [discriminate|]. unfold at_. destruct (nth_error g c) as [n|]; cbn [nbind]; [|discriminate]. destruct (is_kind (f_kind n) k); [discriminate|auto].
Qed.
Lemma count_ends : forall p l, xnres (count_kind g p l) <> XOof.
Proof.
  intros p l. induction l as [|c l IH]; cbn [count_kind]; [discriminate|]. unfold at_. destruct (nth_error g c) as [n|]; cbn [nbind]; [|discriminate]. destruct (count_kind g p l); cbn [nbind xnres] in *; congruence.
Qed.
Lemma reaches_ends : forall d i k, length g - i <= d -> d < k -> reaches_item g k i <> XOof.
Proof.
  induction d as [|d IH]; intros i k D K; (destruct k as [|k]; [lia|]); cbn [reaches_item]; unfold xat; (destruct (nth_error g i) as [n|] eqn:E; cbn [xbind]; [|discriminate]);
    assert (i < length g) as LT by (apply nth_error_Some; congruence); [lia|].
  assert (match f_children n with [] => XOk false | c :: _ => reaches_item g k c end <> XOof) as REST.
  { destruct (f_children n) as [|c cs] eqn:C; [discriminate|]. destruct (to_child _ (lf_tree _ FIT) _ _ c E) as (cn & EC & P); [rewrite C; now left|].
    pose proof (io_parent _ (lf_order _ FIT) _ _ _ EC P). apply IH; lia. }
  destruct (f_kind n); auto; discriminate.
Qed.
Lemma call_arg_ends : forall cs i j new, call_arg_from g cs i j new <> XOof.
Proof.
  induction cs as [|c cs IH]; intros i j new; cbn [call_arg_from]; [discriminate|]. apply xbind_ends; [apply xat_ends|]. intros n _. apply xbind_ends; [apply find_ends|]. intros sw _.
  apply xbind_ends; [destruct sw; [apply xbind_ends; [apply xat_ends|intros; apply count_ends]|discriminate]|]. intros w _. destruct (i <? j + w); [discriminate|auto].
Qed.
Lemma values_end : 0 < F -> check_values fuel g m <> XOof.
Proof.
  intros F0. pose proof life_ends as LE. pose proof compare_ends as CE.
  assert (forall l i, good_for fuel g m l i <> XOof) as GF by (intros l i; unfold good_for; apply xbind_ends; auto).
  assert (forall n, left_item g n <> XOof) as LI by (intros n; unfold left_item; apply xbind_ends; [apply xat_ends|]; intros; apply xbind_ends; [apply xat_ends|]; intros; apply xat_ends).
  assert (forall n, is_let g n <> XOof) as IL.
  { intros n. unfold is_let. destruct (x_op (f_data n)) as [[]|]; try discriminate. destruct (f_children n); [discriminate|]. apply xbind_ends; [apply xat_ends|discriminate]. }
  assert (forall n i e, fail_at g n i e <> XOof) as FA by (intros n i e; unfold fail_at; apply xbind_ends; [apply xat_ends|]; intros; apply xbind_ends; [apply xat_ends|discriminate]).
  assert (forall n l r, compare_args fuel g m n l r <> XOof) as CA.
  { intros n l r. unfold compare_args. apply xbind_ends; [apply xat_ends|]. intros. apply xbind_ends; [apply xat_ends|]. intros. apply xbind_ends; auto. intros. apply xbind_ends; auto. }
  assert (forall n i, is_reference fuel g n i <> XOof) as RE by (intros n i; unfold is_reference; apply xbind_ends; [apply xat_ends|]; intros c _; apply (reaches_ends (length g - c)); lia).
  assert (forall i, changes g i <> XOof) as CH.
  { intros i. unfold changes. apply xbind_ends; [apply xat_ends|]. intros n _. destruct (f_decl n); [|discriminate]. unfold fixed. apply xbind_ends; [apply xbind_ends; [apply xat_ends|discriminate]|].
    intros b _. destruct b; [destruct (f_name n); discriminate|discriminate]. }
  unfold check_values. repeat (apply xbind_ends; [apply xeach_ends; intros a|intros _ _]); [..|apply xeach_ends; intros a].
  - unfold check_set. apply xbind_ends; [apply xat_ends|]. intros n _. destruct (x_op (f_data n)) as [[]|]; try discriminate. apply xbind_ends; auto. intros. apply xbind_ends; [apply xat_ends|]. intros. apply xbind_ends; auto. intros. apply xbind_ends; auto.
  - unfold check_let. apply xbind_ends; [apply xat_ends|]. intros n _. apply xbind_ends; auto. intros [|] _; [|discriminate]. apply xbind_ends; auto. intros i _. apply xbind_ends; [apply xat_ends|]. intros it _. destruct (f_item_ids it); [discriminate|]. apply xbind_ends; [apply xat_ends|auto].
  - unfold check_put. apply xbind_ends; [apply xat_ends|]. intros n _. apply xbind_ends; auto. intros [|] _; [|discriminate]. apply xbind_ends; auto. intros i _. apply xbind_ends; [apply xat_ends|]. intros it _. destruct (f_item_ids it); [|discriminate]. destruct (f_decl it); [|discriminate]. apply xbind_ends; [apply xat_ends|auto].
  - unfold check_return. apply xbind_ends; [apply xat_ends|]. intros n _. destruct (is_kind (f_kind n) K_Return); [|discriminate]. apply xbind_ends; [apply xat_ends|auto].
  - unfold check_math. apply xbind_ends; [apply xat_ends|]. intros n _. apply xbind_ends; [|intros [|] _; [auto|discriminate]]. unfold is_math. destruct (is_kind (f_kind n) K_Expr); [|discriminate]. destruct (f_parent n); [|discriminate]. apply xbind_ends; [apply xat_ends|discriminate].
  - unfold check_void. apply xbind_ends; [apply xat_ends|]. intros n _. destruct (is_kind (f_kind n) K_Fn); [|discriminate]. destruct (x_ty (f_data n)) as [[]|]; try discriminate. apply xeach_ends. intros j. apply xbind_ends; [apply xat_ends|].
    intros an _. destruct (x_lifetime (f_data an)) as [l|]; [|discriminate]. destruct (l =? "return")%string; [|discriminate]. destruct (f_name an); discriminate.
  - unfold check_end. apply xbind_ends; [apply xat_ends|]. intros n _. apply xbind_ends.
    + unfold is_end. apply xbind_ends; [destruct (is_kind (f_kind n) K_Expr); [|discriminate]; destruct (f_children n) as [|c [|c' cs]]; try discriminate; apply xbind_ends; [apply xat_ends|discriminate]|].
      intros [|] _; [|discriminate]. destruct (f_parent n); [|discriminate]. apply xbind_ends; [apply xat_ends|]. intros pn _. destruct (is_block (f_kind pn)); [|discriminate]. destruct (f_children pn); discriminate.
    + intros [|] _; [|discriminate]. destruct (f_parent n); [auto|discriminate].
  - unfold check_call. apply xbind_ends; [apply xat_ends|]. intros n _. destruct (is_kind (f_kind n) K_Call); [|discriminate]. apply xeach_ends. intros x. apply xbind_ends; [apply xat_ends|]. intros xn _. destruct (is_kind (f_kind xn) K_CallArg); [auto|discriminate].
  - unfold check_go. apply xbind_ends; [apply xat_ends|]. intros n _. destruct (is_kind (f_kind n) K_Call); [|discriminate]. destruct (f_parent n); [|discriminate]. apply xbind_ends; [apply xat_ends|]. intros pn _. destruct (is_kind (f_kind pn) K_Go); [|discriminate].
    destruct (f_decl n).
    + apply xbind_ends; [apply xat_ends|]. intros f _. apply xeach2_ends. intros i x _. apply xbind_ends; [apply xat_ends|]. intros xn _. destruct (x_lifetime (f_data xn)); [auto|discriminate].
    + apply xeach2_ends. intros [i l] x _. cbn [fst snd]. destruct l; auto; discriminate.
  - unfold check_constraints. apply xbind_ends; [apply xat_ends|]. intros n EN. destruct (is_kind (f_kind n) K_Call) eqn:KC; [|discriminate]. destruct (f_decl n) as [f|] eqn:DF.
    + apply xbind_ends; [apply xat_ends|]. intros fn _. apply xeach2_ends. intros i x IX. unfold check_arg. apply xbind_ends; [apply call_arg_ends|]. intros q _. apply xbind_ends; [apply xat_ends|]. intros xn EX.
      destruct (x_lifetime (f_data xn)) as [l|]; [|discriminate]. apply xbind_ends.
      * unfold xat in EX. destruct (nth_error g x) as [xn'|] eqn:E; [|discriminate]. injection EX as ->.
        assert (f_kind xn = K_Arg) as KX by (unfold numbered_args in IX; apply filter_In in IX; destruct IX as [_ IX]; cbn [snd] in IX; rewrite E in IX; now apply is_kind_spec in IX).
        assert (F <= fuel) as FF by lia. pose proof (arg_ends fuel x xn E KX FF) as X. fold nodes. destruct (arg_lifetime fuel x (as_node xn) nodes m) as [[| | |]| | | |]; try discriminate; try congruence; apply xbind_ends; auto; intros [|] _; auto; discriminate.
      * intros _ _. destruct (l =? "return")%string; [discriminate|]. destruct (arg_get m f l) as [[x1 ind]|]; [auto|discriminate].
    + apply xeach2_ends. intros i l _. unfold check_lt. apply xbind_ends; [apply call_arg_ends|]. intros q _. apply xbind_ends; [apply xat_ends|]. intros ch _. apply xbind_ends; [apply xat_ends|]. intros _ _.
      destruct l; try discriminate; apply xbind_ends; auto; intros [|] _; auto; discriminate.
  - unfold check_changed. apply xbind_ends; [apply xat_ends|]. intros n _. destruct (x_op (f_data n)) as [[]|]; try discriminate; apply xbind_ends; auto.
  - unfold check_mut. apply xbind_ends; [apply xat_ends|]. intros n _. destruct (is_kind (f_kind n) K_Call); [|discriminate]. apply xeach_ends. intros x. apply xbind_ends; [apply xat_ends|]. intros xn _.
    destruct (is_kind (f_kind xn) K_CallArg && x_mut (f_data xn)); [|discriminate]. apply xbind_ends; [|intros [i|] _; [auto|discriminate]].
    unfold reference. apply xbind_ends; [apply xat_ends|]. intros y _. destruct (is_kind (f_kind y) K_Item); [discriminate|]. destruct (f_children y) as [|z zs]; [discriminate|]. apply xbind_ends; [apply xat_ends|]. intros w _. destruct (is_kind (f_kind w) K_Item); discriminate.
Qed.
End Ends.
End Lives.

(** ** The whole check *)
Section Whole.
Variable g : fgraph.
Hypothesis FIT : lives_fit g.
Let fs := of_kind g (fun k => is_kind k K_Fn).
Lemma fn_has_sig : forall f n, nth_error g f = Some n -> f_kind n = K_Fn -> exists s, fn_sig (as_nodes g) f (parts g K_Arg n) s.
Proof.
  intros f n E K.
  assert (forall l, (forall a, In a l -> In a (parts g K_Arg n)) -> exists s, has_sig (as_nodes g) f l s) as H.
  { induction l as [|a l IH]; intros H; [exists []; constructor|]. destruct IH as [s S]; [intros b B; apply H; now right|].
    destruct (part_child _ _ _ _ (H a (or_introl eq_refl))) as (C & an & EA & KA). destruct (to_child _ (lf_tree _ FIT) _ _ _ E C) as (an' & EA' & P). assert (an' = an) as -> by congruence.
    destruct (f_name an) as [x|] eqn:N; [|destruct (lf_named _ FIT _ _ EA); [rewrite KA; simpl; auto|auto]].
    exists ((x, x_lifetime (f_data an)) :: s). constructor; auto. exists (as_node an). rewrite nth_as, EA. cbn [option_map fst snd]. auto 10. }
  destruct (H (parts g K_Arg n) (fun a I => I)) as [s S]. exists s, (as_node n). rewrite nth_as, E. split; auto. split; [apply as_arg_children|auto].
Qed.
Lemma fn_sig_parts : forall f args s, fn_sig (as_nodes g) f args s -> exists n, nth_error g f = Some n /\ args = parts g K_Arg n.
Proof.
  intros f args s (n & E & A & _). rewrite nth_as in E. destruct (nth_error g f) as [fn|]; [|discriminate]. injection E as <-. rewrite as_arg_children in A. eauto.
Qed.
Lemma sig_names : forall f args s j x l, has_sig (as_nodes g) f args s -> nth_error s j = Some (x, l) ->
  exists a n, nth_error args j = Some a /\ nth_error g a = Some n /\ f_kind n = K_Arg /\ f_name n = Some x /\ x_lifetime (f_data n) = l.
Proof.
  intros f args s j x l H N. destruct (F2_nth2 _ _ _ _ _ H _ _ N) as (a & A & n & E & K & P & X & L). rewrite nth_as in E. destruct (nth_error g a) as [fn|] eqn:EA; [|discriminate]. injection E as <-. exists a, fn. auto 10.
Qed.
Lemma fits_names : forall f args s, In f fs -> fn_sig (as_nodes g) f args s -> good_names s.
Proof.
  intros f args s I S. apply fn_kinds in I. destruct I as (n & E & K). destruct (fn_sig_parts _ _ _ S) as (n' & E' & ->). assert (n' = n) as -> by congruence. destruct S as (fn & _ & _ & HS).
  unfold good_names. apply NoDup_nth_error. intros i j LT Q. rewrite map_length in LT. rewrite !nth_error_map in Q.
  destruct (nth_error s i) as [[x l]|] eqn:SI; [|apply nth_error_None in SI; lia]. destruct (nth_error s j) as [[x' l']|] eqn:SJ; [|discriminate]. injection Q as <-.
  destruct (sig_names _ _ _ _ _ _ HS SI) as (a & an & A & EA & _ & NA & _). destruct (sig_names _ _ _ _ _ _ HS SJ) as (b & bn & B & EB & _ & NB & _).
  assert (a = b) as -> by (apply (lf_distinct _ FIT f n a b x E K (nth_error_In _ _ A) (nth_error_In _ _ B)); eexists; eauto).
  apply (proj1 (NoDup_nth_error (parts g K_Arg n)) (NoDup_filter _ (to_nodup _ (lf_tree _ FIT) _ _ E))); [apply nth_error_Some; congruence|congruence].
Qed.
Lemma fits_sigs : all_sigs (as_nodes g) fs.
Proof. intros f I. apply fn_kinds in I. destruct I as (n & E & K). destruct (fn_has_sig f n E K) as [s S]. eauto. Qed.
Lemma few_args : forall f args s, fn_sig (as_nodes g) f args s -> length args <= length g.
Proof.
  intros f args s S. destruct (fn_sig_parts _ _ _ S) as (n & E & ->). rewrite <- (seq_length (length g) 0). apply NoDup_incl_length.
  - apply NoDup_filter. eapply (to_nodup _ (lf_tree _ FIT)); eauto.
  - intros a I. destruct (part_child _ _ _ _ I) as (_ & an & EA & _). apply in_seq. assert (a < length g) by (apply nth_error_Some; congruence). lia.
Qed.
Lemma bad_iff : bad_signature g <-> exists f args s, In f fs /\ fn_sig (as_nodes g) f args s /\ ~ good_sig s.
Proof.
  split.
  - intros (f & fn & args & s & E & K & S & B). exists f, args, s. split; [apply fn_kinds; eauto|auto].
  - intros (f & args & s & I & S & B). apply fn_kinds in I. destruct I as (n & E & K). exists f, n, args, s. auto.
Qed.
Lemma known : forall fuel m, arg_fns fuel (as_nodes g) fs [] = AOk m ->
  (forall f x a j, arg_get m f x = Some (a, j) <-> exists fn, nth_error g f = Some fn /\ f_kind fn = K_Fn /\ nth_error (parts g K_Arg fn) j = Some a /\ has_name g a x) /\
  (forall a n x p, nth_error g a = Some n -> f_kind n = K_Arg -> x_lifetime (f_data n) = Some x -> x <> "return" -> f_parent n = Some p -> exists a', arg_named g p x a').
Proof.
  intros fuel m A. destruct (arg_fns_sound (as_nodes g) fuel fs [] m (of_kind_nodup _ _) fits_sigs fits_names (fun f x _ => eq_refl) A) as [S O]. split.
  - intros f x a j. destruct (in_dec Nat.eq_dec f fs) as [I|NI].
    + pose proof I as I2. apply fn_kinds in I2. destruct I2 as (n & E & K). destruct (fn_has_sig f n E K) as [s FS]. destruct (S _ _ _ I FS) as [KN _]. rewrite (KN x a j). destruct FS as (fn & _ & _ & HS). split.
      * intros [N (l & L)]. exists n. do 2 (split; auto). split; auto. destruct (sig_names _ _ _ _ _ _ HS L) as (a' & an & A' & EA & _ & NA & _). assert (a' = a) as -> by congruence. exists an. auto.
      * intros (n' & E' & _ & N & HN). assert (n' = n) as -> by congruence. split; auto. destruct (F2_nth _ _ _ _ _ HS _ _ N) as ([y l] & L & an & EA & _ & _ & NY & _). exists l. rewrite L.
        destruct HN as (an' & EA' & NA). rewrite nth_as, EA' in EA. injection EA as <-. change (f_name an' = Some (fst (y, l))) in NY.
        cbn [fst] in NY. congruence.
    + rewrite (O f x NI). cbn. split; [discriminate|]. intros (n & E & K & _). destruct NI. apply fn_kinds. eauto.
  - intros a n x p E K L NR P. destruct (to_parent _ (lf_tree _ FIT) _ _ _ E P) as (pn & EP & IP). assert (f_kind pn = K_Fn) as KP by (apply (lf_arg _ FIT a n p pn); auto; congruence).
    destruct (fn_has_sig p pn EP KP) as [s FS]. assert (In p fs) as IF by (apply fn_kinds; eauto). destruct (S _ _ _ IF FS) as (_ & GL & _). destruct FS as (fn & _ & _ & HS).
    assert (In a (parts g K_Arg pn)) as IA by (eapply child_part; eauto). apply In_nth_error in IA. destruct IA as [j J]. destruct (F2_nth _ _ _ _ _ HS _ _ J) as ([y l] & SJ & an & EA & _ & _ & NY & LY).
    rewrite nth_as, E in EA. injection EA as <-. cbn [snd] in LY. change (x_lifetime (f_data n) = l) in LY. rewrite L in LY. subst l. pose proof (GL _ _ _ SJ NR) as IX. apply in_map_iff in IX. destruct IX as ([x' l'] & Q & IX). cbn [fst] in Q. subst x'.
    apply In_nth_error in IX. destruct IX as [k SK]. destruct (sig_names _ _ _ _ _ _ HS SK) as (a' & an' & A' & EA' & _ & NA & _). exists a', pn. do 2 (split; auto). split; [eapply nth_error_In; eauto|exists an'; auto].
Qed.
Lemma lives_spec : forall fuel, length g < fuel -> spec g (check_lives fuel g) (unsafe g).
Proof.
  intros fuel LT. unfold check_lives. fold fs.
  destruct (arg_fns_decides (as_nodes g) fuel fs [] (of_kind_nodup _ _) fits_sigs fits_names (fun f x _ => eq_refl)) as [[[m A] G]|[[e A] B]].
  - intros f args s I S. pose proof (few_args _ _ _ S). lia.
  - rewrite A. destruct (known _ _ A) as [M KN]. eapply spec_iff; [|exact (values_spec g m FIT M KN fuel)]. intros e i. split; [tauto|]. intros U. split; auto. intros s ->. inversion U as [e0 BS| | | | |]; subst.
    apply bad_iff in BS. destruct BS as (f & args & s0 & I & S & X). apply X. eauto.
  - rewrite A. simpl. apply Us_signature. now apply bad_iff.
Qed.
(** enough fuel for a file *)
Lemma lt_end : forall l x, lt_ends l x -> exists F, forall k, F <= k -> lt_returns k l x <> None.
Proof.
  intros l x H. induction H as [| |x y N H [F IH]].
  - exists 1. intros [|k] K; [lia|discriminate].
  - exists 1. intros [|k] K; [lia|discriminate].
  - exists (S F). intros [|k] K; [lia|]. cbn [lt_returns]. rewrite N. apply IH. lia.
Qed.
Lemma uniform : forall (Q : nat -> nat -> Prop) N, (forall i, i < N -> exists F, forall k, F <= k -> Q i k) -> exists F, forall i k, i < N -> F <= k -> Q i k.
Proof.
  intros Q. induction N as [|N IH]; intros H; [exists 0; intros; lia|]. destruct IH as [F1 H1]; [intros i I; apply H; lia|]. destruct (H N) as [F2 H2]; [lia|].
  exists (F1 + F2). intros i k I K. destruct (Nat.eq_dec i N) as [->|NE]; [apply H2; lia|apply H1; lia].
Qed.
Lemma lives_end : all_end g -> exists F, forall fuel, F <= fuel -> check_lives fuel g <> XOof.
Proof.
  intros [EA EL].
  destruct (uniform (fun a k => forall n, nth_error g a = Some n -> f_kind n = K_Arg -> exists b l, leads g a b l /\ length l < k) (length g)) as [F1 H1].
  { intros a LT. destruct (nth_error g a) as [n|] eqn:E; [|exists 0; intros k _ n X; discriminate]. destruct (kind_eq_dec (f_kind n) K_Arg) as [K|K]; [|exists 0; intros k _ n' X; injection X as <-; contradiction].
    destruct (EA a n E K) as (b & l & L). exists (S (length l)). intros k LK n' X _. exists b, l. split; auto. }
  destruct (uniform (fun c k => forall n, nth_error g c = Some n -> f_kind n = K_Call -> f_decl n = None -> forall l, In l (f_lts n) -> lt_returns k (f_lts n) l <> None) (length g)) as [F2 H2].
  { intros c LT. destruct (nth_error g c) as [n|] eqn:E; [|exists 0; intros k _ n X; discriminate]. destruct (kind_eq_dec (f_kind n) K_Call) as [K|K]; [|exists 0; intros k _ n' X; injection X as <-; contradiction].
    destruct (f_decl n) as [d|] eqn:D; [exists 0; intros k _ n' X _ Y; injection X as <-; congruence|].
    destruct (uniform (fun i k => forall l, nth_error (f_lts n) i = Some l -> lt_returns k (f_lts n) l <> None) (length (f_lts n))) as [F H].
    - intros i LI. destruct (nth_error (f_lts n) i) as [l|] eqn:L; [|exists 0; intros k _ l X; discriminate]. destruct (lt_end _ _ (EL c n l E K D (nth_error_In _ _ L))) as [F H]. exists F. intros k LK l' X. injection X as <-. auto.
    - exists F. intros k LK n' X _ _ l I. injection X as <-. apply In_nth_error in I. destruct I as [i I]. apply (H i k); auto. apply nth_error_Some. congruence. }
  exists (S (F1 + F2) + length g + 1). intros fuel LF. unfold check_lives. fold fs.
  destruct (arg_fns_decides (as_nodes g) fuel fs [] (of_kind_nodup _ _) fits_sigs fits_names (fun f x _ => eq_refl)) as [[[m A] _]|[[e A] _]].
  - intros f args s I S. pose proof (few_args _ _ _ S). lia.
  - rewrite A. destruct (known _ _ A) as [M KN]. apply (values_end g m FIT M fuel (S (F1 + F2))); try lia.
    + intros a n E K. apply (H1 a (S (F1 + F2))) with (n := n); auto; [apply nth_error_Some; congruence|lia].
    + intros c n l k E K D I LK. apply (H2 c k) with (n := n); auto; [apply nth_error_Some; congruence|lia].
  - rewrite A. discriminate.
Qed.
Lemma named_one : forall p x a a', arg_named g p x a -> arg_named g p x a' -> a = a'.
Proof. intros p x a a' (n & E & K & I & N) (n' & E' & _ & I' & N'). assert (n' = n) as -> by congruence. exact (lf_distinct _ FIT p n a a' x E K I I' N N'). Qed.
Lemma leads_one : forall a b l, leads g a b l -> forall b' l', leads g a b' l' -> b = b' /\ l = l'.
Proof.
  intros a b l H. induction H as [a n E L|a n E L|a n x p a' b l E L NR P A H IH]; intros b' l' H'; inversion H'; subst; try (split; congruence); try congruence.
  assert (n0 = n) by congruence. subst n0. assert (x0 = x) by congruence. subst x0. assert (p0 = p) by congruence. subst p0.
  assert (a'0 = a') by (eapply named_one; eauto). subst a'0. match goal with X : leads g a' b' _ |- _ => destruct (IH _ _ X) as [-> ->] end. auto.
Qed.
Lemma span_one : forall o l l', span g o l -> span g o l' -> l = l'.
Proof.
  intros o l l' H H'. inversion H; subst; inversion H'; subst; try congruence. match goal with X : leads g ?d ?b ?l, Y : leads g ?d ?b' ?l' |- _ => destruct (leads_one _ _ _ X _ _ Y) as [-> ->] end. reflexivity.
Qed.
End Whole.
