(** * Only readable trees are read back: lemmas. *)
From Coq Require Import List Arith Bool Lia.
From Verif Require Import PrintModel PrintSpec PrintProofs.
Import ListNotations.
Local Open Scope list_scope.

(** ** What the parser accepts

    The rules as a relation. A factor or product is open if it ends with a negation, which takes in the factors
    after it. *)
Inductive rule := RL | RF (b : bool) | RM (b : bool) | RA | RE.
Inductive D : rule -> list token -> tree -> Prop :=
  | DLeaf x : D RL [TLeaf x] (Leaf x)
  | DParen ts e : D RE ts e -> D RL (TOpen :: ts ++ [TClose]) e
  | DNot ts e : D RL ts e -> D RL (TNot :: ts) (Not e)
  | DL ts e : D RL ts e -> D (RF false) ts e
  | DPow a b x y : D RL a x -> D RL b y -> D (RF false) (a ++ TOp Pow :: b) (Bin Pow x y)
  | DNeg b ts e : D (RM b) ts e -> D (RF true) (TOp Sub :: ts) (Neg e)
  | DF b ts e : D (RF b) ts e -> D (RM b) ts e
  | DMul o b x y p q : precedence o = 2 -> D (RM false) x p -> D (RF b) y q -> D (RM b) (x ++ TOp o :: y) (Bin o p q)
  | DM b ts e : D (RM b) ts e -> D RA ts e
  | DAdd o b x y p q : precedence o = 1 -> D RA x p -> D (RM b) y q -> D RA (x ++ TOp o :: y) (Bin o p q)
  | DA ts e : D RA ts e -> D RE ts e
  | DCompare o x y p q : precedence o = 0 -> D RL x p -> D RE y q -> D RE (x ++ TOp o :: y) (Bin o p q).

Definition not_at (k : nat) (ts : list token) : Prop := match ts with TOp o :: _ => precedence o <> k | _ => True end.
Definition sound (d : list token -> tree -> list token -> Prop) (f : list token -> result) : Prop :=
  forall ts e rest, f ts = Some (e, rest) -> exists p, ts = p ++ rest /\ d p e rest.
Definition lex_d p e (rest : list token) := D RL p e.
Definition fac_d p e rest := exists b, D (RF b) p e /\ (b = true -> not_at 2 rest).
Definition mul_d p e rest := exists b, D (RM b) p e /\ not_at 2 rest.
Definition add_d p e (rest : list token) := D RA p e.
Definition ex_d p e (rest : list token) := D RE p e.

Lemma lexpr_sound : forall ex, sound ex_d ex -> sound lex_d (lexpr ex).
Proof.
  intros ex X ts. induction ts as [|[x|o| | |] ts IH]; intros e rest H; cbn [lexpr] in H; try discriminate.
  - injection H as <- <-. exists [TLeaf x]. split; [reflexivity|constructor].
  - destruct (lexpr ex ts) as [[a r]|] eqn:E; [|discriminate]. injection H as <- <-.
    destruct (IH _ _ eq_refl) as (p & -> & d). exists (TNot :: p). split; [reflexivity|]. constructor. exact d.
  - destruct (ex ts) as [[a [|[y|o| | |] r]]|] eqn:E; try discriminate. injection H as <- <-.
    destruct (X _ _ _ E) as (p & -> & d). exists (TOpen :: p ++ [TClose]). split; [cbn [app]; rewrite <- app_assoc; reflexivity|].
    constructor. exact d.
Qed.
Lemma factor_sound : forall ex m, sound ex_d ex -> sound mul_d m -> sound fac_d (factor ex m).
Proof.
  intros ex m X M ts e rest H.
  assert (G : forall H : match lexpr ex ts with
      | Some (a, TOp Pow :: r) => match lexpr ex r with Some (b, r) => Some (Bin Pow a b, r) | None => Some (a, TOp Pow :: r) end
      | o => o end = Some (e, rest), exists p, ts = p ++ rest /\ fac_d p e rest).
  { clear H. intros H. destruct (lexpr ex ts) as [[a r]|] eqn:E; [|discriminate].
    destruct (lexpr_sound ex X _ _ _ E) as (p & -> & d).
    assert (Simple : Some (a, r) = Some (e, rest) -> exists q, p ++ r = q ++ rest /\ fac_d q e rest).
    { intros [= -> ->]. exists p. split; auto. exists false. split; [apply DL; exact d|discriminate]. }
    destruct r as [|[y|o| | |] r]; auto. destruct o; auto.
    destruct (lexpr ex r) as [[b r']|] eqn:F; auto. injection H as <- <-.
    destruct (lexpr_sound ex X _ _ _ F) as (q & -> & d'). exists (p ++ TOp Pow :: q). split; [rewrite <- app_assoc; reflexivity|].
    exists false. split; [apply DPow; auto|discriminate]. }
  unfold factor in H. destruct ts as [|[y|o| | |] ts]; auto. destruct o; auto.
  destruct (m ts) as [[a r]|] eqn:E; [|discriminate]. injection H as <- <-. destruct (M _ _ _ E) as (p & -> & b & d & N).
  exists (TOp Sub :: p). split; [reflexivity|]. exists true. split; [eapply DNeg; exact d|auto].
Qed.
(** A sequence: what was read before ends at an operator. *)
Definition before (k : nat) (dl : list token -> tree -> Prop) (items : list tree) (ops : list binop) (acc : list token) : Prop :=
  match ops with
  | [] => items = [] /\ acc = []
  | o :: ops' => precedence o = k /\ exists l p, into_expression items ops' = Some l /\ acc = p ++ [TOp o] /\ dl p l
  end.
Lemma mul_seq : forall item n items ops ts e rest acc, sound fac_d item -> before 2 (D (RM false)) items ops acc ->
  separated item 2 n items ops ts = Some (e, rest) -> exists p, ts = p ++ rest /\ mul_d (acc ++ p) e rest.
Proof.
  intros item n. induction n as [|n IH]; intros items ops ts e rest acc S B H; [discriminate|]. cbn [separated] in H.
  destruct (item ts) as [[a r]|] eqn:E; [|discriminate]. destruct (S _ _ _ E) as (p & -> & b & d & N).
  assert (Step : exists e', into_expression (a :: items) ops = Some e' /\ D (RM b) (acc ++ p) e').
  { destruct ops as [|o ops]; cbn [before] in B.
    - destruct B as [-> ->]. exists a. split; [reflexivity|]. apply DF. exact d.
    - destruct B as (P & l & q & I & -> & dl). exists (Bin o l a). split; [apply into_more; exact I|]. rewrite <- app_assoc. cbn [app].
      apply DMul; auto. }
  destruct Step as (e' & I & d').
  assert (Stop : not_at 2 r -> Some (e', r) = Some (e, rest) -> exists p0, p ++ r = p0 ++ rest /\ mul_d (acc ++ p0) e rest).
  { intros NA [= -> ->]. exists p. split; auto. exists b. auto. }
  destruct r as [|[y|o| | |] r]; try (rewrite I in H; apply Stop; [exact Logic.I|exact H]).
  destruct (level 2 o) eqn:L.
  - apply level_eq in L. destruct b; [exfalso; apply (N eq_refl L)|].
    destruct (IH (a :: items) (o :: ops) r e rest (acc ++ p ++ [TOp o]) S) as (p' & -> & M); auto.
    + cbn [before]. split; auto. exists e', (acc ++ p). split; [exact I|]. split; [rewrite app_assoc; reflexivity|exact d'].
    + exists (p ++ TOp o :: p'). split; [rewrite <- app_assoc; reflexivity|].
      replace (acc ++ p ++ TOp o :: p') with ((acc ++ p ++ [TOp o]) ++ p'); auto. rewrite <- !app_assoc. reflexivity.
  - rewrite I in H. apply Stop; auto. cbn [not_at]. intros Q. apply level_eq in Q. congruence.
Qed.
Lemma mul_sound : forall ex, sound ex_d ex -> forall n, sound mul_d (mul ex n).
Proof.
  intros ex X n. induction n as [|n IH]; intros ts e rest H; [discriminate|]. cbn [mul] in H.
  destruct (mul_seq (factor ex (mul ex n)) (S (length ts)) [] [] ts e rest []) as (p & E & M); auto.
  - apply factor_sound; auto.
  - split; reflexivity.
  - exists p. auto.
Qed.
Lemma add_seq : forall item n items ops ts e rest acc, sound mul_d item -> before 1 (D RA) items ops acc ->
  separated item 1 n items ops ts = Some (e, rest) -> exists p, ts = p ++ rest /\ add_d (acc ++ p) e rest.
Proof.
  intros item n. induction n as [|n IH]; intros items ops ts e rest acc S B H; [discriminate|]. cbn [separated] in H.
  destruct (item ts) as [[a r]|] eqn:E; [|discriminate]. destruct (S _ _ _ E) as (p & -> & b & d & _).
  assert (Step : exists e', into_expression (a :: items) ops = Some e' /\ D RA (acc ++ p) e').
  { destruct ops as [|o ops]; cbn [before] in B.
    - destruct B as [-> ->]. exists a. split; [reflexivity|]. eapply DM. exact d.
    - destruct B as (P & l & q & I & -> & dl). exists (Bin o l a). split; [apply into_more; exact I|]. rewrite <- app_assoc. cbn [app].
      eapply DAdd; eauto. }
  destruct Step as (e' & I & d').
  assert (Stop : Some (e', r) = Some (e, rest) -> exists p0, p ++ r = p0 ++ rest /\ add_d (acc ++ p0) e rest).
  { intros [= -> ->]. exists p. split; auto. }
  destruct r as [|[y|o| | |] r]; try (rewrite I in H; apply Stop; exact H).
  destruct (level 1 o) eqn:L.
  - apply level_eq in L. destruct (IH (a :: items) (o :: ops) r e rest (acc ++ p ++ [TOp o]) S) as (p' & -> & M); auto.
    + cbn [before]. split; auto. exists e', (acc ++ p). split; [exact I|]. split; [rewrite app_assoc; reflexivity|exact d'].
    + exists (p ++ TOp o :: p'). split; [rewrite <- app_assoc; reflexivity|].
      replace (acc ++ p ++ TOp o :: p') with ((acc ++ p ++ [TOp o]) ++ p'); auto. rewrite <- !app_assoc. reflexivity.
  - rewrite I in H. apply Stop; auto.
Qed.
Lemma expr_sound : forall n, sound ex_d (expr n).
Proof.
  induction n as [|n IH]; intros ts e rest H; [discriminate|]. cbn [expr] in H.
  assert (Add : add (expr n) (S n) ts = Some (e, rest) -> exists p, ts = p ++ rest /\ ex_d p e rest).
  { intros A. unfold add in A. destruct (add_seq (mul (expr n) (S n)) (S (length ts)) [] [] ts e rest []) as (p & E & M); auto.
    - apply mul_sound. exact IH.
    - split; reflexivity.
    - exists p. split; auto. apply DA. exact M. }
  destruct (lexpr (expr n) ts) as [[a r]|] eqn:E; auto. destruct (lexpr_sound _ IH _ _ _ E) as (p & -> & d).
  destruct r as [|[y|o| | |] r]; auto. destruct (level 0 o) eqn:L; auto. apply level_eq in L.
  destruct (expr n r) as [[b r']|] eqn:F; auto. destruct (IH _ _ _ F) as (q & -> & d'). cbn [into_expression] in H.
  injection H as <- <-. exists (p ++ TOp o :: q). split; [rewrite <- app_assoc; reflexivity|]. apply DCompare; auto.
Qed.
Lemma parse_sound : forall ts e, parse ts = Some e -> D RE ts e.
Proof.
  intros ts e H. unfold parse in H. destruct (expr _ ts) as [[a [|]]|] eqn:E; try discriminate. injection H as <-.
  destruct (expr_sound _ _ _ _ E) as (p & -> & d). rewrite app_nil_r. exact d.
Qed.

(** ** Counting *)
Fixpoint leaves (ts : list token) : nat := match ts with [] => 0 | TLeaf _ :: r => S (leaves r) | _ :: r => leaves r end.
Fixpoint opens (ts : list token) : nat := match ts with [] => 0 | TOpen :: r => S (opens r) | _ :: r => opens r end.
Fixpoint closes (ts : list token) : nat := match ts with [] => 0 | TClose :: r => S (closes r) | _ :: r => closes r end.
Fixpoint size (e : tree) : nat := match e with Leaf _ => 1 | Bin _ l r => size l + size r | Neg e | Not e => size e end.
(** There is an operand after each operator. *)
Fixpoint ended (ts : list token) : Prop := match ts with [] => True | TOp _ :: r => 1 <= leaves r /\ ended r | _ :: r => ended r end.
Lemma leaves_app : forall a b, leaves (a ++ b) = leaves a + leaves b.
Proof. induction a as [|[]]; intros; cbn; auto. Qed.
Lemma opens_app : forall a b, opens (a ++ b) = opens a + opens b.
Proof. induction a as [|[]]; intros; cbn; auto. Qed.
Lemma closes_app : forall a b, closes (a ++ b) = closes a + closes b.
Proof. induction a as [|[]]; intros; cbn; auto. Qed.
Lemma ended_app : forall a b, ended a -> ended b -> ended (a ++ b).
Proof. induction a as [|[]]; intros b A B; cbn in *; auto. destruct A. split; auto. rewrite leaves_app. lia. Qed.
Lemma ended_op : forall a o b, ended (a ++ TOp o :: b) -> 1 <= leaves b.
Proof. induction a as [|[]]; intros o' b H; cbn in *; try tauto; eapply IHa; try exact H. apply H. Qed.
Lemma size_pos : forall e, 1 <= size e.
Proof. induction e; cbn; lia. Qed.
(** Of a part of a text: it holds the operands of a tree, parentheses come in pairs. *)
Definition whole (ts : list token) (e : tree) : Prop := leaves ts = size e /\ opens ts = closes ts /\ ended ts.
Lemma whole_bin : forall o x y p q, whole x p -> whole y q -> whole (x ++ TOp o :: y) (Bin o p q).
Proof.
  intros o x y p q (A & B & C) (A' & B' & C'). pose proof (size_pos q). split; [|split].
  - rewrite leaves_app. cbn. lia.
  - rewrite opens_app, closes_app. cbn. lia.
  - apply ended_app; auto. cbn. split; auto. lia.
Qed.
Lemma whole_paren : forall ts e, whole ts e -> whole (TOpen :: ts ++ [TClose]) e.
Proof.
  intros ts e (A & B & C). split; [|split]; cbn [leaves opens closes ended].
  - rewrite leaves_app. cbn. lia.
  - rewrite opens_app, closes_app. cbn. lia.
  - apply ended_app; auto. exact Logic.I.
Qed.
Lemma D_whole : forall r ts e, D r ts e -> whole ts e.
Proof.
  induction 1; auto using whole_bin, whole_paren.
  - repeat split.
  - destruct IHD as (A & B & C). pose proof (size_pos e). split; [|split]; cbn; auto. split; auto. lia.
Qed.
Lemma print_whole : forall e, whole (print e) e.
Proof.
  induction e as [x|o l IHl r IHr|e IH|e IH]; cbn [print].
  - repeat split.
  - apply whole_bin; unfold paren; destruct (needs_parens _ _ _); auto using whole_paren.
  - destruct IH as (A & B & C). pose proof (size_pos e). split; [|split]; cbn; auto. split; auto. lia.
  - exact IH.
Qed.
Lemma operand_whole : forall o e b, whole (operand o e b) e.
Proof. intros o e b. unfold operand, paren. pose proof (print_whole e). destruct (needs_parens _ _ _); auto using whole_paren. Qed.
(** The place of the operator is where the left side has all its operands. *)
Lemma align : forall x o y x' o' y', x ++ TOp o :: y = x' ++ TOp o' :: y' -> leaves x = leaves x' -> ended x -> ended x' ->
  x = x' /\ o = o' /\ y = y'.
Proof.
  intros x o y x' o' y' H L E E'.
  assert (x = x') as ->; [|apply app_inv_head in H; injection H as -> ->; auto].
  revert x' H L E E'. induction x as [|t x IH]; intros [|t' x'] H L E E'; auto.
  - cbn [app] in H. injection H as H _. subst t'. cbn in L, E'. lia.
  - cbn [app] in H. injection H as H _. subst t. cbn in L, E. lia.
  - cbn [app] in H. injection H as <- H. f_equal. destruct t; cbn in *; apply IH; auto; tauto.
Qed.
(** Below its parentheses, the text of an operation has the left side, the operator and the right side. *)
Lemma D_bin : forall r ts e, D r ts e -> forall o p q, e = Bin o p q ->
  exists k x y, ts = repeat TOpen k ++ x ++ TOp o :: y /\ whole x p.
Proof.
  induction 1; intros o' p' q' Q; try discriminate; try (eapply IHD; exact Q).
  - destruct (IHD _ _ _ Q) as (k & x & y & -> & W). exists (S k), x, (y ++ [TClose]). split; auto. cbn [repeat app]. f_equal.
    rewrite <- !app_assoc. reflexivity.
  - injection Q as <- <- <-. exists 0, a, b. split; auto. eapply D_whole; eauto.
  - injection Q as <- <- <-. exists 0, x, y. split; auto. eapply D_whole; eauto.
  - injection Q as <- <- <-. exists 0, x, y. split; auto. eapply D_whole; eauto.
  - injection Q as <- <- <-. exists 0, x, y. split; auto. eapply D_whole; eauto.
Qed.
Lemma repeat_counts : forall k, leaves (repeat TOpen k) = 0 /\ opens (repeat TOpen k) = k /\ closes (repeat TOpen k) = 0 /\ ended (repeat TOpen k).
Proof. induction k as [|k IH]; cbn; intuition. Qed.
(** An operation without parentheses around it is not one with them. *)
Lemma no_paren : forall ts o p q x y r, D r ts (Bin o p q) -> whole x p -> x ++ TOp o :: y <> TOpen :: ts ++ [TClose].
Proof.
  intros ts o p q x y r d (A & B & C) H. destruct (D_bin _ _ _ d _ _ _ eq_refl) as (k & x' & y' & -> & A' & B' & C').
  destruct (repeat_counts k) as (K1 & K2 & K3 & K4).
  assert (x = TOpen :: repeat TOpen k ++ x') as ->.
  { eapply (align x o y (TOpen :: repeat TOpen k ++ x') o (y' ++ [TClose])); auto.
    - rewrite H. cbn [app]. rewrite <- !app_assoc. reflexivity.
    - cbn [leaves]. rewrite leaves_app. lia.
    - cbn [ended]. apply ended_app; auto. }
  cbn [opens closes] in B. rewrite opens_app, closes_app in B. lia.
Qed.

(** ** Inversion *)
Lemma inv_not : forall r ts e, D r ts e -> forall ts' e', ts = TNot :: ts' -> e = Not e' -> D RL ts' e'.
Proof. induction 1; intros ts' e' T Q; try discriminate; eauto. injection T as ->. injection Q as ->. auto. Qed.
Lemma inv_neg : forall r ts e, D r ts e -> forall ts' e', ts = TOp Sub :: ts' -> e = Neg e' ->
  r <> RL /\ r <> RF false /\ r <> RM false /\ exists b, D (RM b) ts' e'.
Proof.
  induction 1; intros ts' e' T Q; try discriminate.
  - destruct (IHD _ _ T Q) as [N _]. congruence.
  - injection T as ->. injection Q as ->. repeat split; try discriminate. eauto.
  - destruct (IHD _ _ T Q) as (_ & N & _ & E). repeat split; try discriminate; auto. congruence.
  - destruct (IHD _ _ T Q) as (_ & _ & _ & E). repeat split; try discriminate; auto.
  - destruct (IHD _ _ T Q) as (_ & _ & _ & E). repeat split; try discriminate; auto.
Qed.
Definition parts (r : rule) (o : binop) (x : list token) (p : tree) (y : list token) (q : tree) : Prop :=
  match precedence o with
  | 0 => r = RE /\ D RL x p /\ D RE y q
  | 1 => (r = RA \/ r = RE) /\ D RA x p /\ exists b, D (RM b) y q
  | 2 => exists b, (r = RM b \/ r = RA \/ r = RE) /\ D (RM false) x p /\ D (RF b) y q
  | _ => r <> RL /\ D RL x p /\ D RL y q
  end.
Lemma inv_bin : forall r ts e, D r ts e -> forall o p q, e = Bin o p q ->
  (exists ts', ts = TOpen :: ts' ++ [TClose] /\ D RE ts' e) \/ (exists x y, ts = x ++ TOp o :: y /\ parts r o x p y q).
Proof.
  induction 1; intros o' p' q' Q; try discriminate.
  - left. eauto.
  - destruct (IHD _ _ _ Q) as [E|(x & y & -> & P)]; auto. right. exists x, y. split; auto. unfold parts in *.
    destruct (precedence o') as [|[|[|]]].
    + destruct P; discriminate.
    + destruct P as [[|] _]; discriminate.
    + destruct P as (b & [|[|]] & _); discriminate.
    + destruct P as [P _]. congruence.
  - injection Q as <- <- <-. right. exists a, b. split; auto. cbn. repeat split; auto. discriminate.
  - destruct (IHD _ _ _ Q) as [E|(x & y & -> & P)]; auto. right. exists x, y. split; auto. unfold parts in *.
    destruct (precedence o') as [|[|[|]]].
    + destruct P; discriminate.
    + destruct P as [[|] _]; discriminate.
    + destruct P as (c & [|[|]] & _); discriminate.
    + destruct P as [P P']. split; auto. discriminate.
  - injection Q as <- <- <-. right. exists x, y. split; auto. unfold parts. rewrite H. exists b. auto.
  - destruct (IHD _ _ _ Q) as [E|(x & y & -> & P)]; auto. right. exists x, y. split; auto. unfold parts in *.
    destruct (precedence o') as [|[|[|]]].
    + destruct P; discriminate.
    + destruct P as [[|] _]; discriminate.
    + destruct P as (c & _ & P). exists c. auto.
    + destruct P as [P P']. split; auto. discriminate.
  - injection Q as <- <- <-. right. exists x, y. split; auto. unfold parts. rewrite H. repeat split; eauto.
  - destruct (IHD _ _ _ Q) as [E|(x & y & -> & P)]; auto. right. exists x, y. split; auto. unfold parts in *.
    destruct (precedence o') as [|[|[|]]].
    + destruct P; discriminate.
    + destruct P as [_ P]. auto.
    + destruct P as (c & _ & P). exists c. auto.
    + destruct P as [P P']. split; auto. discriminate.
  - injection Q as <- <- <-. right. exists x, y. split; auto. unfold parts. rewrite H. auto.
Qed.

(** ** Only readable trees *)
Definition fits (r : rule) (e : tree) : Prop :=
  match r with
  | RL => is_atom e = true
  | RF b => 3 <= tightness e /\ (b = false -> open e = false)
  | RM b => 2 <= tightness e /\ (b = false -> open e = false)
  | RA => 1 <= tightness e
  | RE => True
  end.
Definition only (e : tree) : Prop := forall r, D r (print e) e -> readable e = true /\ fits r e.
(** An operand: with parentheses it was read in them, without it fits the rule. *)
Lemma operand_only : forall e, only e -> forall o b r, D r (operand o e b) e ->
  readable e = true /\ (needs_parens o e b = true /\ is_bin e = true \/ needs_parens o e b = false /\ fits r e).
Proof.
  intros e H o b r d. unfold operand in d. destruct (needs_parens o e b) eqn:N; cbn [paren] in d.
  - destruct e as [|p e1 e2| |]; try discriminate. split; [|auto].
    destruct (inv_bin _ _ _ d _ _ _ eq_refl) as [(ts & E & d')|(x & y & E & P)].
    + injection E as E. apply app_inj_tail in E. destruct E as [<- _]. apply (H _ d').
    + exfalso. cbn [print] in E. fold (operand p e1 false) in E. fold (operand p e2 true) in E.
      assert (W : whole x e1).
      { unfold parts in P. destruct (precedence p) as [|[|[|]]]; [destruct P as (_ & P & _)|destruct P as (_ & P & _)|destruct P as (c & _ & P & _)|destruct P as (_ & P & _)];
          eapply D_whole; eauto. }
      destruct W as (A & B & C). destruct (operand_whole p e1 false) as (A' & B' & C').
      assert (TOpen :: operand p e1 false = x) as <-.
      { eapply (align (TOpen :: operand p e1 false) p (operand p e2 true ++ [TClose]) x p y); cbn [leaves ended]; auto; try lia.
        rewrite <- E. cbn [app]. rewrite <- app_assoc. reflexivity. }
      cbn [opens closes] in B. lia.
  - destruct (H _ d) as [R F]. auto.
Qed.
Lemma all_only : forall e, only e.
Proof.
  induction e as [x|o l IHl r IHr|e IH|e IH]; intros k d.
  - split; [reflexivity|]. destruct k; cbn; repeat split; lia.
  - cbn [print] in d. fold (operand o l false) in d. fold (operand o r true) in d.
    destruct (inv_bin _ _ _ d _ _ _ eq_refl) as [(ts & E & d')|(x & y & E & P)].
    { exfalso. eapply no_paren; [exact d'|apply (operand_whole o l false)|exact E]. }
    assert (x = operand o l false /\ y = operand o r true) as [-> ->].
    { assert (W : whole x l).
      { unfold parts in P. destruct (precedence o) as [|[|[|]]]; [destruct P as (_ & P & _)|destruct P as (_ & P & _)|destruct P as (c & _ & P & _)|destruct P as (_ & P & _)];
          eapply D_whole; eauto. }
      destruct W as (A & B & C). destruct (operand_whole o l false) as (A' & B' & C').
      destruct (align _ _ _ _ _ _ E) as (-> & _ & ->); auto. lia. }
    cbn [readable]. unfold parts in P. destruct (precedence o) as [|[|[|n]]] eqn:O.
    + destruct P as (-> & dl & dr). destruct (operand_only l IHl _ _ _ dl) as [Rl Fl]. destruct (operand_only r IHr _ _ _ dr) as [Rr _].
      rewrite Rl, Rr. cbn [andb]. split; [|exact Logic.I]. destruct Fl as [[N _]|[_ F]]; [|exact F].
      unfold needs_parens in N. rewrite O in N. destruct l as [|p ? ?| |]; try discriminate. 
    + destruct P as (K & dl & b & dr). destruct (operand_only l IHl _ _ _ dl) as [Rl Fl]. destruct (operand_only r IHr _ _ _ dr) as [Rr _].
      rewrite Rl, Rr. cbn [andb]. split; auto. destruct K as [-> | ->]; cbn [fits tightness]; lia || auto.
    + destruct P as (b & K & dl & dr). destruct (operand_only l IHl _ _ _ dl) as [Rl Fl]. destruct (operand_only r IHr _ _ _ dr) as [Rr Fr].
      rewrite Rl, Rr. cbn [andb]. split.
      * destruct Fl as [[N _]|[N F]]; rewrite N; auto. cbn [fits] in F. destruct F as [_ F]. rewrite F; auto.
      * destruct K as [-> |[-> | ->]]; cbn [fits tightness open]; try lia; auto. split; [lia|]. intros ->.
        destruct Fr as [[N _]|[N F]]; rewrite N; cbn [negb andb]; [rewrite andb_false_r; reflexivity|].
        destruct F as [_ F]. rewrite F; auto. apply andb_false_r.
    + destruct P as (K & dl & dr). destruct (operand_only l IHl _ _ _ dl) as [Rl Fl]. destruct (operand_only r IHr _ _ _ dr) as [Rr Fr].
      rewrite Rl, Rr. cbn [andb]. split.
      * apply andb_true_iff. split.
        -- destruct Fl as [[_ F]|[_ F]]; cbn [fits] in *; rewrite F; auto using orb_true_r.
        -- destruct Fr as [[_ F]|[_ F]]; cbn [fits] in *; rewrite F; auto using orb_true_r.
      * pose proof (prec_le o). assert (n = 0) as -> by lia. destruct k; cbn [fits tightness open]; rewrite ?O; try congruence; cbn; auto; split; auto; lia.
  - cbn [print] in d. destruct (inv_neg _ _ _ d _ _ eq_refl eq_refl) as (N1 & N2 & N3 & b & d'). destruct (IH _ d') as [R F].
    cbn [fits] in F. split.
    + cbn [readable]. rewrite R. cbn [andb]. destruct F as [F _]. apply Nat.leb_le in F. rewrite F. apply orb_true_r.
    + destruct k as [|[]|[]| |]; cbn [fits tightness]; try congruence; try lia; auto; split; try lia; discriminate.
  - cbn [print] in d. pose proof (inv_not _ _ _ d _ _ eq_refl eq_refl) as d'. destruct (IH _ d') as [R F]. cbn [fits] in F. split.
    + cbn [readable]. rewrite R, F. reflexivity.
    + destruct k; cbn; repeat split; lia.
Qed.
Lemma print_readable : forall e, parse (print e) = Some e -> readable e = true.
Proof. intros e H. apply parse_sound in H. apply (all_only e _ H). Qed.
