(** * Parsing what is printed: lemmas. *)
From Coq Require Import List Arith Bool Lia.
From Verif Require Import PrintModel PrintSpec.
Import ListNotations.
Local Open Scope list_scope.

(** What may follow *)
Definition below (k : nat) (ts : list token) : Prop := match ts with TOp o :: _ => precedence o < k | _ => True end.
Lemma below_mono : forall k j ts, k <= j -> below k ts -> below j ts.
Proof. intros k j [|[]] L H; simpl in *; auto; lia. Qed.
Lemma level_eq : forall k o, level k o = true <-> precedence o = k.
Proof. intros. unfold level. apply Nat.eqb_eq. Qed.
Lemma prec_le : forall o, precedence o <= 3.
Proof. intros []; simpl; lia. Qed.
Lemma pow_prec : forall o, precedence o = 3 -> o = Pow.
Proof. intros []; simpl; intros; congruence || lia. Qed.
Lemma parens_prec : forall o o' e b, precedence o = precedence o' -> needs_parens o e b = needs_parens o' e b.
Proof. intros o o' e b H. unfold needs_parens. rewrite H. reflexivity. Qed.

(** ** Sequences *)
Definition operand (o : binop) (e : tree) (right : bool) : list token := paren (needs_parens o e right) (print e).
Fixpoint chained (k : nat) (item : list token -> result) (e : tree) : Prop :=
  let single := forall o' rest, level k o' = true -> item (operand o' e false ++ TOp o' :: rest) = Some (e, TOp o' :: rest) in
  match e with
  | Bin o l r =>
      if level k o then
        chained k item l /\
        forall o' rest, level k o' = true -> item (operand o r true ++ TOp o' :: rest) = Some (r, TOp o' :: rest)
      else single
  | _ => single
  end.
Lemma chain_single : forall k item e o rest N, level k o = true -> 0 < N ->
  item (operand o e false ++ TOp o :: rest) = Some (e, TOp o :: rest) ->
  separated item k N [] [] (operand o e false ++ TOp o :: rest) = separated item k (N - 1) [e] [o] rest.
Proof.
  intros k item e o rest N Hl HN H. destruct N as [|N]; [lia|]. cbn [separated]. rewrite H, Hl.
  replace (S N - 1) with N by lia. reflexivity.
Qed.
Lemma into_more : forall x o items ops e, into_expression items ops = Some e -> into_expression (x :: items) (o :: ops) = Some (Bin o e x).
Proof. intros x o [|y items] ops e H; [discriminate|]. cbn [into_expression] in *. rewrite H. reflexivity. Qed.
Lemma chain_ok : forall k item, k = 1 \/ k = 2 -> forall e o rest N, chained k item e -> level k o = true ->
  length (operand o e false ++ TOp o :: rest) < N ->
  exists items ops N', into_expression items ops = Some e /\ length rest < N' /\
    separated item k N [] [] (operand o e false ++ TOp o :: rest) = separated item k N' items (o :: ops) rest.
Proof.
  intros k item Hk. assert (SINGLE : forall e o rest N, (forall o' rest, level k o' = true -> item (operand o' e false ++ TOp o' :: rest) = Some (e, TOp o' :: rest)) ->
    level k o = true -> length (operand o e false ++ TOp o :: rest) < N ->
    exists items ops N', into_expression items ops = Some e /\ length rest < N' /\
    separated item k N [] [] (operand o e false ++ TOp o :: rest) = separated item k N' items (o :: ops) rest).
  { intros e o rest N C Hl HN. rewrite app_length in HN. cbn [length] in HN. exists [e], [], (N - 1). split; [reflexivity|]. split; [lia|].
    apply chain_single; auto; lia. }
  induction e as [x|o1 l IHl r IHr|e IH|e IH]; intros o rest N C Hl HN; cbn [chained] in C; try (apply SINGLE; auto; fail).
  destruct (level k o1) eqn:L1; [|apply SINGLE; auto].
  destruct C as [Cl Cr].
  assert (needs_parens o (Bin o1 l r) false = false) as NP.
  { unfold needs_parens. apply level_eq in L1. apply level_eq in Hl. rewrite L1, Hl. destruct Hk as [-> | ->]; reflexivity. }
  unfold operand in *. rewrite NP in *. cbn [paren print] in *. rewrite <- app_assoc in *. cbn [app] in *.
  destruct (IHl o1 (paren (needs_parens o1 r true) (print r) ++ TOp o :: rest) N Cl L1 HN) as (items & ops & N' & A & B & D).
  rewrite D. rewrite app_length in B. cbn [length] in B. destruct N' as [|N']; [lia|].
  exists (r :: items), (o1 :: ops), N'. split; [apply into_more; exact A|]. split; [lia|].
  cbn [separated]. rewrite (Cr o rest Hl), Hl. reflexivity.
Qed.
Lemma finish : forall item k N items ops ts e x rest, item ts = Some (x, rest) -> below k rest -> 0 < N ->
  into_expression (x :: items) ops = Some e -> separated item k N items ops ts = Some (e, rest).
Proof.
  intros item k N items ops ts e x rest H B HN I. destruct N as [|N]; [lia|]. cbn [separated]. rewrite H.
  destruct rest as [|[y|o| | |] rest]; try (rewrite I; reflexivity). simpl in B.
  assert (level k o = false) as ->. { unfold level. apply Nat.eqb_neq. lia. }
  rewrite I. reflexivity.
Qed.
Lemma chain_end : forall k item o l r rest N, k = 1 \/ k = 2 -> chained k item l -> level k o = true ->
  item (operand o r true ++ rest) = Some (r, rest) -> below k rest -> length (print (Bin o l r) ++ rest) < N ->
  separated item k N [] [] (print (Bin o l r) ++ rest) = Some (Bin o l r, rest).
Proof.
  intros k item o l r rest N Hk C Hl H B HN. cbn [print] in *. rewrite <- app_assoc in *. cbn [app] in *.
  destruct (chain_ok k item Hk l o (operand o r true ++ rest) N C Hl HN) as (items & ops & N' & A & L & D).
  unfold operand in *. rewrite D. apply (finish item k N' items (o :: ops) _ _ r rest); auto; [lia|]. apply into_more. exact A.
Qed.
Lemma chain_one : forall k item ts e rest N, item ts = Some (e, rest) -> below k rest -> 0 < N ->
  separated item k N [] [] ts = Some (e, rest).
Proof. intros. eapply finish; eauto. Qed.

(** ** Factors *)
Lemma lexpr_head : forall ex o r, lexpr ex (TOp o :: r) = None.
Proof. reflexivity. Qed.
Lemma factor_lexpr : forall ex m ts e rest, lexpr ex ts = Some (e, rest) -> below 3 rest -> factor ex m ts = Some (e, rest).
Proof.
  intros ex m ts e rest H B. unfold factor.
  assert ((match lexpr ex ts with
           | Some (a, TOp Pow :: r) => match lexpr ex r with Some (b, r) => Some (Bin Pow a b, r) | None => Some (a, TOp Pow :: r) end
           | o => o end) = Some (e, rest)) as G.
  { rewrite H. destruct rest as [|[y|o| | |] rest]; auto. destruct o; auto. simpl in B. lia. }
  destruct ts as [|[y|o| | |] ts]; auto; discriminate.
Qed.
Lemma factor_pow : forall ex m a b ts r rest, lexpr ex ts = Some (a, TOp Pow :: r) -> lexpr ex r = Some (b, rest) ->
  factor ex m ts = Some (Bin Pow a b, rest).
Proof.
  intros ex m a b ts r rest H I. unfold factor.
  destruct ts as [|[y|o| | |] ts]; try discriminate; rewrite H, I; reflexivity.
Qed.
Lemma lexpr_paren : forall ex e rest, ex (print e ++ TClose :: rest) = Some (e, TClose :: rest) ->
  lexpr ex (paren true (print e) ++ rest) = Some (e, rest).
Proof. intros ex e rest H. cbn [paren]. rewrite <- app_comm_cons, <- app_assoc. cbn [app lexpr]. rewrite H. reflexivity. Qed.

(** ** All trees *)
Definition lexpr_ok (e : tree) (n : nat) := forall rest, lexpr (expr n) (print e ++ rest) = Some (e, rest).
Definition factor_ok (e : tree) (n m : nat) := forall rest, (open e = false \/ below 2 rest) -> below 3 rest ->
  factor (expr n) (mul (expr n) m) (print e ++ rest) = Some (e, rest).
Definition mul_ok (e : tree) (n m : nat) := forall rest, below 2 rest -> mul (expr n) m (print e ++ rest) = Some (e, rest).
Definition expr_ok (e : tree) (n : nat) := forall rest, below 0 rest -> expr n (print e ++ rest) = Some (e, rest).
Definition no_compare (e : tree) (n : nat) := forall rest a o r, (match rest with TOp p :: _ => precedence p <> 0 | _ => True end) ->
  lexpr (expr n) (print e ++ rest) = Some (a, TOp o :: r) -> level 0 o = false.

Definition all_ok (e : tree) : Prop := readable e = true -> forall n, length (print e) <= n ->
  (is_atom e = true -> lexpr_ok e n) /\
  (forall m, length (print e) <= m -> 3 <= tightness e -> factor_ok e n m) /\
  (forall m o, length (print e) < n -> length (print e) <= m -> level 2 o = true -> needs_parens o e false || negb (open e) = true ->
     chained 2 (factor (expr n) (mul (expr n) m)) e) /\
  (forall m, length (print e) < m -> 2 <= tightness e -> mul_ok e n m) /\
  (forall m, length (print e) < n -> length (print e) < m -> chained 1 (mul (expr n) m) e) /\
  (1 <= tightness e -> no_compare e n) /\
  (length (print e) < n -> expr_ok e n).
Lemma len_operand : forall o e b, length (print e) <= length (operand o e b).
Proof. intros. unfold operand, paren. destruct (needs_parens _ _ _); cbn [length]; [rewrite app_length; cbn; lia|lia]. Qed.
(** An operand in parentheses is read by any of the rules. *)
Lemma paren_lexpr : forall e n, readable e = true -> all_ok e -> length (print e) < n ->
  forall rest, lexpr (expr n) (paren true (print e) ++ rest) = Some (e, rest).
Proof.
  intros e n R A L rest. apply lexpr_paren. destruct (A R n) as (_ & _ & _ & _ & _ & _ & X); [lia|]. apply X; [exact L|exact I].
Qed.
Lemma mul_factor : forall ex m ts e rest, factor ex (mul ex m) ts = Some (e, rest) -> below 2 rest -> mul ex (S m) ts = Some (e, rest).
Proof. intros. cbn [mul]. eapply chain_one; eauto. lia. Qed.
(** The last step for trees that are no comparison. *)
Lemma expr_step : forall n ts e rest,
  (forall a o r, lexpr (expr n) ts = Some (a, TOp o :: r) -> level 0 o = false) ->
  add (expr n) (S n) ts = Some (e, rest) -> expr (S n) ts = Some (e, rest).
Proof.
  intros n ts e rest N H. cbn [expr]. destruct (lexpr (expr n) ts) as [[a [|[y|o| | |] r]]|] eqn:E; auto.
  rewrite (N a o r eq_refl). exact H.
Qed.

Lemma leaf_like : forall e, (forall n, lexpr_ok e n) -> tightness e = 4 -> open e = false ->
  (forall o b, needs_parens o e b = false) -> (forall k item, chained k item e = (forall o' rest, level k o' = true ->
     item (operand o' e false ++ TOp o' :: rest) = Some (e, TOp o' :: rest))) -> all_ok e.
Proof.
  intros e L T O P C R n Hn.
  assert (F : forall n m, factor_ok e n m). { intros n' m rest _ B. apply factor_lexpr; auto. apply L. }
  assert (M : forall n m, 0 < m -> mul_ok e n m). { intros n' m Hm rest B. destruct m; [lia|]. apply mul_factor; auto. apply F; auto. eapply below_mono; [|exact B]; lia. }
  assert (N : forall n, no_compare e n).
  { intros n' rest a o r Hr H. rewrite (L n' rest) in H. injection H as _ E. rewrite E in Hr. unfold level. now apply Nat.eqb_neq. }
  repeat split.
  - intros _. apply L.
  - intros m _ _. apply F.
  - intros m o _ _ Ho _. rewrite C. intros o' rest H'. unfold operand. rewrite P. cbn [paren]. apply F; auto. simpl. apply level_eq in H'. lia.
  - intros m Hm _. apply M. lia.
  - intros m _ Hm. rewrite C. intros o' rest H'. unfold operand. rewrite P. cbn [paren]. apply M; [lia|]. simpl. apply level_eq in H'. lia.
  - intros _. apply N.
  - intros Hl rest B. destruct n as [|n]; [lia|]. apply expr_step.
    + intros a o r. apply N. destruct rest as [|[]]; auto. simpl in B. lia.
    + unfold add. eapply chain_one; [apply M; [lia|]| |]; [| |lia]; eapply below_mono; try exact B; lia.
Qed.

Lemma paren_factor : forall e n m, readable e = true -> all_ok e -> length (print e) < n ->
  forall rest, below 3 rest -> factor (expr n) (mul (expr n) m) (paren true (print e) ++ rest) = Some (e, rest).
Proof. intros. apply factor_lexpr; auto. apply paren_lexpr; auto. Qed.
Lemma paren_mul : forall e n m, readable e = true -> all_ok e -> length (print e) < n -> 0 < m ->
  forall rest, below 2 rest -> mul (expr n) m (paren true (print e) ++ rest) = Some (e, rest).
Proof. intros e n [|m] R A L Hm rest B; [lia|]. apply mul_factor; auto. apply paren_factor; auto. eapply below_mono; [|exact B]; lia. Qed.
Lemma at_level : forall k o rest j, level k o = true -> k < j -> below j (TOp o :: rest).
Proof. intros. apply level_eq in H. simpl. lia. Qed.
Lemma not_bin : forall e o b, is_atom e = true -> needs_parens o e b = false.
Proof. intros [] o' b H; auto; discriminate. Qed.

Lemma neg_ok : forall e, all_ok e -> all_ok (Neg e).
Proof.
  intros e A R n Hn. cbn [readable] in R. apply andb_prop in R. destruct R as [Re T].
  assert (2 <= tightness e) as Te.
  { destruct e; cbn in T |- *; try lia. destruct (precedence o) as [|[|]]; cbn in T; try discriminate; lia. }
  cbn [print length] in *.
  assert (M0 : forall n, length (print e) <= n -> forall m, length (print e) < m -> mul_ok e n m).
  { intros n' H m Hm. destruct (A Re n' H) as (_ & _ & _ & X & _). apply X; auto. }
  assert (F : forall n m, length (print e) <= n -> S (length (print e)) <= m -> factor_ok (Neg e) n m).
  { intros n' m H Hm rest [O|B] _; [discriminate|]. cbn [print app factor]. rewrite (M0 n' H m Hm rest B). reflexivity. }
  assert (M : forall n m, length (print e) <= n -> S (length (print e)) < m -> mul_ok (Neg e) n m).
  { intros n' m H Hm rest B. destruct m as [|m]; [lia|]. apply mul_factor; auto. apply F; auto; try lia. eapply below_mono; [|exact B]; lia. }
  split; [discriminate|]. split; [intros m Hm _; apply F; lia|].
  split; [intros m o _ _ _ H; discriminate|].
  split; [intros m Hm _; apply M; lia|].
  split; [intros m Hl Hm o' rest Ho; apply (M n m); [lia|lia|apply (at_level 1); auto]|].
  split; [intros _ rest a o r _ H; discriminate|].
  intros Hl rest B. destruct n as [|n]; [lia|]. apply expr_step; [intros a o r H; discriminate|].
  unfold add. eapply chain_one; [apply M; [lia|lia|]| |lia]; eapply below_mono; try exact B; lia.
Qed.

Lemma eq_ok : forall o l r, precedence o = 0 -> all_ok l -> all_ok r -> all_ok (Bin o l r).
Proof.
  intros o l r P Al Ar R n Hn. pose proof R as R0. cbn [readable] in R. rewrite P in R. apply andb_prop in R. destruct R as [R Hl].
  apply andb_prop in R. destruct R as [Rl Rr].
  assert (NP : forall x b, needs_parens o x b = false). { intros [] b; auto. unfold needs_parens. rewrite P. reflexivity. }
  assert (X : forall n, length (print (Bin o l r)) < n -> expr_ok (Bin o l r) n).
  { intros n' L rest B. cbn [print] in *. rewrite !NP in *. cbn [paren] in *. rewrite app_length in L. cbn [length] in L.
    destruct n' as [|n']; [lia|]. rewrite <- app_assoc. cbn [app expr].
    destruct (Al Rl n') as (XL & _); [lia|]. rewrite (XL Hl _). unfold level. rewrite P. cbn [Nat.eqb].
    destruct (Ar Rr n') as (_ & _ & _ & _ & _ & _ & XR); [lia|]. rewrite (XR ltac:(lia) rest B). reflexivity. }
  assert (PL : forall n rest, length (print (Bin o l r)) < n -> lexpr (expr n) (paren true (print (Bin o l r)) ++ rest) = Some (Bin o l r, rest)).
  { intros n' rest L. apply lexpr_paren. apply X; auto. exact I. }
  assert (T : tightness (Bin o l r) = 0) by exact P.
  repeat split; try (rewrite T; lia); try discriminate; auto.
  - intros m o' Hl' Hm Ho' _. cbn [chained]. replace (level 2 o) with false by (unfold level; rewrite P; reflexivity).
    intros o2 rest H2. unfold operand. replace (needs_parens o2 _ _) with true.
    + apply factor_lexpr; [apply PL; auto|]. apply (at_level 2); auto.
    + unfold needs_parens. apply level_eq in H2. rewrite H2, P. reflexivity.
  - intros m Hl' Hm. cbn [chained]. replace (level 1 o) with false by (unfold level; rewrite P; reflexivity).
    intros o2 rest H2. unfold operand. replace (needs_parens o2 _ _) with true.
    + destruct m as [|m]; [lia|]. apply mul_factor; [|apply (at_level 1); auto]. apply factor_lexpr; [apply PL; auto|]. apply (at_level 1); auto.
    + unfold needs_parens. apply level_eq in H2. rewrite H2, P. reflexivity.
Qed.

(** The first operand does not look like that of a comparison. *)
Lemma left_no_compare : forall o l r, 1 <= precedence o -> all_ok l -> readable l = true -> forall n, length (print (Bin o l r)) <= n ->
  no_compare (Bin o l r) n.
Proof.
  intros o l r P A R n Hn rest a o1 r1 Hr H. cbn [print] in *. rewrite app_length in Hn. cbn [length] in Hn. rewrite <- app_assoc in H. cbn [app] in H.
  pose proof (len_operand o l false) as LO. unfold operand in LO.
  destruct (needs_parens o l false) eqn:NP.
  - rewrite paren_lexpr in H; auto; [|lia]. injection H as _ <- _. unfold level. apply Nat.eqb_neq. lia.
  - destruct (A R n) as (_ & _ & _ & _ & _ & X & _); [lia|]. eapply (X _ _ a o1 r1); [|exact H]. cbn. lia.
  Unshelve. destruct l as [|o2 l1 l2| |]; cbn [tightness]; try lia. unfold needs_parens in NP.
  pose proof (prec_le o). destruct (precedence o) as [|[|[|[|]]]], (precedence o2) as [|[|]]; try discriminate; lia.
Qed.

Lemma add_ok : forall o l r, precedence o = 1 -> all_ok l -> all_ok r -> all_ok (Bin o l r).
Proof.
  intros o l r P Al Ar R n Hn. pose proof R as R0. cbn [readable] in R. rewrite P in R. rewrite andb_true_r in R.
  apply andb_prop in R. destruct R as [Rl Rr].
  assert (LEN : length (print l) < length (print (Bin o l r)) /\ length (print r) < length (print (Bin o l r))).
  { cbn [print]. rewrite app_length. cbn [length]. pose proof (len_operand o l false). pose proof (len_operand o r true). unfold operand in *. lia. }
  assert (RI : forall n m rest, length (print (Bin o l r)) <= n -> length (print (Bin o l r)) <= m -> below 2 rest ->
    mul (expr n) m (operand o r true ++ rest) = Some (r, rest)).
  { intros n' m rest L Lm B. unfold operand. destruct (needs_parens o r true) eqn:NP.
    - apply paren_mul; auto; lia.
    - destruct (Ar Rr n') as (_ & _ & _ & X & _); [lia|]. apply X; auto; [lia|].
      destruct r as [|o2 r1 r2| |]; cbn [tightness]; try lia. unfold needs_parens in NP. rewrite P in NP.
      destruct (precedence o2) as [|[|]]; try discriminate; lia. }
  assert (C : forall n m, length (print (Bin o l r)) <= n -> length (print (Bin o l r)) <= m -> chained 1 (mul (expr n) m) l).
  { intros n' m L Lm. destruct (Al Rl n') as (_ & _ & _ & _ & X & _); [lia|]. apply X; lia. }
  assert (LV : level 1 o = true) by (now apply level_eq).
  assert (X : forall n, length (print (Bin o l r)) < n -> expr_ok (Bin o l r) n).
  { intros n' L rest B. destruct n' as [|n']; [lia|]. apply expr_step.
    - intros a o1 r1 H. apply (left_no_compare o l r ltac:(lia) Al Rl n' ltac:(lia) rest a o1 r1); [destruct rest as [|[]]; auto; simpl in B; lia|exact H].
    - unfold add. apply chain_end; auto; [apply C; lia|apply RI; try lia|]; eapply below_mono; try exact B; lia. }
  assert (PL : forall n rest, length (print (Bin o l r)) < n -> lexpr (expr n) (paren true (print (Bin o l r)) ++ rest) = Some (Bin o l r, rest)).
  { intros n' rest L. apply lexpr_paren. apply X; auto. exact I. }
  assert (T : tightness (Bin o l r) = 1) by exact P.
  split; [discriminate|]. split; [rewrite T; lia|]. split; [|split; [rewrite T; lia|split; [|split; [intros _; apply left_no_compare; auto; lia|auto]]]].
  - intros m o' Hl' Hm Ho' _. cbn [chained]. replace (level 2 o) with false by (unfold level; rewrite P; reflexivity).
    intros o2 rest H2. unfold operand. replace (needs_parens o2 _ _) with true.
    + apply factor_lexpr; [apply PL; auto|]. apply (at_level 2); auto.
    + unfold needs_parens. apply level_eq in H2. rewrite H2, P. reflexivity.
  - intros m Hl' Hm. cbn [chained]. rewrite LV. split; [apply C; lia|].
    intros o2 rest H2. apply RI; try lia. apply (at_level 1); auto.
Qed.

Lemma mul_all_ok : forall o l r, precedence o = 2 -> all_ok l -> all_ok r -> all_ok (Bin o l r).
Proof.
  intros o l r P Al Ar R n Hn. pose proof R as R0. cbn [readable] in R. rewrite P in R.
  apply andb_prop in R. destruct R as [R HL]. apply andb_prop in R. destruct R as [Rl Rr].
  assert (LEN : length (print l) + 1 < length (print (Bin o l r)) /\ length (print r) + 1 < length (print (Bin o l r))).
  { cbn [print]. rewrite app_length. cbn [length]. pose proof (len_operand o l false). pose proof (len_operand o r true). unfold operand in *.
    assert (forall e, 0 < length (print e)) as NE. { intros [x|o' a b|a|a]; cbn; try lia. rewrite app_length. cbn. lia. }
    pose proof (NE l). pose proof (NE r). lia. }
  assert (RI : forall n m rest, length (print (Bin o l r)) <= n -> length (print r) <= m ->
    open (Bin o l r) = false \/ below 2 rest -> below 3 rest ->
    factor (expr n) (mul (expr n) m) (operand o r true ++ rest) = Some (r, rest)).
  { intros n' m rest L Lm O B. unfold operand. destruct (needs_parens o r true) eqn:NP.
    - apply paren_factor; auto; lia.
    - destruct (Ar Rr n') as (_ & X & _); [lia|]. apply X; auto.
      + destruct r as [|o2 r1 r2| |]; cbn [tightness]; try lia. unfold needs_parens in NP. rewrite P in NP.
        destruct (precedence o2) as [|[|[|]]]; try discriminate; lia.
      + destruct O as [O|O]; auto. left. cbn [open] in O. rewrite P, NP in O. exact O. }
  assert (C : forall n m, length (print (Bin o l r)) <= n -> length (print l) <= m -> chained 2 (factor (expr n) (mul (expr n) m)) l).
  { intros n' m L Lm. destruct (Al Rl n') as (_ & _ & X & _); [lia|]. apply (X m o); auto; try lia. now apply level_eq. }
  assert (LV : level 2 o = true) by (now apply level_eq).
  assert (M : forall n m, length (print (Bin o l r)) <= n -> length (print (Bin o l r)) < m -> mul_ok (Bin o l r) n m).
  { intros n' m L Lm rest B. destruct m as [|m]; [lia|]. cbn [mul]. apply chain_end; auto; [apply C; lia|apply RI; auto; try lia].
    eapply below_mono; [|exact B]; lia. }
  assert (X : forall n, length (print (Bin o l r)) < n -> expr_ok (Bin o l r) n).
  { intros n' L rest B. destruct n' as [|n']; [lia|]. apply expr_step.
    - intros a o1 r1 H. apply (left_no_compare o l r ltac:(lia) Al Rl n' ltac:(lia) rest a o1 r1); [destruct rest as [|[]]; auto; simpl in B; lia|exact H].
    - unfold add. eapply chain_one; [apply M; try lia| |lia]; eapply below_mono; try exact B; lia. }
  assert (T : tightness (Bin o l r) = 2) by exact P.
  split; [discriminate|]. split; [rewrite T; lia|]. split; [|split; [intros; apply M; lia|split; [|split; [intros _; apply left_no_compare; auto; lia|auto]]]].
  - intros m o' Hl' Hm Ho' HO. cbn [chained]. rewrite LV. split; [apply C; lia|].
    intros o2 rest H2. apply RI; try lia; [|apply (at_level 2); auto]. left.
    replace (needs_parens o' (Bin o l r) false) with false in HO by (unfold needs_parens; apply level_eq in Ho'; rewrite Ho', P; reflexivity).
    now apply negb_true_iff in HO.
  - intros m Hl' Hm. cbn [chained]. replace (level 1 o) with false by (unfold level; rewrite P; reflexivity).
    intros o2 rest H2. unfold operand. replace (needs_parens o2 (Bin o l r) false) with false by (unfold needs_parens; apply level_eq in H2; rewrite H2, P; reflexivity).
    apply M; try lia. apply (at_level 1); auto.
Qed.

Lemma pow_ok : forall o l r, precedence o = 3 -> all_ok l -> all_ok r -> all_ok (Bin o l r).
Proof.
  intros o l r P Al Ar R n Hn. apply pow_prec in P. subst o. pose proof R as R0. cbn [readable precedence] in R.
  apply andb_prop in R. destruct R as [R H]. apply andb_prop in R. destruct R as [Rl Rr]. apply andb_prop in H. destruct H as [Hl Hr].
  assert (LEN : length (print l) < length (print (Bin Pow l r)) /\ length (print r) < length (print (Bin Pow l r))).
  { cbn [print]. rewrite app_length. cbn [length]. pose proof (len_operand Pow l false). pose proof (len_operand Pow r true). unfold operand in *. lia. }
  assert (O : forall x b n rest, readable x = true -> all_ok x -> is_bin x || is_atom x = true -> length (print x) < n ->
    lexpr (expr n) (operand Pow x b ++ rest) = Some (x, rest)).
  { intros x b n' rest Rx Ax Hx L. unfold operand. destruct x as [y|o1 x1 x2|x|x]; try discriminate.
    - reflexivity.
    - change (needs_parens Pow (Bin o1 x1 x2) b) with true. apply paren_lexpr; auto.
    - destruct (Ax Rx n') as (X & _); [lia|]. apply X. reflexivity. }
  assert (F : forall n m, length (print (Bin Pow l r)) <= n -> factor_ok (Bin Pow l r) n m).
  { intros n' m L rest _ B. cbn [print]. rewrite <- app_assoc. cbn [app]. eapply factor_pow; [apply O; auto; lia|apply (O r true); auto; lia]. }
  assert (M : forall n m, length (print (Bin Pow l r)) <= n -> 0 < m -> mul_ok (Bin Pow l r) n m).
  { intros n' m L Hm rest B. destruct m as [|m]; [lia|]. apply mul_factor; auto. apply F; auto. eapply below_mono; [|exact B]; lia. }
  split; [discriminate|]. split; [intros; apply F; lia|]. split; [|split; [intros; apply M; lia|split; [|split; [intros _; apply left_no_compare; auto; cbn; lia|]]]].
  - intros m o' Hl' Hm Ho' HO o2 rest H2. unfold operand.
    replace (needs_parens o2 (Bin Pow l r) false) with false by (unfold needs_parens; apply level_eq in H2; rewrite H2; reflexivity).
    apply F; auto. apply (at_level 2); auto.
  - intros m Hl' Hm o2 rest H2. unfold operand.
    replace (needs_parens o2 (Bin Pow l r) false) with false by (unfold needs_parens; apply level_eq in H2; rewrite H2; reflexivity).
    apply M; try lia. apply (at_level 1); auto.
  - intros L rest B. destruct n as [|n]; [lia|]. apply expr_step.
    + intros a o1 r1 H. apply (left_no_compare Pow l r ltac:(cbn; lia) Al Rl n ltac:(lia) rest a o1 r1); [destruct rest as [|[]]; auto; simpl in B; lia|exact H].
    + unfold add. eapply chain_one; [apply M; try lia| |lia]; eapply below_mono; try exact B; lia.
Qed.

Lemma atom_lexpr : forall e, is_atom e = true -> readable e = true -> forall n, lexpr_ok e n.
Proof.
  induction e as [x|o l IHl r IHr|e IH|e IH]; intros A R n rest; try discriminate; [reflexivity|].
  cbn [readable] in R. apply andb_prop in R. destruct R as [R1 R2]. cbn [print app lexpr]. rewrite (IH R1 R2 n rest). reflexivity.
Qed.
Theorem all_trees : forall e, all_ok e.
Proof.
  induction e as [x|o l IHl r IHr|e IH|e IH].
  - apply leaf_like; auto. intros n. apply atom_lexpr; reflexivity.
  - pose proof (prec_le o). destruct (precedence o) as [|[|[|[|]]]] eqn:P; [apply eq_ok|apply add_ok|apply mul_all_ok|apply pow_ok|lia]; auto.
  - apply neg_ok. exact IH.
  - intros R. apply leaf_like; auto. intros n. apply atom_lexpr; auto.
Qed.
Lemma parse_print : forall e, readable e = true -> parse (print e) = Some e.
Proof.
  intros e R. unfold parse. destruct (all_trees e R (S (length (print e)))) as (_ & _ & _ & _ & _ & _ & X); [lia|].
  pose proof (X ltac:(lia) [] I) as H. rewrite app_nil_r in H. rewrite H. reflexivity.
Qed.
