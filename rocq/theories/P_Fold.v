(** * C43: constant folding. *)
From Coq Require Import String List ZArith Bool Arith Lia.
From Verif Require Import Float64 Syntax SyntaxProofs InterpModel Samples EmbedModel FoldModel TransformProofs P_Transform P_Embed.
Import ListNotations.
Local Open Scope string_scope.
Local Open Scope nat_scope.
Local Open Scope list_scope.

(** What the parser gives: constants are booleans, numbers, strings and colours, vectors have four
    components; and, which it does not ensure, no key is given twice. *)
Definition atom (v : value) : bool := match v with VBool _ _ | VF64 _ _ | VStr _ | VVec4 _ => true | _ => false end.
Fixpoint distinct (l : list string) : bool :=
  match l with [] => true | k :: l => negb (existsb (String.eqb k) l) && distinct l end.
Fixpoint parsed (e : expr) : bool :=
  match e with
  | EVar v => atom v
  | EArrayFill a b => parsed a && parsed b
  | EArray l | ELink l => forallb parsed l
  | EVec4 l => (length l =? 4) && forallb parsed l
  | EObject l => distinct (map fst l) && forallb (fun p => match p with (_, e) => parsed e end) l
  | _ => true
  end.
Fixpoint depth (e : expr) : nat :=
  match e with
  | EArrayFill a b => S (Nat.max (depth a) (depth b))
  | EArray l | ELink l | EVec4 l => S (fold_right (fun e d => Nat.max (depth e) d) 0 l)
  | EObject l => S (fold_right (fun p d => match p with (_, e) => Nat.max (depth e) d end) 0 l)
  | _ => 1
  end.

(** Evaluation gives the constant and changes nothing; or it panics. *)
Definition gives (E : env) (e : expr) (v : value) : Prop := forall n sd s, depth e <= n -> eval E n e sd s = Ok (Some v, FContinue) s.
Definition crashes (E : env) (e : expr) : Prop := forall n sd s, depth e <= n -> eval E n e sd s = Panic "capacity overflow".
Definition right_fold (E : env) (e : expr) : Prop := parsed e = true ->
  match precompute (e_alloc E) e with FSome v => gives E e v | FNone_ => True | FCrash => crashes E e end.

Lemma vexpr_gives : forall {R} E n e sd s msg lv (k : value -> M R) v, gives E e v -> depth e <= n ->
  vexpr (eval E n) e sd msg lv k s = k v s.
Proof. intros R E n e sd s msg lv k v G D. unfold vexpr. eapply eq_trans; [apply bind_ok; apply G; exact D|]. reflexivity. Qed.
Lemma vexpr_crashes : forall {R} E n e sd s msg lv (k : value -> M R), crashes E e -> depth e <= n ->
  vexpr (eval E n) e sd msg lv k s = Panic "capacity overflow".
Proof. intros R E n e sd s msg lv k G D. unfold vexpr, bind. unfold crashes in G. rewrite G by exact D. reflexivity. Qed.
Lemma set_id : forall s, set_stack (r_stack s) s = s.
Proof. intros []. reflexivity. Qed.

Section Lists.
Variables (E : env) (n : nat).
Let P (e : expr) : Prop := right_fold E e.
Lemma fold_array : forall l acc, Forall P l -> forallb parsed l = true -> fold_right (fun e d => Nat.max (depth e) d) 0 l <= n ->
  match foldr (precompute (e_alloc E)) (fun acc v => FSome (acc ++ [v])) l acc with
  | FSome vs => forall s, array (eval E n) l acc s = Ok (Some (VArray vs), FContinue) s
  | FNone_ => True
  | FCrash => forall s, array (eval E n) l acc s = Panic "capacity overflow"
  end.
Proof.
  induction l as [|e l IH]; intros acc F D N; [intro; reflexivity|]. inversion F as [|x y F1 F2]; subst. cbn in D, N. apply andb_prop in D. destruct D as [D1 D2].
  cbn [foldr array]. specialize (F1 D1). revert F1. destruct (precompute (e_alloc E) e) as [v| |]; intro F1; cbn [fbind]; [|exact I|].
  - specialize (IH (acc ++ [v]) F2 D2 ltac:(lia)). destruct (foldr _ _ l (acc ++ [v])); [|exact I|]; intro s; (eapply eq_trans; [apply vexpr_gives; [exact F1|lia]|]; apply IH).
  - intro s. apply vexpr_crashes; [exact F1|lia].
Qed.
Lemma fold_link : forall l acc, Forall P l -> forallb parsed l = true -> fold_right (fun e d => Nat.max (depth e) d) 0 l <= n ->
  match foldr (precompute (e_alloc E)) (fun acc v => match link_push acc v with Some acc => FSome acc | None => FNone_ end) l acc with
  | FSome vs => forall s, link_go (eval E n) l acc s = Ok (inl vs) s
  | FNone_ => True
  | FCrash => forall s, link_go (eval E n) l acc s = Panic "capacity overflow"
  end.
Proof.
  induction l as [|e l IH]; intros acc F D N; [intro; reflexivity|]. inversion F as [|x y F1 F2]; subst. cbn in D, N. apply andb_prop in D. destruct D as [D1 D2].
  cbn [foldr link_go]. specialize (F1 D1). revert F1. destruct (precompute (e_alloc E) e) as [v| |]; intro F1; cbn [fbind]; [|exact I|].
  - destruct (link_push acc v) as [acc'|] eqn:L; cbn [fbind]; [|exact I]. specialize (IH acc' F2 D2 ltac:(lia)).
    assert (G : forall s, getv v s = Ok v s) by (intro s; destruct v; try reflexivity; discriminate L).
    destruct (foldr _ _ l acc'); [|exact I|]; intro s; (eapply eq_trans; [apply bind_ok; apply F1; lia|]; cbv beta iota;
      eapply eq_trans; [apply bind_ok; apply G|]; cbv beta; rewrite L; apply IH).
  - intro s. unfold bind. unfold crashes in F1. rewrite F1 by lia. reflexivity.
Qed.
Lemma fold_object : forall l acc, Forall (fun p => P (snd p)) l -> forallb (fun p => match p with (_, e) => parsed e end) l = true ->
  fold_right (fun p d => match p with (_, e) => Nat.max (depth e) d end) 0 l <= n -> distinct (map fst l) = true ->
  (forall k, In k (map fst l) -> assoc k acc = None) ->
  match foldkv (precompute (e_alloc E)) l acc with
  | FSome vs => forall s, object (eval E n) l acc s = Ok (Some (VObject vs), FContinue) s
  | FNone_ => True
  | FCrash => forall s, object (eval E n) l acc s = Panic "capacity overflow"
  end.
Proof.
  induction l as [|[k e] l IH]; intros acc F D N U A; [intro; reflexivity|]. inversion F as [|x y F1 F2]; subst. cbn in D, N, U. apply andb_prop in D. destruct D as [D1 D2].
  apply andb_prop in U. destruct U as [U1 U2]. apply negb_true_iff in U1.
  assert (K : ~ In k (map fst l)).
  { intro I0. rewrite <- not_true_iff_false in U1. apply U1. apply existsb_exists. exists k. split; [exact I0|apply String.eqb_refl]. }
  cbn [foldkv object]. cbn [snd] in F1. specialize (F1 D1). revert F1. destruct (precompute (e_alloc E) e) as [v| |]; intro F1; cbn [fbind]; [|exact I|].
  - specialize (A k (or_introl eq_refl)) as A0. assert (insert k v acc = acc ++ [(k, v)]) as IN by (unfold insert; rewrite A0; reflexivity). rewrite IN.
    specialize (IH (acc ++ [(k, v)]) F2 D2 ltac:(lia) U2).
    assert (B : forall k', In k' (map fst l) -> assoc k' (acc ++ [(k, v)]) = None).
    { intros k' I'. rewrite assoc_app, A by (right; exact I'). cbn [assoc]. destruct (String.eqb_spec k k') as [->|]; [contradiction|reflexivity]. }
    specialize (IH B). destruct (foldkv _ l _); [|exact I|]; intro s; (eapply eq_trans; [apply vexpr_gives; [exact F1|lia]|]; cbv beta; rewrite A0; apply IH).
  - intro s. apply vexpr_crashes; [exact F1|lia].
Qed.
End Lists.

Lemma link_state : forall s, (trunc_stack (length (r_stack s)) ;;; trunc_locals (length (r_locals s)) ;;; trunc_currents (length (r_currents s))) s = Ok tt s.
Proof.
  intros []. unfold trunc_stack, trunc_locals, trunc_currents, modify, bind; cbn. rewrite firstn_all. unfold trunc_top. rewrite !Nat.sub_diag. reflexivity.
Qed.
Lemma fold_right_all : forall E e, right_fold E e.
Proof.
  intro E. apply (e_ind (fun _ => True) (right_fold E) (item_all (right_fold E)) (idx_all (right_fold E)) (clos_all (right_fold E))); try (intros; exact I); try (intros; assumption);
    try (intros; intro; exact I).
  - intros l F P. cbn [parsed] in P. cbn [precompute]. 
    assert (G : forall m, fold_right (fun e d => Nat.max (depth e) d) 0 l <= m ->
      match foldr (precompute (e_alloc E)) (fun acc v => match link_push acc v with Some acc => FSome acc | None => FNone_ end) l [] with
      | FSome vs => forall s, link_go (eval E m) l [] s = Ok (inl vs) s
      | FNone_ => True
      | FCrash => forall s, link_go (eval E m) l [] s = Panic "capacity overflow"
      end) by (intros m M; apply fold_link; assumption).
    revert G. destruct (foldr _ _ l []) as [vs| |] eqn:Q; intro G; cbn [fbind]; [|exact I|]; intros n sd s N; cbn [depth] in N; (destruct n as [|n]; [lia|]);
      cbn [eval expression]; unfold link; destruct l as [|e l]; try (cbn in Q; first [discriminate|injection Q as <-; reflexivity]).
    + eapply eq_trans; [apply bind_ok; reflexivity|]. cbv beta. eapply eq_trans; [apply bind_ok; reflexivity|]. cbv beta.
      eapply eq_trans; [apply bind_ok; reflexivity|]. cbv beta. eapply eq_trans; [apply bind_ok; apply G; lia|]. cbv beta iota.
      pose proof (link_state s) as L. unfold bind in L |- *.
      destruct (trunc_stack _ s) as [u1 s1| | |]; try discriminate. destruct (trunc_locals _ s1) as [u2 s2| | |]; try discriminate.
      rewrite L. reflexivity.
    + eapply eq_trans; [apply bind_ok; reflexivity|]. cbv beta. eapply eq_trans; [apply bind_ok; reflexivity|]. cbv beta.
      eapply eq_trans; [apply bind_ok; reflexivity|]. cbv beta. unfold bind. rewrite G by lia. reflexivity.
  - intros l F P. cbn [parsed] in P. apply andb_prop in P. destruct P as [P1 P2]. cbn [precompute].
    assert (G : forall m, fold_right (fun p d => match p with (_, e) => Nat.max (depth e) d end) 0 l <= m ->
      match foldkv (precompute (e_alloc E)) l [] with
      | FSome vs => forall s, object (eval E m) l [] s = Ok (Some (VObject vs), FContinue) s
      | FNone_ => True
      | FCrash => forall s, object (eval E m) l [] s = Panic "capacity overflow"
      end) by (intros m M; apply fold_object; auto).
    revert G. destruct (foldkv _ l []) as [vs| |]; intro G; cbn [fbind]; [|exact I|]; intros n sd s N; cbn [depth] in N; (destruct n as [|n]; [lia|]);
      cbn [eval expression]; apply G; lia.
  - intros l F P. cbn [parsed] in P. cbn [precompute].
    assert (G : forall m, fold_right (fun e d => Nat.max (depth e) d) 0 l <= m ->
      match foldr (precompute (e_alloc E)) (fun acc v => FSome (acc ++ [v])) l [] with
      | FSome vs => forall s, array (eval E m) l [] s = Ok (Some (VArray vs), FContinue) s
      | FNone_ => True
      | FCrash => forall s, array (eval E m) l [] s = Panic "capacity overflow"
      end) by (intros m M; apply fold_array; assumption).
    revert G. destruct (foldr _ _ l []) as [vs| |]; intro G; cbn [fbind]; [|exact I|]; intros n sd s N; cbn [depth] in N; (destruct n as [|n]; [lia|]);
      cbn [eval expression]; apply G; lia.
  - intros a b A B P. cbn [parsed] in P. apply andb_prop in P. destruct P as [P1 P2].
    destruct a; try exact I. destruct b; try exact I. cbn [precompute]. destruct v0; try exact I.
    assert (GA : forall w, gives E (EVar w) w) by (intros w n sd s N; destruct n; [cbn in N; lia|reflexivity]).
    assert (V : forall s, getv v s = Ok v s) by (intro s; destruct v; try reflexivity; discriminate P1).
    destruct (e_alloc E (f64_to_usize x)) eqn:AL; intros n sd s N; cbn [depth] in N; (destruct n as [|n]; [lia|]);
      cbn [eval expression]; unfold array_fill; (eapply eq_trans; [apply vexpr_gives; [apply GA|cbn [depth]; lia]|]; cbv beta);
      (eapply eq_trans; [apply vexpr_gives; [apply GA|cbn [depth]; lia]|]; cbv beta);
      (eapply eq_trans; [apply bind_ok; apply V|]; cbv beta); (eapply eq_trans; [apply bind_ok; reflexivity|]; cbv beta iota zeta);
      rewrite AL; reflexivity.
  - intros l F P. cbn [parsed] in P. apply andb_prop in P. destruct P as [L P]. apply Nat.eqb_eq in L. cbn [precompute].
    destruct l as [|e0 [|e1 [|e2 [|e3 [|? ?]]]]]; cbn in L; try lia. clear L. cbn [forallb] in P.
    repeat match goal with H : _ && _ = true |- _ => apply andb_prop in H; destruct H end.
    inversion F as [|x0 y0 F0 F']; subst. inversion F' as [|x1 y1 F1 F'']; subst. inversion F'' as [|x2 y2 F2 F3']; subst. inversion F3' as [|x3 y3 F3 F4]; subst.
    clear F F' F'' F3' F4. specialize (F0 ltac:(assumption)). specialize (F1 ltac:(assumption)). specialize (F2 ltac:(assumption)). specialize (F3 ltac:(assumption)).
    assert (LEN : forall w s, length (r_stack (pushed w s)) = S (length (r_stack s))) by (intros w []; cbn; rewrite app_length; cbn; lia).
    cbn [fold4]. revert F0 F1 F2 F3. unfold gives, crashes.
    destruct (precompute (e_alloc E) e0) as [v0| |]; cbn [fbind]; [|intros; exact I|].
    2: { intros F0 _ _ _ n sd s N. cbn [depth fold_right] in N. destruct n as [|n]; [lia|]. cbn [eval expression]. unfold vec4_.
         eapply eq_trans; [apply bind_ok; reflexivity|]. cbv beta. cbn [push_comp_args]. unfold bind. rewrite F0 by lia. reflexivity. }
    destruct v0; cbn [component_of fbind]; try (intros; exact I).
    destruct (precompute (e_alloc E) e1) as [v1| |]; cbn [fbind]; [|intros; exact I|].
    2: { intros F0 F1 _ _ n sd s N. cbn [depth fold_right] in N. destruct n as [|n]; [lia|]. cbn [eval expression]. unfold vec4_.
         eapply eq_trans; [apply bind_ok; reflexivity|]. cbv beta.
         erewrite push_step; [|apply F0; lia|reflexivity|rewrite ?LEN; lia].
         replace (S (length (r_stack s)) - length (r_stack s)) with 1 by lia. cbn [Nat.ltb Nat.leb].
         cbn [push_comp_args]. unfold bind. rewrite F1 by lia. reflexivity. }
    destruct v1; cbn [component_of fbind]; try (intros; exact I).
    destruct (precompute (e_alloc E) e2) as [v2| |]; cbn [fbind]; [|intros; exact I|].
    2: { intros F0 F1 F2 _ n sd s N. cbn [depth fold_right] in N. destruct n as [|n]; [lia|]. cbn [eval expression]. unfold vec4_.
         eapply eq_trans; [apply bind_ok; reflexivity|]. cbv beta.
         erewrite push_step; [|apply F0; lia|reflexivity|rewrite ?LEN; lia].
         replace (S (length (r_stack s)) - length (r_stack s)) with 1 by lia. cbn [Nat.ltb Nat.leb].
         erewrite push_step; [|apply F1; lia|reflexivity|rewrite ?LEN; lia]. rewrite !LEN.
         replace (S (S (length (r_stack s))) - length (r_stack s)) with 2 by lia. cbn [Nat.ltb Nat.leb].
         cbn [push_comp_args]. unfold bind. rewrite F2 by lia. reflexivity. }
    destruct v2; cbn [component_of fbind]; try (intros; exact I).
    destruct (precompute (e_alloc E) e3) as [v3| |]; cbn [fbind]; [|intros; exact I|].
    2: { intros F0 F1 F2 F3 n sd s N. cbn [depth fold_right] in N. destruct n as [|n]; [lia|]. cbn [eval expression]. unfold vec4_.
         eapply eq_trans; [apply bind_ok; reflexivity|]. cbv beta.
         erewrite push_step; [|apply F0; lia|reflexivity|rewrite ?LEN; lia].
         replace (S (length (r_stack s)) - length (r_stack s)) with 1 by lia. cbn [Nat.ltb Nat.leb].
         erewrite push_step; [|apply F1; lia|reflexivity|rewrite ?LEN; lia]. rewrite !LEN.
         replace (S (S (length (r_stack s))) - length (r_stack s)) with 2 by lia. cbn [Nat.ltb Nat.leb].
         erewrite push_step; [|apply F2; lia|reflexivity|rewrite ?LEN; lia]. rewrite !LEN.
         replace (S (S (S (length (r_stack s)))) - length (r_stack s)) with 3 by lia. cbn [Nat.ltb Nat.leb].
         cbn [push_comp_args]. unfold bind. rewrite F3 by lia. reflexivity. }
    destruct v3; cbn [component_of fbind]; try (intros; exact I).
    intros F0 F1 F2 F3 n sd s N. cbn [depth fold_right] in N. destruct n as [|n]; [lia|].
    eapply eq_trans; [eapply C41_vector; [constructor; [apply F0; lia|reflexivity]|constructor; [apply F1; lia|reflexivity]|
      constructor; [apply F2; lia|reflexivity]|constructor; [apply F3; lia|reflexivity]|reflexivity..]|].
    cbn [app nth]. destruct s. reflexivity.
  - intros v _ P. cbn [precompute]. intros n sd s N. destruct n as [|n]; [cbn in N; lia|]. reflexivity.
Qed.

(** ** C43 *)
(** A folded literal has the value that evaluation gives, in any state and with any side, and evaluation
    changes nothing. Partial: no object has a key twice, see the refutation. *)
Theorem C43_value_partial : forall E e v, parsed e = true -> precompute (e_alloc E) e = FSome v ->
  forall n sd s, depth e <= n -> eval E n e sd s = Ok (Some v, FContinue) s.
Proof. intros E e v P F. pose proof (fold_right_all E e P) as H. rewrite F in H. exact H. Qed.
Print Assumptions C43_value_partial.
(** Folding panics only where evaluation panics. *)
Theorem C43_panic : forall E e, parsed e = true -> precompute (e_alloc E) e = FCrash ->
  forall n sd s, depth e <= n -> eval E n e sd s = Panic "capacity overflow".
Proof. intros E e P F. pose proof (fold_right_all E e P) as H. rewrite F in H. exact H. Qed.
Print Assumptions C43_panic.
(** So a literal whose evaluation is an error, ends early or gives nothing is not folded. *)
Theorem C43_error_partial : forall E e n sd s, parsed e = true -> depth e <= n ->
  (forall v, eval E n e sd s <> Ok (Some v, FContinue) s) -> eval E n e sd s <> Panic "capacity overflow" -> precompute (e_alloc E) e = FNone_.
Proof.
  intros E e n sd s P D N C. destruct (precompute (e_alloc E) e) as [v| |] eqn:F; [|reflexivity|].
  - elim (N v). apply C43_value_partial; assumption.
  - elim C. apply C43_panic; assumption.
Qed.
Print Assumptions C43_error_partial.

(** *** `grab` *)
(** A folded literal is a tree of constants, so copying it changes nothing. *)
Fixpoint const (v : value) : bool :=
  match v with
  | VArray l => forallb const l
  | VObject l => forallb (fun p => match p with (_, v) => const v end) l
  | VLink _ => true
  | _ => atom v
  end.
Lemma const_deep : forall via v, const v = true -> deep_val via v = InterpModel.DOk v.
Proof.
  intro via. apply (v_ind (fun v => const v = true -> deep_val via v = InterpModel.DOk v) (fun _ => True) (fun _ => True) (fun _ => True) (fun _ => True));
    try (intros; exact I); try (intros; reflexivity); try (intros; discriminate).
  - intros l F P. cbn [deep_val]. assert (dmap_arr (deep_val via) l = inl l) as ->; [|reflexivity]. cbn [const] in P.
    induction F as [|x l X F IH]; [reflexivity|]. cbn in P. apply andb_prop in P. destruct P as [P1 P2]. cbn [dmap_arr]. rewrite X by exact P1. rewrite IH by exact P2. reflexivity.
  - intros l F P. cbn [deep_val]. assert (dmap_obj (deep_val via) l = inl l) as ->; [|reflexivity]. cbn [const] in P.
    induction F as [|[k x] l X F IH]; [reflexivity|]. cbn in P, X. apply andb_prop in P. destruct P as [P1 P2]. cbn [dmap_obj]. rewrite X by exact P1. rewrite IH by exact P2. reflexivity.
Qed.
Definition folds_const (al : Z -> bool) (e : expr) : Prop := parsed e = true -> forall v, precompute al e = FSome v -> const v = true.
Lemma fold_const : forall al e, folds_const al e.
Proof.
  intro al. apply (e_ind (fun _ => True) (folds_const al) (item_all (folds_const al)) (idx_all (folds_const al)) (clos_all (folds_const al)));
    try (intros; exact I); try (intros; assumption); try (intros; intros ? ? ?; discriminate).
  - intros l F P v H. cbn [precompute] in H. destruct (foldr _ _ l []); [|discriminate|discriminate]. injection H as <-. reflexivity.
  - intros l F P v H. cbn [precompute] in H. cbn [parsed] in P. apply andb_prop in P. destruct P as [_ P].
    assert (G : forall acc vs, forallb (fun p => match p with (_, v) => const v end) acc = true -> foldkv (precompute al) l acc = FSome vs ->
      forallb (fun p => match p with (_, v) => const v end) vs = true).
    { clear H. induction F as [|[k e] l X F IH]; intros acc vs A Q; cbn [foldkv] in Q; [injection Q as <-; exact A|].
      cbn in P. apply andb_prop in P. destruct P as [P1 P2]. specialize (X P1). cbn [snd] in X.
      destruct (precompute al e) as [w| |]; try discriminate. cbn [fbind] in Q. eapply IH; [exact P2| |exact Q]. unfold insert.
      specialize (X w eq_refl). destruct (assoc k acc).
      - clear - A X. induction acc as [|[k' v'] acc IH]; [reflexivity|]. cbn in A |- *. apply andb_prop in A. destruct A as [A1 A2].
        destruct (String.eqb k' k); cbn; [rewrite X, A2|rewrite A1, IH]; auto.
      - rewrite forallb_app, A. cbn. rewrite X. reflexivity. }
    destruct (foldkv (precompute al) l []) as [vs| |] eqn:Q; try discriminate. injection H as <-. cbn [const]. exact (G [] vs eq_refl Q).
  - intros l F P v H. cbn [precompute] in H. cbn [parsed] in P.
    assert (G : forall acc vs, forallb const acc = true -> foldr (precompute al) (fun acc v => FSome (acc ++ [v])) l acc = FSome vs -> forallb const vs = true).
    { clear H. induction F as [|e l X F IH]; intros acc vs A Q; cbn [foldr] in Q; [injection Q as <-; exact A|].
      cbn in P. apply andb_prop in P. destruct P as [P1 P2]. specialize (X P1).
      destruct (precompute al e) as [w| |]; try discriminate. cbn [fbind] in Q. eapply IH; [exact P2| |exact Q].
      rewrite forallb_app, A. cbn. rewrite (X w eq_refl). reflexivity. }
    destruct (foldr _ _ l []) as [vs| |] eqn:Q; try discriminate. injection H as <-. cbn [const]. exact (G [] vs eq_refl Q).
  - intros a b A B P v H. cbn [parsed] in P. apply andb_prop in P. destruct P as [P1 P2].
    destruct a; try discriminate H. destruct b; try discriminate H. cbn [precompute] in H. destruct v1; try discriminate H.
    destruct (al (f64_to_usize x)); [|discriminate]. injection H as <-. cbn [const]. apply forallb_forall. intros y I0. apply repeat_spec in I0. subst.
    destruct v0; try discriminate P1; reflexivity.
  - intros l F P v H. cbn [precompute] in H. destruct (fold4 _ 4 l []); [|discriminate|discriminate]. injection H as <-. reflexivity.
  - intros w _ P v H. injection H as <-. cbn [parsed] in P. destruct w; try discriminate P; reflexivity.
Qed.
(** Creating a closure with the folded grab is creating it with the grab. *)
Theorem C43_grab_partial : forall E e v level, parsed e = true -> precompute (e_alloc E) e = FSome v ->
  make_grab (e_alloc E) level e = FSome (EVar v) /\
  forall n fuel lv s, depth e <= n -> grab_expr (eval E n) fuel lv (EVar v) s = Ok (GOk _ (EVar v)) s /\
    (level = lv -> grab_expr (eval E n) fuel lv (EGrab level e) s = Ok (GOk _ (EVar v)) s).
Proof.
  intros E e v level P F. split; [unfold make_grab; rewrite F; reflexivity|]. intros n fuel lv s D. split; [reflexivity|]. intros <-.
  cbn [grab_expr]. rewrite Nat.eqb_refl. unfold vexpr.
  eapply eq_trans; [apply bind_ok; apply C43_value_partial; eassumption|]. cbv beta iota.
  eapply eq_trans; [apply bind_ok with (a := v) (s' := s)|reflexivity]. unfold deep. destruct fuel; cbn [deep_clone]; rewrite const_deep by (eapply fold_const; eassumption); reflexivity.
Qed.
Print Assumptions C43_grab_partial.
(** What is not folded stays a grab. *)
Theorem C43_kept : forall al level e, precompute al e = FNone_ -> make_grab al level e = FSome (EGrab level e).
Proof. intros al level e F. unfold make_grab. rewrite F. reflexivity. Qed.
Print Assumptions C43_kept.

(** *** Examples: [{x: [1; 2], y: link {"a" 3}}, (1, 2, 0, 0)] *)
Definition lit1 : expr := EArray [EObject [("x", EArrayFill (num 1) (num 2)); ("y", ELink [EVar (VStr "a"); num 3])]; EVec4 [num 1; num 2; num 0; num 0]].
Definition val1 : value := VArray [VObject [("x", VArray [vf64 (f_of_Z 1); vf64 (f_of_Z 1)]); ("y", VLink [LStr "a"; LF64 (f_of_Z 3)])];
  VVec4 (V4 (g_of_Z 1) (g_of_Z 2) (g_of_Z 0) (g_of_Z 0))].
Example C43_example : parsed lit1 = true /\ precompute (fun _ => true) lit1 = FSome val1 /\ depth lit1 = 4.
Proof. repeat split; vm_compute; reflexivity. Qed.
(** A variable or a call inside is not folded. *)
Example C43_not : precompute (fun _ => true) (EArray [num 1; loc "x" 1]) = FNone_ /\ precompute (fun _ => true) (EVec4 [EVar (VStr "a"); num 0; num 0; num 0]) = FNone_.
Proof. split; reflexivity. Qed.

(** *** Refutations *)
(** `{x: 1, x: 2}` is an error when evaluated, but is folded. *)
Definition twice : expr := EObject [("x", num 1); ("x", num 2)].
Theorem C43_duplicate_refuted : precompute (fun _ => true) twice = FSome (VObject [("x", vf64 (f_of_Z 2))]) /\
  eval (env_ []) 2 twice Right s0 = Err "duplicate key" s0.
Proof. split; vm_compute; reflexivity. Qed.
(** `grab 1` outside a closure is an error when evaluated, but is folded. *)
Theorem C43_outside_refuted : make_grab (fun _ => true) 1 (num 1) = FSome (num 1) /\
  eval (env_ []) 2 (EGrab 1 (num 1)) Right s0 = Err "grab outside closure" s0 /\
  eval (env_ []) 2 (num 1) Right s0 = Ok (Some (vf64 (f_of_Z 1)), FContinue) s0.
Proof. repeat split; vm_compute; reflexivity. Qed.
