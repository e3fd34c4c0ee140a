(** * Loops, and every text that follows the grammar: what the checkers see in its trees is visible. *)
From Coq Require Import String List Bool Arith ZArith Lia.
From Verif Require Import PrintModel ColorModel Float64 TypeModel LifetimeModel NodesModel FoldModel TransformModel NodesSpec LivesSpec Syntax AstModel AstSpec AstProofs AstFile GrammarSpec GrammarBuild GrammarFits GrammarCases GrammarAll VisibleSpec VisibleTree NodesLayout VisibleText VisibleCases VisibleParts VisibleAll.
Import ListNotations.
Local Open Scope string_scope.
Local Open Scope nat_scope.
Local Open Scope list_scope.

Section Visible_.
Context (callable : string -> nat -> Prop) (in_of : option string -> string -> callee) (alloc : Z -> bool).
Notation tidy := (tidy true).
Notation oks := (forallb (nodes_all tidy)).
Notation regs := (forallb (nodes_all regular)).
Notation body := (body true).
Notation a_body := (a_body true).
Notation tok := (tok callable).
Notation threaded := (threaded callable).
Notation visible := (visible callable).
Notation visible_item := (visible_item callable).
Notation visible_idx := (visible_idx callable).
Notation means := (means callable).
Notation a_means := (a_means callable).
Notation fits := (fits callable).
Notation part := (part callable).
Notation stmt := (stmt callable).
Notation V_expr := (V_expr callable).
Notation V_all := (V_all callable).
Notation V_item := (V_item callable).
Notation V_ids := (V_ids callable).
Notation V_args := (V_args callable).
Notation V_arg := (V_arg callable).


(** ** Loops *)
Fixpoint ends_vis (V : list string) (is_ : list (string * option expr * option expr)) : Prop :=
  match is_ with
  | [] => True
  | (x, a, b) :: l => match a with Some a => visible V a | None => True end /\ match b with Some b => visible V b | None => False end /\ ends_vis (x :: V) l
  end.
Definition loop_vars (is_ : list (string * option expr * option expr)) : list string := map (fun i => fst (fst i)) is_.
Lemma loops_v : forall k label is_ es e, loops k label is_ es e -> forall V, ends_vis V is_ -> in_turn visible (rev (loop_vars is_) ++ V) es -> visible V e.
Proof.
  induction 1 as [label x a b e body E|label x a b e i l body inner H IH E]; intros V X T.
  - destruct X as (X1 & X2 & _). inversion E; subst; [|destruct X2]. cbn [VisibleSpec.visible]. auto.
  - destruct X as (X1 & X2 & X3). inversion E; subst; [|destruct X2]. cbn [VisibleSpec.visible in_turn]. split; [exact X1|]. split; [exact X2|]. split; [|exact Logic.I].
    apply IH; [exact X3|]. change (loop_vars ((x, a, Some e) :: i :: l)) with (x :: loop_vars (i :: l)) in T. cbn [rev] in T. rewrite <- app_assoc in T. exact T.
Qed.
Lemma loops_flat : forall k label is_ es e, loops k label is_ es e -> is_swizzle e = false.
Proof. now intros k label is_ es e []. Qed.
Record V_indices (l : list stx) (is_ : list (string * option expr * option expr)) : Prop := {
  vi_names : later_names l = loop_vars is_;
  vi_data : forall d, fst (builds l d) = with_names (x_names d ++ loop_vars is_) d;
  vi_hd : match l with SNode _ _ :: _ => False | _ => True end;
  vi_silent : oks l = true -> regs l = true -> no_intro l = true -> Forall silent (view l);
  vi_seen : oks l = true -> regs l = true -> forall x0 s, ends_apart x0 (l ++ [SNode "block" s]) = true -> closed (l ++ [SNode "block" s]) = true ->
    forall V0 V, Forall (tok false false V0) (view l) -> (forall y, In y V0 -> In y (loop_vars is_) \/ In y V) -> ends_vis V is_ }.
Lemma later_app : forall a b, later_names (a ++ b) = later_names a ++ later_names b.
Proof. intros. unfold later_names. apply flat_map_app. Qed.
Lemma later_block : forall l s, later_names (l ++ [SNode "block" s]) = later_names l.
Proof. intros. rewrite later_app. apply app_nil_r. Qed.
Lemma indices_v_nil : V_indices [] [].
Proof. split; try reflexivity; auto; try (intros; constructor). intros d. cbn. rewrite app_nil_r. now destruct d. Qed.
(** an end of a loop *)
Lemma end_v : forall n k b e xs V0 V, kind_new n = Some k -> In k wrappers -> body b -> V_expr b e -> nodes_all tidy (SNode n b) = true -> nodes_all regular (SNode n b) = true ->
  nodes_all (avoids xs) (SNode n b) = true -> tok false false V0 (seen (node k b)) -> (forall y, In y V0 -> In y xs \/ In y V) -> visible V e.
Proof.
  intros n k b e xs V0 V K W B E O R A T I. destruct (wrap_part callable n k b e K W B E O R) as (P & _). apply P. eapply tok_change; [eapply avoids_off; eauto|exact I|exact T].
Qed.
Lemma indices_v : forall x b c s e l is_ (two : bool), body b -> V_expr b s -> body c -> V_expr c e -> V_indices l is_ ->
  V_indices (str "name" x :: (if two then [SNode "start" b] else []) ++ SNode "end" c :: l) ((x, if two then Some s else None, Some e) :: is_).
Proof.
  intros x b c s e l is_ two B HB C HC [I1 I2 I3 I4 I5]. set (l' := (if two then [SNode "start" b] else []) ++ SNode "end" c :: l).
  assert (EV : view (str "name" x :: l') = (if two then [seen (node K_Start b)] else []) ++ seen (node K_End c) :: view l).
  { unfold str. rewrite view_value. unfold l'. rewrite view_app, (view_node "end" K_End) by reflexivity. destruct two; [now rewrite (view_node "start" K_Start)|reflexivity]. }
  assert (X : forall Q, forallb (nodes_all Q) (str "name" x :: l') = true -> (two = true -> nodes_all Q (SNode "start" b) = true) /\ nodes_all Q (SNode "end" c) = true /\ forallb (nodes_all Q) l = true).
  { intros Q H. cbn [forallb] in H. apply andb_true_iff in H. destruct H as [_ H]. unfold l' in H. rewrite forallb_app in H. apply andb_true_iff in H. destruct H as [H1 H2]. cbn [forallb] in H2. apply andb_true_iff in H2.
    split; [intros ->; cbn [forallb] in H1; now apply andb_true_iff in H1|exact H2]. }
  split.
  - unfold l', str. cbn [later_names flat_map]. change ("name" =? "name")%string with true. cbv iota. cbn [app loop_vars map fst]. f_equal. fold (later_names ((if two then [SNode "start" b] else []) ++ SNode "end" c :: l)).
    rewrite later_app. destruct two; exact I1.
  - intros d. unfold str. rewrite builds_value. cbn [say]. change (set_string "name" x d) with (with_names (x_names d ++ [x]) d). unfold l'.
    assert (Y : forall d', fst (builds ((if two then [SNode "start" b] else []) ++ SNode "end" c :: l) d') = fst (builds l d')).
    { intros d'. rewrite builds_app. cbn [fst]. assert (Z : fst (builds (if two then [SNode "start" b] else []) d') = d') by (destruct two; [cbn [GrammarBuild.builds fst]; now rewrite build_node|reflexivity]).
      rewrite Z. cbn [GrammarBuild.builds fst]. now rewrite build_node. }
    rewrite Y, I2. cbn [loop_vars map fst x_names with_names]. rewrite <- app_assoc. reflexivity.
  - exact Logic.I.
  - intros O R N. destruct (X _ O) as (O1 & O2 & O3), (X _ R) as (R1 & R2 & R3). rewrite EV. apply no_intro_cons in N. destruct N as [_ N]. unfold l' in N. apply no_intro_app in N. destruct N as [N1 N2].
    apply no_intro_cons in N2. destruct N2 as [N2 N3]. apply Forall_app. split.
    + destruct two; [|constructor]. constructor; [|constructor]. apply no_intro_cons in N1. destruct (wrap_part callable "start" K_Start b s) as (_ & _ & P & _); auto; [simpl; tauto|]. apply P, N1.
    + constructor; [|auto]. destruct (wrap_part callable "end" K_End c e) as (_ & _ & P & _); auto; [simpl; tauto|]. now apply P.
  - intros O R x0 s0 EA CL V0 V T I. destruct (X _ O) as (O1 & O2 & O3), (X _ R) as (R1 & R2 & R3). rewrite EV in T. apply Forall_app in T. destruct T as [T1 T2]. inversion_clear T2 as [|? ? T2' T3].
    unfold str in EA, CL. cbn [app ends_apart] in EA. change ("name" =? "name")%string with true in EA. cbv iota in EA. cbn [app closed] in CL. apply andb_true_iff in CL. destruct CL as [_ CL].
    assert (CL' : closed (l ++ [SNode "block" s0]) = true) by (unfold l' in CL; destruct two; exact CL).
    assert (EA' : (two = true -> nodes_all (avoids (x :: loop_vars is_)) (SNode "start" b) = true) /\ nodes_all (avoids (x :: loop_vars is_)) (SNode "end" c) = true /\ ends_apart [x] (l ++ [SNode "block" s0]) = true).
    { unfold l' in EA. destruct two; cbn [app ends_apart] in EA.
      - change (later_names (SNode "end" c :: l ++ [SNode "block" s0])) with (later_names (l ++ [SNode "block" s0])) in EA. rewrite later_block, I1 in EA.
        change (existsb (fun n => named n (SNode "start" b)) ["start"; "end"; "iter"]) with true in EA. change (existsb (fun n => named n (SNode "end" c)) ["start"; "end"; "iter"]) with true in EA.
        cbn [negb orb] in EA. rewrite !andb_true_iff in EA. tauto.
      - rewrite later_block, I1 in EA. change (existsb (fun n => named n (SNode "end" c)) ["start"; "end"; "iter"]) with true in EA. cbn [negb orb] in EA. rewrite !andb_true_iff in EA. split; [discriminate|tauto]. }
    destruct EA' as (E1 & E2 & E3). cbn [ends_vis]. split; [|split].
    + destruct two; [|exact Logic.I]. inversion_clear T1. apply (end_v "start" K_Start b s (x :: loop_vars is_) V0 V eq_refl); auto; simpl; tauto.
    + apply (end_v "end" K_End c e (x :: loop_vars is_) V0 V eq_refl); auto; simpl; tauto.
    + apply (I5 O3 R3 [x] s0 E3 CL' V0 (x :: V) T3). intros y Y. specialize (I y Y). cbn [loop_vars map fst] in I. destruct I as [[<-|I]|I]; [right; now left|now left|right; now right].
Qed.
Lemma indices_v_open : forall x l is_, V_indices l is_ -> V_indices (str "name" x :: l) ((x, None, None) :: is_).
Proof.
  intros x l is_ [I1 I2 I3 I4 I5]. unfold str. split.
  - cbn [later_names flat_map]. change ("name" =? "name")%string with true. cbv iota. cbn [app loop_vars map fst]. f_equal. exact I1.
  - intros d. rewrite builds_value. cbn [say]. change (set_string "name" x d) with (with_names (x_names d ++ [x]) d). rewrite I2. cbn [loop_vars map fst x_names with_names]. rewrite <- app_assoc. reflexivity.
  - exact Logic.I.
  - intros O R N. rewrite view_value. apply oks_cons in O. apply regs_cons in R. apply no_intro_cons in N. apply I4; tauto.
  - intros O R x0 s EA CL. exfalso. cbn [app closed] in CL. apply andb_true_iff in CL. destruct CL as [CL _]. change (negb ("name" =? "name")%string) with false in CL. cbn [orb] in CL.
    destruct l as [|[n c| | |] l]; cbn [app named] in CL; try discriminate. destruct I3.
Qed.
(** a block within a node *)
Lemma block_part : forall n k l es, kind_new n = Some k -> In k [K_Block; K_TrueBlock; K_ElseIfBlock; K_ElseBlock] -> In n statements -> all_mean in_of alloc "expr" l es -> V_all "expr" l es ->
  nodes_all tidy (SNode n l) = true -> nodes_all regular (SNode n l) = true ->
  silent (seen (node k l)) /\ opless (seen (node k l)) /\ forall V, tok false false V (seen (node k l)) -> in_turn visible V es.
Proof. intros n k l es K I N M A O R. destruct (block_v callable in_of alloc n k l es [] K I N M A O R) as (S_ & OP & _). split; [exact S_|]. split; [exact OP|]. intros V. eapply block_v; eauto. Qed.
(** a node with variables of its own *)
Lemma loop_seen : forall k ns l, loopb k = true -> fst (builds l (blank k (start_ty k))) = with_names ns (blank k (start_ty k)) ->
  opless (seen (node k l)) /\ forall V, tok false false V (seen (node k l)) -> threaded (ns ++ V) (view l).
Proof.
  intros k ns l K D. unfold node, dat. rewrite D. assert (S_ : simple (with_names ns (blank k (start_ty k))) = true) by (destruct k; try discriminate K; reflexivity).
  assert (C : container k = true) by (destruct k; try discriminate K; reflexivity). split.
  - unfold opless. rewrite seen_node; [reflexivity|exact S_|now apply container_steady].
  - intros V H. apply container_tok in H; [|exact S_|exact C|reflexivity]. unfold over in H. cbn [with_names blank x_kind x_names] in H. rewrite K in H. exact H.
Qed.
Lemma ends_label : forall x o l, ends_apart x (strs "label" o ++ l) = ends_apart x l.
Proof. now intros x [] l. Qed.
Lemma closed_label : forall o l, closed (strs "label" o ++ l) = closed l.
Proof. now intros [] l. Qed.
Lemma index_v : forall name k label l is_ b es e, In (name, k) index_loops -> V_indices l is_ -> all_mean in_of alloc "expr" b es -> V_all "expr" b es -> loops k label is_ es e ->
  V_expr [SNode name (strs "label" label ++ l ++ [SNode "block" b])] e.
Proof.
  intros name k label l is_ b es e I [I1 I2 I3 I4 I5] M A LO O R. apply oks_cons in O. apply regs_cons in R. destruct O as [O _], R as [R _].
  assert (X : exists kk, kind_new name = Some kk /\ loopb kk = true /\ existsb (String.eqb name) statements = false /\ name <> "for" /\ name <> "swizzle" /\ name <> "item" /\ existsb (String.eqb name) loop_names = true).
  { simpl in I. repeat (destruct I as [I|I]; [inversion I; subst; eexists; (split; [reflexivity|]); repeat split; discriminate|]). destruct I. }
  destruct X as (kk & K & LB & NS & NF & N1 & N2 & LN). pose proof (reg_parts _ _ R NS NF) as [R' NI]. apply ok_node in O. destruct O as [_ O]. rewrite oks_strs, oks_app in O. destruct O as [O1 O2]. apply oks_cons in O2. destruct O2 as [O2 _].
  apply regs_app in R'. destruct R' as [_ R']. apply regs_app in R'. destruct R' as [R1 R2]. apply regs_cons in R2. destruct R2 as [R2 _]. apply no_intro_app in NI. destruct NI as [_ NI]. apply no_intro_app in NI. destruct NI as [NI _].
  apply reg_node in R. destruct R as [R _]. unfold regular in R. rewrite LN, !andb_true_iff, ends_label, closed_label in R. destruct R as (((_ & EA) & CL) & _). cbn [negb orb] in CL.
  destruct (loop_seen kk (loop_vars is_) (strs "label" label ++ l ++ [SNode "block" b]) LB) as [OP T].
  { rewrite label_data, builds_app. cbn [fst]. rewrite I2. cbn [GrammarBuild.builds fst]. rewrite build_node. change (kind_new "block") with (Some K_Block). reflexivity. }
  destruct (block_part "block" K_Block b es) as (_ & _ & BV); auto; try (simpl; tauto).
  eapply node_means; eauto; [eapply loops_flat; eauto|]. intros V H. apply T in H. rewrite view_strs, view_app in H. apply threaded_app in H; [|now apply I4]. destruct H as [H1 H2].
  rewrite (view_node "block" K_Block) in H2 by reflexivity. destruct H2 as [H2 _]. eapply loops_v; [exact LO| |].
  - eapply I5; eauto. intros y Y. now apply in_app_or in Y.
  - apply BV. eapply tok_more; [|exact H2]. intros y Y. apply in_app_or in Y. apply in_or_app. destruct Y as [Y|Y]; [left; now apply -> in_rev|now right].
Qed.
Lemma receive_v : forall name k label x b l it es, In (name, k) receiving_loops -> body b -> V_expr b it -> all_mean in_of alloc "expr" l es -> V_all "expr" l es ->
  V_expr [SNode name (strs "label" label ++ [str "name" x; SNode "iter" b; SNode "block" l])] (EForIn k label x it es).
Proof.
  intros name k label x b l it es I B E M A O R. apply oks_cons in O. apply regs_cons in R. destruct O as [O _], R as [R _].
  assert (X : exists kk, kind_new name = Some kk /\ loopb kk = true /\ existsb (String.eqb name) statements = false /\ name <> "for" /\ name <> "swizzle" /\ name <> "item").
  { simpl in I. repeat (destruct I as [I|I]; [inversion I; subst; eexists; (split; [reflexivity|]); repeat split; discriminate|]). destruct I. }
  destruct X as (kk & K & LB & NS & NF & N1 & N2). pose proof (reg_parts _ _ R NS NF) as [R' NI]. apply ok_node in O. destruct O as [_ O]. rewrite oks_strs in O. apply regs_app in R'. destruct R' as [_ R'].
  cbn [forallb] in O, R'. rewrite !andb_true_iff in O, R'. destruct O as (_ & O1 & O2 & _), R' as (_ & R1 & R2 & _). apply no_intro_app in NI. destruct NI as [_ NI]. apply no_intro_cons in NI. destruct NI as [_ NI]. apply no_intro_cons in NI. destruct NI as [NI _].
  apply reg_node in R. destruct R as [R _]. unfold regular in R. rewrite !andb_true_iff, ends_label in R. destruct R as (((_ & EA) & _) & _). unfold str in EA. cbn [ends_apart] in EA. change ("name" =? "name")%string with true in EA. cbv iota in EA.
  change (existsb (fun n => named n (SNode "iter" b)) ["start"; "end"; "iter"]) with true in EA. cbn [negb orb later_names flat_map app] in EA. apply andb_true_iff in EA. destruct EA as [EA _].
  destruct (loop_seen kk [x] (strs "label" label ++ [str "name" x; SNode "iter" b; SNode "block" l]) LB) as [OP T].
  { rewrite label_data. unfold str. rewrite builds_value. cbn [GrammarBuild.builds fst]. rewrite !build_node. reflexivity. }
  destruct (block_part "block" K_Block l es) as (_ & _ & BV); auto; try (simpl; tauto).
  destruct (wrap_part callable "iter" K_Iter b it) as (_ & _ & P & _); auto; [simpl; tauto|]. destruct (P NI) as [S_ _].
  eapply node_means; eauto. intros V H. apply T in H. rewrite view_strs in H. unfold str in H. rewrite view_value, (view_node "iter" K_Iter), (view_node "block" K_Block) in H by reflexivity. destruct H as (H1 & H2 & _).
  rewrite S_ in H2. cbn [VisibleSpec.visible]. split; [|now apply BV]. eapply (end_v "iter" K_Iter); eauto; [simpl; tauto|]. intros y Y. now apply in_app_or in Y.
Qed.
Lemma for_v : forall label b c d l i t s es, body b -> V_expr b i -> body c -> V_expr c t -> body d -> V_expr d s -> all_mean in_of alloc "expr" l es -> V_all "expr" l es ->
  V_expr [SNode "for" (strs "label" label ++ [SNode "init" b; SNode "cond" c; SNode "step" d; SNode "block" l])] (EFor label i t s es).
Proof.
  intros label b c d l i t s es B HB C HC D HD M A O R. apply oks_cons in O. apply regs_cons in R. destruct O as [O _], R as [R _]. apply ok_node in O. destruct O as [_ O]. rewrite oks_strs in O.
  apply reg_node in R. destruct R as [R0 R]. apply regs_app in R. destruct R as [_ R]. cbn [forallb] in O, R. rewrite !andb_true_iff in O, R. destruct O as (O1 & O2 & O3 & O4 & _), R as (R1 & R2 & R3 & R4 & _).
  unfold regular in R0. change (existsb (String.eqb "for") statements) with false in R0. cbv iota in R0. rewrite !andb_true_iff in R0. destruct R0 as ((((R0 & _) & _) & _) & _).
  rewrite forallb_app in R0. apply andb_true_iff in R0. destruct R0 as [_ R0]. cbn [forallb] in R0. rewrite !andb_true_iff in R0. destruct R0 as (S1 & S2 & S3 & _).
  cbn [named String.eqb Ascii.eqb Bool.eqb andb] in S1, S2, S3. apply negb_true_iff in S2, S3.
  destruct (wrap_part callable "init" K_Init b i) as (_ & _ & _ & P1); auto; [simpl; tauto|]. destruct (P1 S1) as [Q1 Q2].
  destruct (wrap_part callable "cond" K_Cond c t) as (_ & _ & P2 & _); auto; [simpl; tauto|]. destruct (P2 S2) as [Q3 Q4].
  destruct (wrap_part callable "step" K_Step d s) as (_ & _ & P3 & _); auto; [simpl; tauto|]. destruct (P3 S3) as [Q5 Q6].
  destruct (block_part "block" K_Block l es) as (_ & _ & BV); auto; try (simpl; tauto).
  destruct (plain_seen callable K_For (strs "label" label ++ [SNode "init" b; SNode "cond" c; SNode "step" d; SNode "block" l]) eq_refl) as (_ & OP & T); [rewrite label_data; now apply nodes_data|].
  eapply node_means with (k := K_For); eauto; try discriminate. intros V H. apply T in H. rewrite view_strs in H.
  rewrite (view_node "init" K_Init), (view_node "cond" K_Cond), (view_node "step" K_Step), (view_node "block" K_Block) in H by reflexivity. destruct H as (H1 & H2 & H3 & H4 & _).
  rewrite Q3 in H3. rewrite Q3, Q5 in H4. cbn [app] in *. pose proof (fun W => tok_more callable W false false (declares_t (t_children (seen (node K_Init b))) ++ V) (declared_by i ++ V)) as TM.
  assert (IN : incl (declares_t (t_children (seen (node K_Init b))) ++ V) (declared_by i ++ V)) by (apply incl_app; [apply incl_appl, Q1|apply incl_appr, incl_refl]).
  cbn [VisibleSpec.visible]. split; [now apply Q2|]. split; [apply Q4; now apply TM|]. split; [apply Q6; now apply TM|]. apply BV. now apply TM.
Qed.

(** ** Other nodes *)
Definition V_pairs (l : list stx) (kvs : list (string * expr)) : Prop := oks l = true -> regs l = true -> Forall2 part (view l) (map snd kvs).
Lemma pairs_v_cons : forall k b e l kvs, body b -> V_expr b e -> V_pairs l kvs -> V_pairs (SNode "key_value" [str "key" k; SNode "val" b] :: l) ((k, e) :: kvs).
Proof.
  intros k b e l kvs B E P O R. apply oks_cons in O. apply regs_cons in R. destruct O as [O O'], R as [R R']. apply reg_parts in R; [|reflexivity|discriminate]. destruct R as [R NI]. apply ok_node in O. destruct O as [_ O].
  cbn [forallb] in O, R. rewrite !andb_true_iff in O, R. destruct O as (_ & O & _), R as (_ & R & _). apply no_intro_cons in NI. destruct NI as [_ NI]. apply no_intro_cons in NI. destruct NI as [NI _].
  destruct (wrap_part callable "val" K_Val b e) as (P1 & P2 & _); auto; [simpl; tauto|].
  destruct (plain_seen callable K_KeyValue [str "key" k; SNode "val" b] eq_refl) as (S_ & _ & T); [unfold str; rewrite builds_value; cbn [GrammarBuild.builds fst]; now rewrite build_node|].
  assert (EV : view [str "key" k; SNode "val" b] = [seen (node K_Val b)]) by (unfold str; rewrite view_value; now rewrite (view_node "val" K_Val)).
  rewrite (view_node "key_value" K_KeyValue) by reflexivity. constructor; [|now apply P]. split.
  - unfold silent. rewrite S_. cbn [t_children]. rewrite EV. now apply quiet_first.
  - intros V H. apply T in H. rewrite EV in H. destruct H as [H _]. now apply P1.
Qed.
Lemma object_visible : forall V kvs, all_in visible V (map snd kvs) -> visible V (EObject kvs).
Proof. intros V kvs. cbn [VisibleSpec.visible]. induction kvs as [|[k e] kvs IH]; [auto|]. intros [A B]. exact (conj A (IH B)). Qed.
(** nodes whose parts see the same variables *)
Lemma plain_parts : forall n k l e es, kind_new n = Some k -> n <> "swizzle" -> n <> "item" -> is_swizzle e = false -> plain_node k = true -> fst (builds l (blank k (start_ty k))) = blank k (start_ty k) ->
  Forall2 part (view l) es -> (forall V, all_in visible V es -> visible V e) -> means [SNode n l] e.
Proof.
  intros n k l e es K N1 N2 F PN D P H. destruct (plain_seen callable k l PN D) as (_ & OP & T). eapply node_means; eauto. intros V X. apply H. eapply parts_threaded; eauto.
Qed.
Definition somes (es : list (option expr)) : list expr := flat_map (fun o => match o with Some e => [e] | None => [] end) es.
Definition V_parts (ns : list string) (l : list stx) (es : list (option expr)) : Prop := incl ns part_names -> oks l = true -> regs l = true -> no_intro l = true -> Forall2 part (view l) (somes es).
Lemma parts_v_cons : forall n b m e ns l es, a_body b m -> V_arg b e -> V_parts ns l es -> V_parts (n :: ns) (SNode n b :: l) (Some e :: es).
Proof.
  intros n b m e ns l es B E P I O R NI. apply oks_cons in O. apply regs_cons in R. apply no_intro_cons in NI. destruct O as [O O'], R as [R R'], NI as [NI NI']. apply ok_node in O. apply reg_node in R. destruct O as [_ O], R as [_ R].
  assert (X : exists k, kind_new n = Some k /\ In k wrappers).
  { specialize (I n (or_introl eq_refl)). simpl in I. repeat (destruct I as [<-|I]; [eexists; split; [reflexivity|simpl; tauto]|]). destruct I. }
  destruct X as (k & K & W). rewrite (view_node n k) by assumption. cbn [somes flat_map app]. constructor; [|apply P; auto; intros y Y; apply I; now right].
  destruct (wrapper_part callable k b m e W B O (E O R)) as (P1 & P2 & P3). split; auto.
Qed.
Lemma fill_visible : forall V es ds, all_in visible V (somes es) -> all_in visible V ds -> all_in visible V (fill_up es ds).
Proof.
  intros V. induction es as [|[e|] es IH]; intros ds A B; [exact Logic.I| |]; destruct ds as [|d ds]; try exact Logic.I; cbn in *; (split; [tauto|]); apply IH; tauto.
Qed.
Lemma letters_silent : forall l inds, swizzled l inds -> Forall silent (view l) /\ forallb is_node l = true.
Proof.
  assert (X : forall n k s i l, letter n s i -> kind_new n = Some k -> view (s :: l) = seen (NT (dat k (body_of s)) []) :: view l /\ is_node s = true).
  { intros n k s i l [c j I] K. split; [|reflexivity]. rewrite (view_node n k) by assumption. reflexivity. }
  assert (Y : forall d, silent (seen (NT d []))).
  { intros d. unfold seen. assert (E : wo (NT d []) = NT d []) by (cbn [wo map]; unfold without_operator; destruct (x_binops d); reflexivity). rewrite E. reflexivity. }
  intros l inds H. inversion H; subst.
  - destruct (X _ K_Sw0 _ _ [t] H0 eq_refl) as [-> E1]. destruct (X _ K_Sw1 _ _ [] H1 eq_refl) as [-> E2]. split; [repeat (constructor; [apply Y|]); constructor|]. cbn [forallb]. now rewrite E1, E2.
  - destruct (X _ K_Sw0 _ _ [t; u] H0 eq_refl) as [-> E1]. destruct (X _ K_Sw1 _ _ [u] H1 eq_refl) as [-> E2]. destruct (X _ K_Sw2 _ _ [] H2 eq_refl) as [-> E3].
    split; [repeat (constructor; [apply Y|]); constructor|]. cbn [forallb]. now rewrite E1, E2, E3.
  - destruct (X _ K_Sw0 _ _ [t; u; v] H0 eq_refl) as [-> E1]. destruct (X _ K_Sw1 _ _ [u; v] H1 eq_refl) as [-> E2]. destruct (X _ K_Sw2 _ _ [v] H2 eq_refl) as [-> E3]. destruct (X _ K_Sw3 _ _ [] H3 eq_refl) as [-> E4].
    split; [repeat (constructor; [apply Y|]); constructor|]. cbn [forallb]. now rewrite E1, E2, E3, E4.
Qed.
Lemma swizzle_v : forall l inds b e, swizzled l inds -> body b -> V_expr b e -> V_arg [SNode "swizzle" (l ++ [SNode "expr" b])] (ESwizzle inds e).
Proof.
  intros l inds b e S_ B E O R. apply oks_cons in O. apply regs_cons in R. destruct O as [O _], R as [R _]. apply ok_node in O. apply reg_node in R. destruct O as [_ O], R as [_ R].
  apply oks_app in O. apply regs_app in R. destruct O as [_ O], R as [_ R]. apply oks_cons in O. apply regs_cons in R. destruct O as [O _], R as [R _].
  destruct (letters_silent _ _ S_) as [LS LN]. destruct (wrap_part callable "expr" K_Expr b e) as (P1 & _); auto; [simpl; tauto|].
  destruct (plain_seen callable K_Swizzle (l ++ [SNode "expr" b]) eq_refl) as (_ & OP & T); [apply nodes_data; rewrite forallb_app, LN; reflexivity|].
  assert (F : forest [SNode "swizzle" (l ++ [SNode "expr" b])] = [node K_Swizzle (l ++ [SNode "expr" b])]) by (now rewrite (forest_node "swizzle" K_Swizzle)).
  split.
  - rewrite F. cbn. lia.
  - discriminate.
  - intros _. unfold view. rewrite F. now apply quiet_first.
  - intros V H. unfold view in H. rewrite F in H. inversion_clear H as [|? ? H' _]. apply T in H'. rewrite view_app in H'. apply threaded_app in H'; [|exact LS]. destruct H' as [_ H']. rewrite (view_node "expr" K_Expr) in H' by reflexivity.
    destruct H' as [H' _]. cbn [VisibleSpec.visible]. now apply P1.
Qed.
(** branches *)
Definition blocks_visible (V : list string) : list (list expr) -> Prop := fix go l := match l with [] => True | b :: l => in_turn visible V b /\ go l end.
Definition V_elses (l : list stx) (cs : list expr) (bs : list (list expr)) : Prop := oks l = true -> regs l = true -> no_intro l = true ->
  Forall silent (view l) /\ forall V, Forall (tok false false V) (view l) -> all_in visible V cs /\ blocks_visible V bs.
Definition V_else (l : list stx) (eb : option (list expr)) : Prop := oks l = true -> regs l = true ->
  Forall silent (view l) /\ forall V, Forall (tok false false V) (view l) -> match eb with Some b => in_turn visible V b | None => True end.
Lemma elses_v_cons : forall b c l es r cs bs, body b -> V_expr b c -> all_mean in_of alloc "expr" l es -> V_all "expr" l es -> V_elses r cs bs ->
  V_elses (SNode "else_if_cond" b :: SNode "else_if_block" l :: r) (c :: cs) (es :: bs).
Proof.
  intros b c l es r cs bs B E M A H O R NI. cbn [forallb] in O, R. rewrite !andb_true_iff in O, R. destruct O as (O1 & O2 & O3), R as (R1 & R2 & R3). apply no_intro_cons in NI. destruct NI as [N1 NI]. apply no_intro_cons in NI. destruct NI as [_ NI].
  destruct (wrap_part callable "else_if_cond" K_ElseIfCond b c) as (_ & _ & P & _); auto; [simpl; tauto|]. destruct (P N1) as [Q1 Q2].
  destruct (block_part "else_if_block" K_ElseIfBlock l es) as (S_ & _ & BV); auto; try (simpl; tauto). destruct (H O3 R3 NI) as [H1 H2].
  rewrite (view_node "else_if_cond" K_ElseIfCond), (view_node "else_if_block" K_ElseIfBlock) by reflexivity. split; [constructor; [exact Q1|constructor; [exact S_|exact H1]]|].
  intros V T. inversion_clear T as [|? ? T1 T']. inversion_clear T' as [|? ? T2 T3]. destruct (H2 V T3). cbn [all_in blocks_visible]. split; (split; [auto|assumption]).
Qed.
Lemma else_v_some : forall l es, all_mean in_of alloc "expr" l es -> V_all "expr" l es -> V_else [SNode "else_block" l] (Some es).
Proof.
  intros l es M A O R. apply oks_cons in O. apply regs_cons in R. destruct (block_part "else_block" K_ElseBlock l es) as (S_ & _ & BV); auto; try (simpl; tauto).
  rewrite (view_node "else_block" K_ElseBlock) by reflexivity. split; [constructor; [exact S_|constructor]|]. intros V T. inversion_clear T. now apply BV.
Qed.
Lemma if_v : forall b l r r' c t cs bs eb, body b -> V_expr b c -> all_mean in_of alloc "expr" l t -> V_all "expr" l t -> (oks r = true -> exists ks, all_nodes true r ks) -> V_elses r cs bs ->
  (oks r' = true -> exists ks, all_nodes true r' ks) -> V_else r' eb ->
  V_expr [SNode "if" (SNode "cond" b :: SNode "true_block" l :: r ++ r')] (EIf c t cs bs eb).
Proof.
  intros b l r r' c t cs bs eb B E M A DR HR DE HE O R. apply oks_cons in O. apply regs_cons in R. destruct O as [O _], R as [R _]. apply reg_parts in R; [|reflexivity|discriminate]. destruct R as [R NI]. apply ok_node in O. destruct O as [_ O].
  rewrite !oks_cons, oks_app in O. rewrite !regs_cons, regs_app in R. rewrite !no_intro_cons, no_intro_app in NI. destruct O as (O1 & O2 & O3 & O4), R as (R1 & R2 & R3 & R4), NI as (N1 & N2 & N3 & N4).
  destruct (wrap_part callable "cond" K_Cond b c) as (_ & _ & P & _); auto; [simpl; tauto|]. destruct (P N1) as [Q1 Q2].
  destruct (block_part "true_block" K_TrueBlock l t) as (S_ & _ & BV); auto; try (simpl; tauto). destruct (HR O3 R3 N3) as [H1 H2]. destruct (HE O4 R4) as [H3 H4].
  destruct (plain_seen callable K_If (SNode "cond" b :: SNode "true_block" l :: r ++ r') eq_refl) as (_ & OP & T).
  { cbn [GrammarBuild.builds fst]. rewrite !build_node. change (kind_new "cond") with (Some K_Cond). change (kind_new "true_block") with (Some K_TrueBlock). cbn [fst]. rewrite builds_app. cbn [fst].
    destruct (DR O3) as [k1 D1], (DE O4) as [k2 D2]. now rewrite (all_data _ _ _ D1), (all_data _ _ _ D2). }
  eapply node_means with (k := K_If); eauto; try discriminate. intros V H. apply T in H. rewrite (view_node "cond" K_Cond), (view_node "true_block" K_TrueBlock), view_app in H by reflexivity.
  apply threaded_all in H; [|constructor; [exact Q1|constructor; [exact S_|now apply Forall_app]]]. inversion_clear H as [|? ? T1 T']. inversion_clear T' as [|? ? T2 T3]. apply Forall_app in T3. destruct T3 as [T3 T4].
  destruct (H2 V T3) as [X1 X2]. cbn [VisibleSpec.visible]. split; [now apply Q2|]. split; [now apply BV|]. split; [exact X1|]. split; [exact X2|]. now apply H4.
Qed.
End Visible_.
