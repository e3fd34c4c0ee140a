(** * Every text that follows the grammar has trees that the checkers can work on. *)
From Coq Require Import String List Bool Arith ZArith Lia.
From Verif Require Import PrintModel ColorModel Float64 TypeModel LifetimeModel NodesModel FoldModel TransformModel NodesSpec LivesSpec Syntax AstModel AstSpec AstProofs AstFile GrammarSpec GrammarBuild GrammarFits GrammarCases.
Import ListNotations.
Local Open Scope string_scope.
Local Open Scope nat_scope.
Local Open Scope list_scope.

Scheme expr_body_m := Minimality for expr_body Sort Prop
with all_mean_m := Minimality for all_mean Sort Prop
with pairs_mean_m := Minimality for pairs_mean Sort Prop
with arg_body_m := Minimality for arg_body Sort Prop
with arguments_mean_m := Minimality for arguments_mean Sort Prop
with named_mean_m := Minimality for named_mean Sort Prop
with parts_mean_m := Minimality for parts_mean Sort Prop
with call_means_m := Minimality for call_means Sort Prop
with item_means_m := Minimality for item_means Sort Prop
with ids_mean_m := Minimality for ids_mean Sort Prop
with operand_means_m := Minimality for operand_means Sort Prop
with operands_mean_m := Minimality for operands_mean Sort Prop
with rest_mean_m := Minimality for rest_mean Sort Prop
with indices_mean_m := Minimality for indices_mean Sort Prop
with elses_mean_m := Minimality for elses_mean Sort Prop
with else_mean_m := Minimality for else_mean Sort Prop
with args_mean_m := Minimality for args_mean Sort Prop
with lazy_mean_m := Minimality for lazy_mean Sort Prop.
Combined Scheme grammar_ind from expr_body_m, all_mean_m, pairs_mean_m, arg_body_m, arguments_mean_m, named_mean_m, parts_mean_m, call_means_m,
  item_means_m, ids_mean_m, operand_means_m, operands_mean_m, rest_mean_m, indices_mean_m, elses_mean_m, else_mean_m, args_mean_m, lazy_mean_m.

Section All.
Context (L : bool) (in_of : option string -> string -> callee) (alloc : Z -> bool).
Notation tidy := (tidy L).
Notation oks := (forallb (nodes_all tidy)).
Notation sorted := (sorted parse_type).
Notation build := (build parse_type).
Notation builds := (builds parse_type).
Notation good := (good L).
Notation one_node := (one_node L).
Notation all_nodes := (all_nodes L).
Notation body := (body L).
Notation a_body := (a_body L).
Notation ok s := (nodes_all tidy s = true).

Definition is_a (n : string) (s : stx) : Prop := exists b, s = SNode n b.
Definition part_names : list string := ["x"; "y"; "z"; "w"; "ex"; "ey"; "ez"; "ew"].
Definition part_kinds : list kind := [K_X; K_Y; K_Z; K_W; K_EX; K_EY; K_EZ; K_EW; K_ReturnVoid].
Definition indices (l : list stx) : Prop := oks l = true -> Forall sorted l /\ exists ns ts, Forall good ts /\ Forall (kin [K_Start; K_End; K_ReturnVoid]) ts /\
  forall d, builds l d = (with_names (x_names d ++ ns) d, ts).
Definition Q_all (n : string) (l : list stx) : Prop :=
  forall k, kind_new n = Some k -> In k wrappers -> k <> K_Return -> oks l = true -> all_nodes l [k; K_ReturnVoid].
Definition Q_call (c : stx) : Prop := (is_a "call" c \/ is_a "named_call" c) /\ (ok c -> one_node c [K_Call]).
Definition Q_item (c : stx) : Prop := is_a "item" c /\ (ok c -> one_node c [K_Item]).

(** a node around an expression, as one of several *)
Lemma wrap1 : forall n k b, kind_new n = Some k -> In k wrappers -> k <> K_Return -> body b -> ok (SNode n b) -> one_node (SNode n b) [k; K_ReturnVoid].
Proof. intros n k b K W R B O. apply ok_node in O. eapply wrap_node; eauto. now apply body_arg. apply O. Qed.
Lemma wrap2 : forall n k b ks, kind_new n = Some k -> In k wrappers -> k <> K_Return -> body b -> ok (SNode n b) -> incl [k; K_ReturnVoid] ks -> one_node (SNode n b) ks.
Proof. intros. eapply one_more; [eapply wrap1; eauto|assumption]. Qed.
Lemma block_node : forall n k l, kind_new n = Some k -> In k [K_Block; K_TrueBlock; K_ElseIfBlock; K_ElseBlock] -> Q_all "expr" l -> ok (SNode n l) -> one_node (SNode n l) [k].
Proof.
  intros n k l K I H O. apply ok_node in O. eapply contain_all with (ks := [K_Expr; K_ReturnVoid]); [exact K| | |].
  - simpl in I. repeat (destruct I as [<-|I]; [split; reflexivity|]). destruct I.
  - apply H; [reflexivity|simpl; tauto|discriminate|apply O].
  - simpl in I. repeat (destruct I as [<-|I]; [reflexivity|]). destruct I.
Qed.
Lemma item_body : forall it, Q_item it -> body [it].
Proof. intros it [[b ->] H]. eapply node_body1 with (k := K_Item); [discriminate|simpl; tauto|]. intros T O. apply H. now apply ok_node. Qed.
Lemma call_body : forall c, Q_call c -> body [c].
Proof. intros c [[[b ->] | [b ->]] H]; (eapply node_body1 with (k := K_Call); [discriminate|simpl; tauto|]); intros T O; apply H; now apply ok_node. Qed.
Ltac sub := simpl; tauto.
Ltac inc := let k := fresh in intros k; simpl; tauto.
Ltac oks_in O := repeat match type of O with
  | oks (strs _ _ ++ _) = true => rewrite oks_strs in O
  | oks (flags _ _ ++ _) = true => rewrite oks_flags in O
  end.

Lemma letter_node : forall n k s i, letter n s i -> kind_new n = Some k -> In k [K_Sw0; K_Sw1; K_Sw2; K_Sw3] -> one_node s [K_Sw0; K_Sw1; K_Sw2; K_Sw3].
Proof.
  intros n k s i [c j I] K IK. assert (F : is_type k = false /\ is_sig_type k = false /\ start_ty k = None /\ unop_name k = None) by (simpl in IK; intuition (subst; reflexivity)).
  destruct F as (F1 & F2 & F3 & F4).
  split. { apply sorted_node. split; [eauto|]. constructor; [exact Logic.I|constructor]. }
  exists (NT (set_bool c true (blank k None)) []). split; [intros d; rewrite build_node, K, F3; reflexivity|].
  assert (D : set_bool c true (blank k None) = blank k None \/ set_bool c true (blank k None) = with_binops [PrintModel.Cross] (blank k None)).
  { simpl in I. destruct I as [I|[I|[I|[I|[]]]]]; inversion I; auto. }
  assert (E : wo (NT (set_bool c true (blank k None)) []) = NT (set_bool c true (blank k None)) []) by (destruct D as [-> | ->]; reflexivity).
  split; [|unfold kin, kind_of; rewrite E; destruct D as [-> | ->]; exact IK].
  split; rewrite ?E.
  - apply fits_node. split; [left; destruct D as [-> | ->]; [now left|right; now split]|]. split; [reflexivity|]. split; [|constructor].
    intros X. exfalso. apply X. destruct D as [-> | ->]; exact F4.
  - simpl in IK. destruct D as [-> | ->]; destruct IK as [<-|[<-|[<-|[<-|[]]]]]; reflexivity.
  - simpl in IK. destruct D as [-> | ->]; destruct IK as [<-|[<-|[<-|[<-|[]]]]]; reflexivity.
  - intros _. simpl in IK. destruct D as [-> | ->]; destruct IK as [<-|[<-|[<-|[<-|[]]]]]; reflexivity.
  - left. destruct D as [-> | ->]; reflexivity.
Qed.
Lemma letters_nodes : forall l inds, swizzled l inds -> all_nodes l [K_Sw0; K_Sw1; K_Sw2; K_Sw3].
Proof.
  intros l inds H. inversion H; subst;
    repeat (apply all_cons; [first [eapply (letter_node "sw0"); [eassumption|reflexivity|sub]|eapply (letter_node "sw1"); [eassumption|reflexivity|sub]
      |eapply (letter_node "sw2"); [eassumption|reflexivity|sub]|eapply (letter_node "sw3"); [eassumption|reflexivity|sub]]|]); apply all_none.
Qed.
Lemma swizzle_body : forall l inds b, swizzled l inds -> body b -> a_body [SNode "swizzle" (l ++ [SNode "expr" b])] false.
Proof.
  intros l inds b H B O. rewrite oks_cons, ok_node in O. destruct O as [[_ O] _]. apply oks_app in O. destruct O as [_ O]. apply oks_cons in O.
  assert (X : one_node (SNode "swizzle" (l ++ [SNode "expr" b])) [K_Swizzle]).
  { eapply contain_all with (ks := [K_Sw0; K_Sw1; K_Sw2; K_Sw3; K_Expr; K_ReturnVoid]); [reflexivity|split; reflexivity| |reflexivity]. apply all_app.
    - eapply all_more; [eapply letters_nodes; eauto|inc].
    - apply all_cons; [|apply all_none]. eapply wrap2; [reflexivity|sub|discriminate|exact B|apply O|inc]. }
  destruct X as (W & t & E & G & K). split; [constructor; [exact W|constructor]|]. split; [reflexivity|]. intros d. exists (x_ty d), (x_try d), [t].
  split; [rewrite (builds_one _ _ _ _ E); unfold voids; cbn; now destruct d|]. split; [constructor; [exact G|constructor]|].
  split; [constructor; [destruct K as [K|[]]; now left|constructor]|]. split; discriminate.
Qed.
Lemma mut_body : forall it, Q_item it -> a_body [flag "mut"; it] true.
Proof.
  intros it [[b ->] H] O. apply oks_cons in O. destruct O as [_ O]. apply oks_cons in O. destruct (H (proj1 O)) as (W & t & E & G & K).
  split; [constructor; [exact Logic.I|constructor; [exact W|constructor]]|]. split; [reflexivity|]. intros d. exists (x_ty d), (x_try d), [t].
  split; [unfold flag; rewrite builds_value, (builds_one _ _ _ _ E); unfold voids; cbn; now destruct d|]. split; [constructor; [exact G|constructor]|].
  assert (K' : kin plain_kinds t) by (destruct K as [K|[]]; unfold kin; rewrite <- K; sub).
  split; [constructor; [now right|constructor]|]. split; [intros _; constructor; [exact K'|constructor]|discriminate].
Qed.

(** nodes with a name *)
Lemma indices_app : forall l s ts ks, indices l -> oks l = true -> (forall d, builds s d = (d, ts)) -> Forall sorted s -> Forall good ts -> Forall (kin ks) ts ->
  Forall sorted (l ++ s) /\ exists ns us, (forall d, builds (l ++ s) d = (with_names (x_names d ++ ns) d, us)) /\ Forall good us /\ Forall (kin ([K_Start; K_End; K_ReturnVoid] ++ ks)) us.
Proof.
  intros l s ts ks H O B W G K. destruct (H O) as (W' & ns & us & G' & K' & E). split; [now apply Forall_app|]. exists ns, (us ++ ts). split; [|split].
  - intros d. rewrite builds_app, E. cbn [fst snd]. rewrite B. reflexivity.
  - now apply Forall_app.
  - apply Forall_app. split; [eapply kin_more; [exact K'|]; intros k I; apply in_or_app; now left|eapply kin_more; [exact K|]; intros k I; apply in_or_app; now right].
Qed.
Lemma indices_name : forall x l ts s, (forall d, builds s d = (d, ts)) -> Forall sorted s -> Forall good ts -> Forall (kin [K_Start; K_End; K_ReturnVoid]) ts ->
  indices l -> oks l = true -> Forall sorted (str "name" x :: s ++ l) /\ exists ns us, Forall good us /\ Forall (kin [K_Start; K_End; K_ReturnVoid]) us /\
  forall d, builds (str "name" x :: s ++ l) d = (with_names (x_names d ++ ns) d, us).
Proof.
  intros x l ts s B W G K H O. destruct (H O) as (W' & ns & us & G' & K' & E). split; [constructor; [exact Logic.I|now apply Forall_app]|].
  exists (x :: ns), (ts ++ us). split; [now apply Forall_app|]. split; [now apply Forall_app|]. intros d. unfold str. rewrite builds_value. cbn [say].
  rewrite (builds_all _ _ _ _ B), E. cbn. now rewrite <- app_assoc.
Qed.
Lemma index_node : forall name k label l b, In (name, k) index_loops -> indices l -> Q_all "expr" b ->
  oks (strs "label" label ++ l ++ [SNode "block" b]) = true -> one_node (SNode name (strs "label" label ++ l ++ [SNode "block" b])) plain_kinds.
Proof.
  intros name k label l b I H B O. oks_in O. apply oks_app in O. destruct O as [O1 O2]. apply oks_cons in O2.
  assert (X : one_node (SNode "block" b) [K_Block]) by (eapply block_node; [reflexivity|sub|exact B|apply O2]). destruct X as (W & t & E & G & K).
  destruct (indices_app l [SNode "block" b] [t] [K_Block] H O1) as (W' & ns & us & B' & G' & K');
    [intros d; now rewrite (builds_one _ _ _ _ E)|constructor; [exact W|constructor]|constructor; [exact G|constructor]|constructor; [exact K|constructor]|].
  assert (X : exists kk, kind_new name = Some kk /\ In kk plain_kinds /\ fine kk /\ forall ns, accepts (with_names ns (blank kk (start_ty kk))) ([K_Start; K_End; K_ReturnVoid] ++ [K_Block]) false = true).
  { simpl in I. repeat (destruct I as [I|I]; [inversion I; subst; eexists; (split; [reflexivity|split; [sub|split; [split; reflexivity|intros []; reflexivity]]])|]). destruct I. }
  destruct X as (kk & K1 & K2 & K3 & K4).
  apply one_kind with (k := kk); [|exact K2]. change kk with (x_kind (with_names ns (blank kk (start_ty kk)))).
  eapply contain with (ne := false); [exact K1|exact K3| | |exact G'|exact K'|apply K4|discriminate].
  - apply Forall_app. split; [apply sorted_strs|exact W'].
  - rewrite builds_label, B'. reflexivity.
Qed.
Lemma receive_node : forall name k label x b l, In (name, k) receiving_loops -> body b -> Q_all "expr" l ->
  oks (strs "label" label ++ [str "name" x; SNode "iter" b; SNode "block" l]) = true ->
  one_node (SNode name (strs "label" label ++ [str "name" x; SNode "iter" b; SNode "block" l])) plain_kinds.
Proof.
  intros name k label x b l I B H O. oks_in O. apply oks_cons in O. destruct O as [_ O]. apply oks_cons in O. destruct O as [O1 O2]. apply oks_cons in O2.
  assert (X : all_nodes [SNode "iter" b; SNode "block" l] [K_Iter; K_ReturnVoid; K_Block]).
  { apply all_cons; [eapply wrap2; [reflexivity|sub|discriminate|exact B|exact O1|inc]|]. apply all_cons; [|apply all_none].
    eapply one_kind; [eapply block_node; [reflexivity|sub|exact H|apply O2]|sub]. }
  destruct X as (W & ts & E & G & K).
  assert (X : exists kk, kind_new name = Some kk /\ In kk plain_kinds /\ fine kk /\ forall ns, accepts (with_names ns (blank kk (start_ty kk))) [K_Iter; K_ReturnVoid; K_Block] false = true).
  { simpl in I. repeat (destruct I as [I|I]; [inversion I; subst; eexists; (split; [reflexivity|split; [sub|split; [split; reflexivity|intros []; reflexivity]]])|]). destruct I. }
  destruct X as (kk & K1 & K2 & K3 & K4).
  apply one_kind with (k := kk); [|exact K2]. change kk with (x_kind (with_names [x] (blank kk (start_ty kk)))).
  eapply contain with (ne := false); [exact K1|exact K3| | |exact G|exact K|apply K4|discriminate].
  - apply Forall_app. split; [apply sorted_strs|constructor; [exact Logic.I|exact W]].
  - rewrite builds_label. unfold str. rewrite builds_value, E. reflexivity.
Qed.
Lemma u16_pos : forall x, (0 <= f64_to_u16 x)%Z.
Proof.
  intros x. unfold f64_to_u16. apply Z.min_glb; [|lia]. destruct x as [| | |[] m e]; simpl; try lia; try destruct s; try (unfold USIZE_MAX; lia).
  apply Z.min_glb; [|unfold USIZE_MAX; lia].
  destruct (0 <=? e)%Z; [destruct (1024 <? e)%Z; [unfold USIZE_MAX; lia|]|]; [apply Z.shiftl_nonneg|apply Z.shiftr_nonneg]; lia.
Qed.
Lemma grab_node : forall level b, body b -> tidy "grab" (level_pieces level ++ [SNode "expr" b]) = true -> oks (level_pieces level ++ [SNode "expr" b]) = true ->
  one_node (SNode "grab" (level_pieces level ++ [SNode "expr" b])) [K_Grab].
Proof.
  intros level b B T O. apply oks_app in O. destruct O as [_ O]. apply oks_cons in O.
  assert (X : one_node (SNode "expr" b) [K_Expr; K_ReturnVoid]) by (eapply wrap1; [reflexivity|sub|discriminate|exact B|apply O]). destruct X as (W & t & E & G & K).
  unfold GrammarFits.tidy in T. apply andb_true_iff in T. destruct T as [T _].
  change (forallb (fun t => match t with SValue (MF64 _ v) => negb (flt v f1) | _ => true end) (level_pieces level ++ [SNode "expr" b]) = true) in T.
  set (d := match level with Some v => with_grab (f64_to_u16 v) (blank K_Grab None) | None => blank K_Grab None end).
  assert (DK : x_kind d = K_Grab) by (unfold d; now destruct level). rewrite <- DK.
  assert (F : forall v, level = Some v -> flt v f1 = false).
  { intros v ->. cbn in T. rewrite andb_true_r in T. now apply negb_true_iff in T. }
  eapply contain with (ks := [K_Expr; K_ReturnVoid]) (ts := [t]) (ne := false); [reflexivity|split; reflexivity| | |constructor; [exact G|constructor]|constructor; [exact K|constructor]| |discriminate].
  - apply Forall_app. split; [|constructor; [exact W|constructor]]. destruct level as [v|]; [|constructor]. constructor; [|constructor]. cbn. now apply F.
  - destruct level as [v|]; cbn [level_pieces app].
    + rewrite builds_value, (builds_one _ _ _ _ E). cbn [GrammarBuild.builds fst snd]. unfold say, set_f64.
      change ("grab_level" =? "num")%string with false. change ("grab_level" =? "grab_level")%string with true. cbv iota. rewrite (F v eq_refl). reflexivity.
    + rewrite (builds_one _ _ _ _ E). reflexivity.
  - unfold accepts, simple, d. destruct level as [v|]; [|reflexivity]. pose proof (u16_pos v) as P. apply Z.leb_le in P. cbn [with_grab blank x_grab x_binops x_kind unop_name]. now rewrite P.
Qed.

(** how the text of a node is fine *)
Ltac pieces O := repeat match type of O with
  | oks (strs _ _ ++ _) = true => rewrite oks_strs in O
  | oks (flags _ _ ++ _) = true => rewrite oks_flags in O
  | oks (?s :: ?l) = true => let O' := fresh "O'" in apply oks_cons in O; destruct O as [O' O]
  | oks (_ ++ _) = true => let O' := fresh "O'" in apply oks_app in O; destruct O as [O' O]
  end.
Ltac wrapper := eapply wrap2; [reflexivity|sub|discriminate|eassumption|eassumption|inc].
Ltac block := eapply one_kind; [eapply block_node; [reflexivity|sub|eassumption|eassumption]|sub].

Theorem grammar_good :
  (forall b e, expr_body in_of alloc b e -> body b) /\
  (forall n l es, all_mean in_of alloc n l es -> Q_all n l) /\
  (forall l kvs, pairs_mean in_of alloc l kvs -> oks l = true -> all_nodes l [K_KeyValue]) /\
  (forall b m e, arg_body in_of alloc b m e -> a_body b m) /\
  (forall l ms es, arguments_mean in_of alloc l ms es -> a_args L l) /\
  (forall l ws ms es, named_mean in_of alloc l ws ms es -> n_args L ws l) /\
  (forall ns l es, parts_mean in_of alloc ns l es -> incl ns part_names -> oks l = true -> all_nodes l part_kinds) /\
  (forall c f es, call_means in_of alloc c f es -> Q_call c) /\
  (forall it i, item_means in_of alloc it i -> Q_item it) /\
  (forall k l ids tries, ids_mean in_of alloc k l ids tries -> oks l = true -> all_nodes l [K_Id; K_ReturnVoid]) /\
  (forall t e, operand_means in_of alloc t e -> ok t -> one_node t operand_kinds) /\
  (forall l e es, operands_mean in_of alloc l e es -> operands L l) /\
  (forall l es, rest_mean in_of alloc l es -> operands' L l) /\
  (forall l is_, indices_mean in_of alloc l is_ -> indices l) /\
  (forall l cs bs, elses_mean in_of alloc l cs bs -> oks l = true -> all_nodes l [K_ElseIfCond; K_ElseIfBlock; K_ReturnVoid]) /\
  (forall l eb, else_mean in_of alloc l eb -> oks l = true -> all_nodes l [K_ElseBlock]) /\
  (forall l xs lz, args_mean in_of alloc l xs lz -> f_args L l) /\
  (forall l zs, lazy_mean in_of alloc l zs -> oks l = true -> all_nodes l [K_Grab]).
Proof.
  apply grammar_ind.
  - intros b e _ H. now apply body_try.
  - (* in *) intros a x. eapply node_body1 with (k := K_In); [discriminate|sub|]. intros _ _.
    set (d := with_names [x] (match a with Some v => with_alias v (blank K_In (start_ty K_In)) | None => blank K_In (start_ty K_In) end)).
    assert (E : x_kind d = K_In) by (unfold d; now destruct a). rewrite <- E.
    eapply (contain L "in" K_In _ [] d []) with (ne := false); [reflexivity|split; reflexivity| | |constructor|constructor|unfold d; now destruct a|discriminate].
    + apply Forall_app. split; [apply sorted_strs|constructor; [exact Logic.I|constructor]].
    + rewrite builds_strs. unfold d. now destruct a.
  - (* closure *) intros args currents b xs lz cs e _ HA C _ B. eapply node_body1 with (k := K_Closure); [discriminate|sub|]. intros T O. eapply closure_node; eauto.
  - intros l kvs _ H. eapply node_body1 with (k := K_Object); [discriminate|sub|]. intros _ O. eapply contain_all; [reflexivity|split; reflexivity|exact (H O)|reflexivity].
  - intros l es _ H. eapply node_body1 with (k := K_Array); [discriminate|sub|]. intros _ O.
    eapply contain_all; [reflexivity|split; reflexivity|apply (H K_ArrayItem eq_refl); [sub|discriminate|exact O]|reflexivity].
  - intros b c e n _ B _ C. eapply node_body1 with (k := K_ArrayFill); [discriminate|sub|]. intros _ O. pieces O.
    eapply contain_all with (ks := [K_Fill; K_N; K_ReturnVoid]); [reflexivity|split; reflexivity| |reflexivity]. apply all_cons; [wrapper|]. apply all_cons; [wrapper|apply all_none].
  - intros l es _ H. eapply node_body1 with (k := K_Link); [discriminate|sub|]. intros _ O.
    eapply contain_all; [reflexivity|split; reflexivity|apply (H K_LinkItem eq_refl); [sub|discriminate|exact O]|reflexivity].
  - intros l es _ H. eapply node_body1 with (k := K_Block); [discriminate|sub|]. intros T O. eapply block_node; [reflexivity|sub|exact H|now apply ok_node].
  - (* for *) intros label b c d l i t s es _ B _ C _ D _ H. eapply node_body1 with (k := K_For); [discriminate|sub|]. intros _ O. pieces O.
    eapply contain_all with (ks := [K_Init; K_Cond; K_Step; K_Block; K_ReturnVoid]); [reflexivity|split; reflexivity| |reflexivity]. apply all_label.
    apply all_cons; [wrapper|]. apply all_cons; [wrapper|]. apply all_cons; [wrapper|]. apply all_cons; [block|apply all_none].
  - intros label l es _ H. eapply node_body1 with (k := K_Loop); [discriminate|sub|]. intros _ O. pieces O.
    eapply contain_all with (ks := [K_Block]); [reflexivity|split; reflexivity| |reflexivity]. apply all_label. apply all_cons; [block|apply all_none].
  - intros name k label l is_ b es e I _ H _ B _ _. apply node_body; [intros ->; simpl in I; intuition discriminate|]. intros _ O. eapply index_node; eauto.
  - intros name k label x b l it es I _ B _ H _. apply node_body; [intros ->; simpl in I; intuition discriminate|]. intros _ O. eapply receive_node; eauto.
  - (* if *) intros b l r r' c t cs bs eb _ B _ H _ HR _ HE. eapply node_body1 with (k := K_If); [discriminate|sub|]. intros _ O. pieces O.
    eapply contain_all with (ks := [K_Cond; K_TrueBlock; K_ElseIfCond; K_ElseIfBlock; K_ElseBlock; K_ReturnVoid]); [reflexivity|split; reflexivity| |reflexivity].
    apply all_cons; [wrapper|]. apply all_cons; [block|]. apply all_app; eapply all_more; eauto; inc.
  - intros label. eapply node_body1 with (k := K_Break); [discriminate|sub|]. intros _ _. eapply contain_all with (ks := []); [reflexivity|split; reflexivity| |reflexivity].
    rewrite <- (app_nil_r (strs _ _)). apply all_label, all_none.
  - intros label. eapply node_body1 with (k := K_Continue); [discriminate|sub|]. intros _ _. eapply contain_all with (ks := []); [reflexivity|split; reflexivity| |reflexivity].
    rewrite <- (app_nil_r (strs _ _)). apply all_label, all_none.
  - (* assign *) intros b o op c l r I _ B _ C. eapply node_body1 with (k := K_Assign); [discriminate|sub|]. intros T O. pieces O.
    apply ok_node in O', O'1. unfold GrammarFits.tidy in T. apply andb_true_iff in T. eapply assign_node; eauto; [apply T|apply O'|apply O'1].
  - (* return *) intros b e _ B. apply node_body; [discriminate|]. intros T O.
    destruct (wrap L "return" K_Return b false) as (W & t & TW); [reflexivity|sub|now apply body_arg|exact O| |].
    { intros l _. unfold GrammarFits.tidy in T. rewrite l in T. apply andb_true_iff in T. exact (proj2 T). }
    split; [exact W|]. exists t. destruct TW. split; [assumption|]. split; [assumption|]. unfold kin. rewrite wr_kind. destruct (voids b); sub.
  - (* return without a value *) apply value_body; [exact Logic.I|reflexivity|]. intros d. exists (x_ty d). now destruct d.
  - (* operators *) intros name l e es r I _ H _. apply node_body; [intros ->; simpl in I; intuition discriminate|]. intros _ O.
    assert (X : exists k, kind_new name = Some k /\ In k [K_Add; K_Mul; K_Compare; K_Pow]).
    { simpl in I. destruct I as [<-|[<-|[<-|[]]]]; eexists; (split; [reflexivity|sub]). }
    destruct X as (k & K & IK). eapply one_more; [exact (proj1 (operators_node L name k l K IK H O))|]. inc.
  - intros b e _ B. eapply node_body1 with (k := K_Call); [discriminate|sub|]. intros T O. pieces O. apply ok_node in O'.
    unfold GrammarFits.tidy in T. apply andb_true_iff in T. destruct T as [T _]. eapply unary; [reflexivity|reflexivity|exact B|apply O'|].
    change (forallb (fun t => negb (is_void t)) [SNode "expr" b] = true) in T. cbn [forallb] in T. rewrite andb_true_r in T. apply negb_true_iff in T. exact T.
  - intros b e _ B. eapply node_body1 with (k := K_Call); [discriminate|sub|]. intros T O. pieces O. apply ok_node in O'.
    unfold GrammarFits.tidy in T. apply andb_true_iff in T. destruct T as [T _]. eapply unary; [reflexivity|reflexivity|exact B|apply O'|].
    change (forallb (fun t => negb (is_void t)) [SNode "expr" b] = true) in T. cbn [forallb] in T. rewrite andb_true_r in T. apply negb_true_iff in T. exact T.
  - intros l x es _ H. eapply node_body1 with (k := K_Vec4); [discriminate|sub|]. intros _ O. eapply contain_all; [reflexivity|split; reflexivity|apply H; [inc|exact O]|reflexivity].
  - intros l x es _ H. eapply node_body1 with (k := K_Mat4); [discriminate|sub|]. intros _ O. eapply contain_all; [reflexivity|split; reflexivity|apply H; [inc|exact O]|reflexivity].
  - (* un_loop *) intros len n x b e I _ B. eapply node_body1 with (k := K_Vec4UnLoop); [discriminate|sub|]. intros _ O. pieces O.
    assert (X : one_node (SNode "expr" b) [K_Expr; K_ReturnVoid]) by (eapply wrap1; [reflexivity|sub|discriminate|exact B|assumption]). destruct X as (W & t & E & G & K).
    change K_Vec4UnLoop with (x_kind (with_names [x] (blank K_Vec4UnLoop (start_ty K_Vec4UnLoop)))).
    eapply contain with (k := K_Vec4UnLoop) (ks := [K_Expr; K_ReturnVoid]) (ts := [t]) (ne := false);
      [reflexivity|split; reflexivity| | |constructor; [exact G|constructor]|constructor; [exact K|constructor]|reflexivity|discriminate].
    + constructor; [exact Logic.I|]. constructor; [exact Logic.I|]. constructor; [exact W|constructor].
    + unfold flag, str. rewrite !builds_value, (builds_one _ _ _ _ E). simpl in I. destruct I as [I|[I|[I|[]]]]; inversion I; reflexivity.
  - intros level b e v _ B _. eapply node_body1 with (k := K_Grab); [discriminate|sub|]. intros T O. now apply grab_node.
  - intros level b e _ B _. eapply node_body1 with (k := K_Grab); [discriminate|sub|]. intros T O. now apply grab_node.
  - intros b e _ B. eapply node_body1 with (k := K_TryExpr); [discriminate|sub|]. intros _ O. pieces O.
    eapply contain_all with (ks := [K_Expr; K_ReturnVoid]); [reflexivity|split; reflexivity| |reflexivity]. apply all_cons; [wrapper|apply all_none].
  - intros x. apply value_body; [exact Logic.I|reflexivity|]. intros d. exists (Some TStr). now destruct d.
  - intros x. apply value_body; [reflexivity|reflexivity|]. intros d. exists (Some TF64). now destruct d.
  - intros v. apply value_body; [exact Logic.I|reflexivity|]. intros d. exists (Some TBool). now destruct d.
  - intros x c _. apply value_body; [exact Logic.I|reflexivity|]. intros d. exists (Some TVec4). now destruct d.
  - intros it i _ H. now apply item_body.
  - intros c f args _ H. now apply call_body.
  - intros c f args _ [H H']. eapply node_body1 with (k := K_Go); [discriminate|sub|]. intros _ O. pieces O.
    eapply contain_all with (ks := [K_Call]); [reflexivity|split; reflexivity| |reflexivity]. apply all_cons; [now apply H'|apply all_none].
  - intros it i l ms es _ [_ H] _ A. eapply node_body1 with (k := K_CallClosure); [discriminate|sub|]. intros T O. pieces O. apply call_closure_node; auto.
  - intros it i l ws ms es _ [_ H] _ A N _. eapply node_body1 with (k := K_CallClosure); [discriminate|sub|]. intros T O. pieces O. eapply named_closure_node; eauto.
  - (* several *) intros n k _ _ _ _. apply all_none.
  - intros n b e l es _ B _ H k K W R O. pieces O. apply all_cons; [eapply wrap1; eauto|apply H; auto].
  - intros _. apply all_none.
  - intros k b e l kvs _ B _ H O. pieces O. apply all_cons; [|now apply H]. apply ok_node in O'. destruct O' as [_ O']. pieces O'.
    eapply contain_all with (ks := [K_Val; K_ReturnVoid]); [reflexivity|split; reflexivity| |reflexivity]. apply all_say; [exact Logic.I|reflexivity|].
    apply all_cons; [wrapper|apply all_none].
  - intros it i _ H. now apply mut_body.
  - intros l inds b e S_ _ B. eapply swizzle_body; eauto.
  - intros b e _ B. now apply body_arg.
  - apply args_nil.
  - intros b m e l ms es _ A _ H. eapply args_cons; eauto.
  - apply named_nil.
  - intros w b m e l ws ms es _ A _ H. eapply named_cons; eauto.
  - intros _ _. apply all_none.
  - intros n b m e ns l es _ A _ H I O. pieces O. apply all_cons; [|apply H; [intros y Y; apply I; now right|exact O]].
    apply ok_node in O'. specialize (I n (or_introl eq_refl)). simpl in I.
    repeat (destruct I as [<-|I]; [eapply one_more; [eapply wrap_node; [reflexivity|sub|discriminate|exact A|apply O']|inc]|]). destruct I.
  - intros n ns l es _ H I O. apply H; [intros y Y; apply I; now right|exact O].
  - intros a x l ms es _ H. split; [left; eexists; reflexivity|]. intros O. apply ok_node in O. eapply call_node; [exact H|apply O|apply O].
  - intros a x l ws ms es _ _ H. split; [right; eexists; reflexivity|]. intros O. apply ok_node in O. eapply named_node; [exact H|apply O|apply O].
  - intros c x q. split; [eexists; reflexivity|]. intros _. apply item_node.
  - intros c x q l ids tries _ _ H. split; [eexists; reflexivity|]. intros O. apply ok_node in O. destruct O as [_ O]. pieces O. apply ok_node in O'0. apply extra_node. apply H, O'0.
  - intros k _. apply all_none.
  - intros k x q l ids tries _ H O. pieces O. apply all_say; [exact Logic.I|reflexivity|]. apply all_flags; [reflexivity|now apply H].
  - intros k x q l ids tries _ H O. pieces O. apply all_say; [reflexivity|reflexivity|]. apply all_flags; [reflexivity|now apply H].
  - intros k b e q l ids tries _ B _ H O. pieces O. apply all_cons; [wrapper|]. apply all_flags; [reflexivity|now apply H].
  - intros b e _ B O. apply ok_node in O. destruct O as [T O]. pieces O. apply ok_node in O'.
    unfold GrammarFits.tidy in T. apply andb_true_iff in T. destruct T as [T _]. eapply one_kind; [eapply unary; [reflexivity|reflexivity|exact B|apply O'|]|sub].
    change (forallb (fun t => negb (is_void t)) [SNode "expr" b] = true) in T. cbn [forallb] in T. rewrite andb_true_r in T. apply negb_true_iff in T. exact T.
  - intros l e es r _ H _ O. apply ok_node in O. apply (operators_node L "pow" K_Pow l eq_refl); [sub|exact H|apply O|discriminate].
  - intros b e _ B O. wrapper.
  - intros t e l es _ H _ H'. now apply operands_cons.
  - intros _. split; [constructor|]. exists [], []. split; [reflexivity|]. split; [constructor|]. split; [constructor|]. intros d. rewrite app_nil_r. now destruct d.
  - intros s o t e l es I _ H _ H'. eapply operands_rest; eauto.
  - intros _. split; [constructor|]. exists [], []. split; [constructor|]. split; [constructor|]. intros d. rewrite app_nil_r. now destruct d.
  - intros x b c s e l is_ _ B _ C _ H O. pieces O.
    assert (X : all_nodes [SNode "start" b; SNode "end" c] [K_Start; K_End; K_ReturnVoid]) by (apply all_cons; [wrapper|]; apply all_cons; [wrapper|apply all_none]).
    destruct X as (W & ts & E & G & K). exact (indices_name x l ts [SNode "start" b; SNode "end" c] E W G K H O).
  - intros x c e l is_ _ C _ H O. pieces O.
    assert (X : all_nodes [SNode "end" c] [K_Start; K_End; K_ReturnVoid]) by (apply all_cons; [wrapper|apply all_none]).
    destruct X as (W & ts & E & G & K). exact (indices_name x l ts [SNode "end" c] E W G K H O).
  - intros x l is_ _ H O. pieces O. exact (indices_name x l [] [] (fun d => eq_refl) (Forall_nil _) (Forall_nil _) (Forall_nil _) H O).
  - intros _. apply all_none.
  - intros b c l es r cs bs _ B _ H _ H' O. pieces O. apply all_cons; [wrapper|]. apply all_cons; [block|now apply H'].
  - intros _. apply all_none.
  - intros l es _ H O. pieces O. apply all_cons; [block|apply all_none].
  - apply f_args_nil.
  - intros m x lt T t l0 lz l xs lzs TP _ H _ H'. eapply f_args_cons; eauto.
  - intros _. apply all_none.
  - intros l zs _ H O. pieces O. apply all_say; [exact Logic.I|reflexivity|now apply H].
  - intros l zs _ H O. pieces O. apply all_say; [exact Logic.I|reflexivity|now apply H].
  - intros l zs _ H O. pieces O. apply all_say; [exact Logic.I|reflexivity|now apply H].
  - intros b e v l zs _ B _ _ H O. pieces O. apply all_cons; [|now apply H]. apply ok_node in O'. apply (grab_node None); [exact B|apply O'|apply O'].
Qed.

(** ** Text without nodes *)
Definition same_shape (d d' : data) : Prop := x_kind d' = x_kind d /\ x_binops d' = x_binops d /\ x_op d' = x_op d /\ x_grab d' = x_grab d /\
  (x_names d <> [] -> x_names d' <> []).
Lemma same_shape_trans : forall a b c, same_shape a b -> same_shape b c -> same_shape a c.
Proof. intros a b c (A1 & A2 & A3 & A4 & A5) (B1 & B2 & B3 & B4 & B5). repeat split; try congruence. auto. Qed.
Lemma string_shape : forall n v d, same_shape d (set_string n v d).
Proof.
  intros n v d. unfold set_string.
  repeat match goal with |- context [if (?a =? ?b)%string then _ else _] => destruct (a =? b)%string end; try (repeat split; auto; fail).
  - repeat split; auto. simpl. intros H H'. now destruct (x_names d).
  - destruct (x_names d) eqn:E; repeat split; simpl; auto; discriminate.
  - repeat split; auto. simpl. intros H H'. now destruct (x_names d).
Qed.
Definition all_strings (l : list stx) : Prop := Forall (fun s => exists n v, s = str n v) l.
Lemma strings_build : forall l, all_strings l -> Forall sorted l /\ forall r d, exists d', builds (l ++ r) d = builds r d' /\ same_shape d d'.
Proof.
  induction 1 as [|s l (n & v & ->) H [IW IH]].
  - split; [constructor|]. intros r d. exists d. split; [reflexivity|repeat split; auto].
  - split; [constructor; [exact Logic.I|exact IW]|]. intros r d. unfold str. cbn [app]. rewrite builds_value. destruct (IH r (set_string n v d)) as (d' & E & S_).
    exists d'. split; [exact E|]. eapply same_shape_trans; [apply string_shape|exact S_].
Qed.
Lemma strings_accepts : forall k d ks, In k [K_Ns; K_Use; K_Ty] -> same_shape (blank k None) d -> forallb (fun j => existsb (is_kind j) [K_TyArg; K_TyRet]) ks = true -> accepts d ks false = true.
Proof.
  intros k d ks I (A1 & A2 & A3 & A4 & _) H. cbn in A1, A2, A3, A4.
  assert (J : forall j, forallb (fun x => existsb (is_kind x) [K_TyArg; K_TyRet]) ks = true -> In j [K_Fn; K_Arg; K_CallArg] -> forallb (fun x => negb (is_kind x j)) ks = true).
  { intros j X Y. rewrite forallb_forall in X |- *. intros x Z. specialize (X x Z). simpl in Y. destruct Y as [<-|[<-|[<-|[]]]]; now destruct x. }
  unfold accepts, simple. rewrite A1, A2, A3, A4. rewrite (J K_Fn H), (J K_Arg H), (J K_CallArg H) by sub. simpl in I. destruct I as [<-|[<-|[<-|[]]]]; cbn; now destruct (has_names d).
Qed.
Lemma map_strings : forall n l, all_strings (map (str n) l).
Proof. intros n l. apply Forall_forall. intros s I. apply in_map_iff in I. destruct I as (v & <- & _). eauto. Qed.
(** the signatures after a function *)
Lemma sig_node : forall n k b t, kind_new n = Some k -> In k [K_TyArg; K_TyRet] -> type_body b t -> one_node (SSig n (flat_map tokens b)) [K_TyArg; K_TyRet].
Proof.
  intros n k b t K I B. pose proof (parse_type_ok n b t B) as P. assert (F : is_sig_type k = true) by (simpl in I; intuition (subst; reflexivity)).
  split; [exists k, t; auto|]. exists (NT (blank k (Some t)) []). split; [intros d; cbn [GrammarBuild.build]; now rewrite K, (type_parsed _ _ _ _ P)|].
  destruct (accepts_good L (blank k (Some t)) [] [] false) as [G E]; [simpl in I; destruct I as [<-|[<-|[]]]; reflexivity|discriminate|constructor|constructor|].
  split; [exact G|]. unfold kin, kind_of. rewrite E. exact I.
Qed.
Lemma signature_node : forall s, signature s -> one_node s [K_Ty].
Proof.
  intros s [vars l b t H B]. destruct (strings_build _ (map_strings "ty_var" vars)) as [WV BV].
  assert (X : all_nodes (l ++ [SSig "ty_ret" (flat_map tokens b)]) [K_TyArg; K_TyRet]).
  { apply all_app; [|apply all_cons; [eapply sig_node; [reflexivity|sub|exact B]|apply all_none]].
    clear BV. induction H as [|s' l (b' & t' & B' & ->) H IH]; [apply all_none|]. apply all_cons; [eapply sig_node; [reflexivity|sub|exact B']|exact IH]. }
  destruct X as (W & ts & E & G & K). destruct (BV (l ++ [SSig "ty_ret" (flat_map tokens b)]) (blank K_Ty None)) as (d & ED & SD).
  assert (KD : x_kind d = K_Ty) by (destruct SD as (-> & _); reflexivity). rewrite <- KD.
  eapply contain with (k := K_Ty) (ne := false); [reflexivity|split; reflexivity| | |exact G|exact K| |discriminate].
  - apply Forall_app. split; assumption.
  - change (start_ty K_Ty) with (@None ty). rewrite ED, E. reflexivity.
  - eapply (strings_accepts K_Ty); [sub|exact SD|reflexivity].
Qed.
Lemma signatures_nodes : forall l, extra_signatures l -> all_nodes l [K_Ty].
Proof. induction 1; [apply all_none|]. apply all_cons; [now apply signature_node|assumption]. Qed.

(** ** Functions *)
Definition top_node (s : stx) : Prop := sorted s /\ exists t, (forall d, build s d = (d, [t])) /\ good t /\ operators_fit true t /\ top_level (wo t) = true /\ of_ K_Arg (wo t) = false.
Lemma top_fit : forall d ts, operators_fit false (NT d ts) -> simple d = true -> operators_fit true (NT d ts).
Proof.
  intros d ts H S_. apply fits_node in H. apply fits_node. destruct H as (A & B & C & D). unfold simple in S_. rewrite !andb_true_iff, !negb_true_iff in S_.
  destruct S_ as ((((S1 & S2) & S3) & S4) & _). split; [|split; [|split; assumption]].
  - left. left. now destruct (x_binops d).
  - intros [E|E]; rewrite E in *; discriminate.
Qed.
Lemma first_app : forall as_ rest, Forall (kin [K_Arg]) as_ -> forallb (fun t => negb (of_ K_Arg t)) rest = true -> first_of K_Arg (map wo as_ ++ rest) = true.
Proof.
  induction 1 as [|a l [E|[]] H IH]; intros R; cbn [map app].
  - destruct rest as [|t rest]; [reflexivity|]. cbn [forallb first_of] in *. apply andb_true_iff in R. destruct R as [R1 R2]. apply negb_true_iff in R1. now rewrite R1.
  - cbn [first_of]. assert (X : of_ K_Arg (wo a) = true) by (unfold of_; unfold kind_of in E; now rewrite <- E). rewrite X. auto.
Qed.
Lemma fn_good : forall d as_ rest, x_kind d = K_Fn -> simple d = true -> x_op d = None -> has_names d = true -> Forall good (as_ ++ rest) -> Forall (kin [K_Arg]) as_ ->
  Forall (kin [K_Current; K_Block; K_Expr; K_ReturnVoid; K_Ty]) rest ->
  good (NT d (as_ ++ rest)) /\ operators_fit true (NT d (as_ ++ rest)) /\ top_level (wo (NT d (as_ ++ rest))) = true /\ of_ K_Arg (wo (NT d (as_ ++ rest))) = false.
Proof.
  intros d as_ rest KD SD OD ND G KA KR.
  assert (KK : Forall (kin [K_Arg; K_Current; K_Block; K_Expr; K_ReturnVoid; K_Ty]) (as_ ++ rest)).
  { apply Forall_app. split; eapply kin_more; eauto; inc. }
  assert (H : good (NT d (as_ ++ rest)) /\ wo (NT d (as_ ++ rest)) = NT d (map wo (as_ ++ rest))).
  { apply node_good; [exact SD|now left|exact G| |].
    - unfold written, t_kind. cbn [t_data t_children]. rewrite KD, OD, ND. rewrite (none_kind _ K_Fn _ KK) by reflexivity. rewrite map_app, first_app; [reflexivity|exact KA|].
      apply (none_kind _ _ _ KR). reflexivity.
    - intros l. unfold lively, of_ at 1 3 4, one_of at 1, t_kind at 1 2 3. cbn [t_data t_children]. unfold t_kind. cbn [t_data]. rewrite KD, OD.
      rewrite (none_kind _ K_CallArg _ KK), !orb_true_r by reflexivity. reflexivity. }
  destruct H as [H E]. split; [exact H|]. split; [apply top_fit; [apply H|exact SD]|]. pose proof (gd_written _ _ H) as W. unfold top_level. rewrite W. rewrite E.
  unfold of_, t_kind. cbn [t_data]. rewrite KD. split; reflexivity.
Qed.
Lemma function_node : forall s f, function_means in_of alloc s f -> ok s -> top_node s.
Proof.
  destruct grammar_good as (GB & GA & _ & _ & _ & _ & _ & _ & _ & _ & _ & _ & _ & _ & _ & _ & GF & _).
  intros s f H O. destruct H as [x args currents T t l tys xs lz lz' cs es HA HC TP HL SG _|x args currents l tys xs lz lz' cs es HA HC HL SG _|x args currents b xs lz lz' cs e HA HC HB _];
    apply ok_node in O; destruct O as [_ O]; pieces O.
  - destruct (head_nodes L _ _ _ (GF _ _ _ HA) HC O'0) as (W & as_ & us & BH & GH & KA & KU & _).
    assert (X : all_nodes (SNode "block" l :: tys) [K_Block; K_Ty]).
    { apply all_cons; [|eapply all_more; [now apply signatures_nodes|inc]]. eapply one_kind; [eapply block_node; [reflexivity|sub|eapply GA; exact HL|assumption]|sub]. }
    destruct X as (WB & ts & BB & GB' & KB). destruct (type_pieces "ret_type" K_RetType T t eq_refl eq_refl TP) as [WT BT].
    set (d := match t with Some t => with_ty t (with_ty TAny (with_names [x] (blank K_Fn None))) | None => with_ty TAny (with_names [x] (blank K_Fn None)) end).
    split.
    { apply sorted_node. split; [exists K_Fn; repeat split|]. constructor; [exact Logic.I|]. rewrite app_assoc. apply Forall_app. split; [exact W|].
      constructor; [exact Logic.I|]. apply Forall_app. split; [exact WT|exact WB]. }
    exists (NT d (as_ ++ us ++ ts)). split.
    { intros e0. rewrite build_node. change (kind_new "fn") with (Some K_Fn). cbv iota zeta. unfold str. rewrite builds_value, app_assoc, (builds_all _ _ _ _ BH).
      unfold flag. rewrite builds_value, BT, BB. cbn [fst snd]. rewrite <- app_assoc. unfold d. now destruct t. }
    apply fn_good; try (unfold d; destruct t; reflexivity); [rewrite app_assoc; now apply Forall_app|exact KA|].
    apply Forall_app. split; eapply kin_more; eauto; inc.
  - destruct (head_nodes L _ _ _ (GF _ _ _ HA) HC O'0) as (W & as_ & us & BH & GH & KA & KU & _).
    assert (X : all_nodes (SNode "block" l :: tys) [K_Block; K_Ty]).
    { apply all_cons; [|eapply all_more; [now apply signatures_nodes|inc]]. eapply one_kind; [eapply block_node; [reflexivity|sub|eapply GA; exact HL|assumption]|sub]. }
    destruct X as (WB & ts & BB & GB' & KB).
    set (d := with_ty TVoid (with_names [x] (blank K_Fn None))).
    split.
    { apply sorted_node. split; [exists K_Fn; repeat split|]. constructor; [exact Logic.I|]. rewrite app_assoc. apply Forall_app. split; [exact W|].
      constructor; [exact Logic.I|exact WB]. }
    exists (NT d (as_ ++ us ++ ts)). split.
    { intros e0. rewrite build_node. change (kind_new "fn") with (Some K_Fn). cbv iota zeta. unfold str. rewrite builds_value, app_assoc, (builds_all _ _ _ _ BH).
      rewrite builds_value, BB. cbn [fst snd]. rewrite <- app_assoc. reflexivity. }
    apply fn_good; try reflexivity; [rewrite app_assoc; now apply Forall_app|exact KA|].
    apply Forall_app. split; eapply kin_more; eauto; inc.
  - destruct (head_nodes L _ _ _ (GF _ _ _ HA) HC O'0) as (W & as_ & us & BH & GH & KA & KU & _).
    assert (X : one_node (SNode "expr" b) [K_Expr; K_ReturnVoid]) by (eapply wrap1; [reflexivity|sub|discriminate|eapply GB; exact HB|assumption]).
    destruct X as (WB & u & BB & GB' & KB).
    set (d := with_names [x] (blank K_Fn None)).
    split.
    { apply sorted_node. split; [exists K_Fn; repeat split|]. constructor; [exact Logic.I|]. rewrite app_assoc. apply Forall_app. split; [exact W|].
      constructor; [exact WB|constructor]. }
    exists (NT d (as_ ++ us ++ [u])). split.
    { intros e0. rewrite build_node. change (kind_new "fn") with (Some K_Fn). cbv iota zeta. unfold str. rewrite builds_value, app_assoc, (builds_all _ _ _ _ BH).
      rewrite (builds_one _ _ _ _ BB). cbn [fst snd GrammarBuild.builds]. rewrite <- app_assoc. reflexivity. }
    apply fn_good; try reflexivity; [rewrite app_assoc; apply Forall_app; split; [exact GH|constructor; [exact GB'|constructor]]|exact KA|].
    apply Forall_app. split; [eapply kin_more; [exact KU|inc]|constructor; [|constructor]]. destruct KB as [E|[E|[]]]; unfold kin; rewrite <- E; sub.
Qed.

(** ** The namespace and the uses *)
Lemma simple_shape : forall k d, In k [K_Ns; K_Use; K_Ty] -> same_shape (blank k None) d -> simple d = true.
Proof. intros k d I (A1 & A2 & A3 & A4 & _). cbn in *. unfold simple. rewrite A1, A2, A4. simpl in I. destruct I as [<-|[<-|[<-|[]]]]; reflexivity. Qed.
Lemma strings_node : forall n k l, kind_new n = Some k -> In k [K_Ns; K_Use] -> all_strings l -> sorted (SNode n l) /\ exists d, (forall e, build (SNode n l) e = (e, [NT d []])) /\
  good (NT d []) /\ wo (NT d []) = NT d [] /\ simple d = true /\ x_kind d = k.
Proof.
  intros n k l K I H. destruct (strings_build _ H) as [W B]. destruct (B [] (blank k (start_ty k))) as (d & E & SD). rewrite app_nil_r in E.
  assert (F : is_type k = false /\ is_sig_type k = false /\ start_ty k = None) by (simpl in I; intuition (subst; reflexivity)). destruct F as (F1 & F2 & F3). rewrite F3 in *.
  assert (I' : In k [K_Ns; K_Use; K_Ty]) by (simpl in *; tauto).
  split; [apply sorted_node; split; eauto|]. exists d. split; [intros e; rewrite build_node, K, F3; cbv zeta; now rewrite E|].
  destruct (accepts_good L d [] [] false) as [G EW]; [eapply strings_accepts; eauto|discriminate|constructor|constructor|].
  split; [exact G|]. split; [exact EW|]. split; [eapply simple_shape; eauto|apply SD].
Qed.
Lemma use_strings : forall names fns a, all_strings (map (str "name") names ++ flat_map (fun f => str "use_fn" (fst f) :: strs "use_fn_alias" (snd f)) fns ++ [str "alias" a]).
Proof.
  intros names fns a. apply Forall_app. split; [apply map_strings|]. apply Forall_app. split; [|constructor; [eauto|constructor]].
  induction fns as [|[f o] fns IH]; [constructor|]. cbn [flat_map fst snd]. apply Forall_app. split; [|exact IH]. constructor; [eauto|]. destruct o; [constructor; [cbn; eauto|constructor]|constructor].
Qed.
Lemma ns_node : forall ns, top_node (SNode "ns" (map (str "name") ns)).
Proof.
  intros ns. destruct (strings_node "ns" K_Ns _ eq_refl ltac:(simpl; auto) (map_strings "name" ns)) as (W & d & B & G & E & SD & KD). split; [exact W|].
  exists (NT d []). split; [exact B|]. split; [exact G|]. split; [apply top_fit; [apply G|exact SD]|]. pose proof (gd_written _ _ G) as X. rewrite E in *. unfold top_level. rewrite X.
  cbn [every forallb]. unfold of_, t_kind. cbn [t_data]. rewrite KD. split; reflexivity.
Qed.
Lemma uses_nodes : forall us us', Forall2 use_means us us' -> Forall sorted us /\ exists ts, (forall d, builds us d = (d, ts)) /\ Forall good ts /\ Forall (kin [K_Use]) ts /\
  forallb (every (fun t => negb (of_ K_Item t))) (map wo ts) = true.
Proof.
  induction 1 as [|s u us us' H H' (W & ts & B & G & K & N)]; [split; [constructor|]; exists []; repeat split; constructor|].
  destruct H as [names fns a]. destruct (strings_node "use" K_Use _ eq_refl ltac:(simpl; auto) (use_strings names fns a)) as (W' & d & B' & G' & E & SD & KD).
  split; [now constructor|]. exists (NT d [] :: ts). split; [intros e; now rewrite (builds_one _ _ _ _ B'), B|]. split; [now constructor|].
  split; [constructor; [unfold kin, kind_of; rewrite E; left; unfold t_kind; cbn; now rewrite KD|exact K]|]. cbn [map forallb]. rewrite N, E. cbn [every forallb]. unfold of_, t_kind. cbn [t_data].
  rewrite KD. reflexivity.
Qed.
Lemma uses_node : forall us us', Forall2 use_means us us' -> top_node (SNode "uses" us).
Proof.
  intros us us' H. destruct (uses_nodes _ _ H) as (W & ts & B & G & K & N). split; [apply sorted_node; split; [exists K_Uses; repeat split|exact W]|].
  exists (NT (blank K_Uses None) ts). split; [intros d; rewrite build_node; change (kind_new "uses") with (Some K_Uses); cbv iota zeta; now rewrite B|].
  destruct (accepts_good L (blank K_Uses None) [K_Use] ts false) as [GU E]; [reflexivity|discriminate|exact G|exact K|].
  split; [exact GU|]. split; [apply top_fit; [apply GU|reflexivity]|]. pose proof (gd_written _ _ GU) as X. unfold top_level. rewrite X, E. cbn [every]. rewrite N. split; reflexivity.
Qed.

(** ** Files *)
Lemma file_nodes : forall F f, file_means in_of alloc F f -> oks F = true -> Forall (fun s => top_node s /\ is_node s = true) F.
Proof.
  intros F f [N U ns us l us' fs HN HU HUS HF] O. apply oks_app in O. destruct O as [_ O]. apply oks_app in O. destruct O as [_ O].
  apply Forall_app. split; [|apply Forall_app; split].
  - destruct HN as [[-> _]| ->]; [constructor|]. constructor; [split; [apply ns_node|reflexivity]|constructor].
  - destruct HU as [[-> _]| ->]; [constructor|]. constructor; [split; [eapply uses_node; exact HUS|reflexivity]|constructor].
  - clear - HF O. induction HF as [|s g l fs H HF IH]; [constructor|]. apply oks_cons in O. constructor; [|now apply IH].
    split; [eapply function_node; [exact H|apply O]|now destruct H].
Qed.
Theorem file_trees : forall F f, file_means in_of alloc F f -> oks F = true -> exists ts, file_stands parse_type F ts /\
  (forall t, In t ts -> operators_fit true t) /\ file_fits ts /\ (L = true -> lively_file ts).
Proof.
  intros F f H O. pose proof (file_nodes F f H O) as X. clear H O.
  induction X as [|s F' [(W & t & B & G & T & TL & TA) N] X (ts & A1 & A2 & A3 & A4)].
  - exists []. split; [constructor|]. split; [intros t []|]. split; [intros t []|intros _ t []].
  - destruct s as [name b| | |]; try discriminate. exists (t :: ts). split; [|split; [|split]].
    + apply Fs_cons with (d := blank K_Fn None); [|exact A1]. pose proof (build_stands parse_type (SNode name b) (blank K_Fn None) W) as ST. now rewrite (B (blank K_Fn None)) in ST.
    + intros u [<-|I]; auto.
    + intros u [<-|I]; [|now apply A3]. split; [apply G|exact TL].
    + intros l u [<-|I]; [|now apply A4]. split; [now apply G|exact TA].
Qed.
End All.
