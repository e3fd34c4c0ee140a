(** * Functions and files: what the checkers see in their trees is visible. *)
From Coq Require Import String List Bool Arith ZArith Lia.
From Verif Require Import PrintModel ColorModel Float64 TypeModel LifetimeModel NodesModel FoldModel TransformModel NodesSpec LivesSpec NodesProofs NodesClean NodesFits NodesScope NodesCalls P_Nodes P_Scope Syntax AstModel AstSpec AstProofs AstFile GrammarSpec GrammarBuild GrammarFits GrammarCases GrammarAll VisibleSpec VisibleTree NodesLayout VisibleText VisibleCases VisibleParts VisibleAll VisibleLoops VisibleGrammar.
Import ListNotations.
Local Open Scope string_scope.
Local Open Scope nat_scope.
Local Open Scope list_scope.

(** [x] can be called with [n] values: it is a function of the file, or there is none in the file and one outside *)
Definition callable_in (K : outside) (f : file) (x : string) (n : nat) : Prop :=
  (exists fn, In fn (d_fns f) /\ h_name fn = x /\ length (h_args fn) = n) \/
  ((forall fn, In fn (d_fns f) -> h_name fn <> x) /\ exists lts, o_fun K x = Some lts /\ length lts = n).
(** what the body of a function uses is known there: at its start its arguments and its current objects *)
Definition visible_function (callable : string -> nat -> Prop) (fn : function_) : Prop :=
  in_turn (visible callable) (map r_name (h_args fn) ++ map fst (h_currents fn)) (h_block fn).

Section Visible_.
Context (callable : string -> nat -> Prop) (in_of : option string -> string -> callee) (alloc : Z -> bool).
Notation tidy := (tidy true).
Notation oks := (forallb (nodes_all tidy)).
Notation regs := (forallb (nodes_all regular)).
Notation body := (body true).
Notation a_body := (a_body true).
Notation tok := (tok callable).
Notation threaded := (threaded callable).
Notation visible := (visible callable).
Notation visible_item := (visible_item callable).
Notation visible_idx := (visible_idx callable).
Notation means := (means callable).
Notation a_means := (a_means callable).
Notation fits := (fits callable).
Notation part := (part callable).
Notation stmt := (stmt callable).
Notation V_expr := (V_expr callable).
Notation V_all := (V_all callable).
Notation V_item := (V_item callable).
Notation V_ids := (V_ids callable).
Notation V_args := (V_args callable).
Notation V_arg := (V_arg callable).



Lemma Forall2_len : forall {A B} (P : A -> B -> Prop) l r, Forall2 P l r -> length l = length r.
Proof. induction 1; cbn; congruence. Qed.

(** ** Functions *)
Lemma marks_app : forall a b, tmarks (a ++ b) = tmarks a ++ tmarks b.
Proof. intros. unfold tmarks. apply flat_map_app. Qed.
Lemma marks_none : forall ts, Forall (fun t => kind_of t <> K_Arg /\ kind_of t <> K_CallArg) ts -> tmarks (map wo ts) = [].
Proof. induction 1 as [|t ts [A B] H IH]; [reflexivity|]. cbn [map tmarks flat_map]. fold (tmarks (map wo ts)). rewrite IH, app_nil_r. change (t_kind (wo t)) with (kind_of t). now destruct (kind_of t). Qed.
Lemma args_count : forall ts, Forall (fun t => kind_of t <> K_Arg) ts -> filter (of_ K_Arg) (map seen ts) = [].
Proof.
  induction 1 as [|t ts A H IH]; [reflexivity|]. cbn [map filter]. rewrite IH. assert (E : of_ K_Arg (seen t) = false); [|now rewrite E].
  unfold of_. rewrite seen_kind. change (t_kind (wo t)) with (kind_of t). destruct (is_kind (kind_of t) K_Arg) eqn:E; auto. apply is_kind_iff in E. contradiction.
Qed.
Lemma arg_node : forall m x lt T t l0, type_piece "type" T t -> (oks l0 = true -> all_nodes true l0 [K_Grab]) -> oks l0 = true ->
  let b := flags "mut" m ++ str "name" x :: strs "lifetime" lt ++ T ++ l0 in kind_of (node K_Arg b) = K_Arg /\ x_mut (t_data (wo (node K_Arg b))) = m.
Proof.
  intros m x lt T t l0 TP LZ O b. destruct (type_pieces "type" K_Type T t eq_refl eq_refl TP) as [_ BT]. destruct (LZ O) as (_ & ts & BB & G & KK).
  assert (DA : exists d, dat K_Arg b = d /\ x_kind d = K_Arg /\ x_mut d = m /\ simple d = true).
  { unfold dat, b. rewrite builds_flags. unfold str. rewrite builds_value, builds_strs, BT, BB. eexists. split; [reflexivity|]. destruct m, lt, t; repeat split. }
  destruct DA as (d & DA & D1 & D2 & D3). unfold kind_of, node. rewrite DA, (simple_wo _ _ D3). auto.
Qed.
Lemma args_seen : forall l xs lz, args_mean in_of alloc l xs lz -> oks l = true -> tmarks (map wo (forest l)) = map r_mut xs /\ length (filter (of_ K_Arg) (map seen (forest l))) = length xs.
Proof.
  induction 1 as [|m x lt T t L lz l xs lzs TP LZ H IH]; intros O; [split; reflexivity|]. apply oks_cons in O. destruct O as [O1 O2]. destruct (IH O2) as [E1 E2].
  assert (O' : oks L = true). { apply ok_node in O1. destruct O1 as [_ O1]. rewrite oks_flags in O1. apply oks_cons in O1. destruct O1 as [_ O1]. rewrite oks_strs in O1. apply oks_app in O1. tauto. }
  destruct (arg_node m x lt T t L TP (good_lazy in_of alloc _ _ LZ) O') as [K M]. rewrite (forest_node "arg" K_Arg) by reflexivity.
  cbn [map tmarks flat_map filter]. fold (tmarks (map wo (forest l))). rewrite E1. unfold of_ at 1. rewrite seen_kind. unfold kind_of in K. rewrite K, M.
  split; [reflexivity|]. change (is_kind K_Arg K_Arg) with true. cbv iota. cbn [length]. f_equal. exact E2.
Qed.
Lemma currents_kinds : forall l cs, currents_mean l cs -> Forall (fun t => kind_of t <> K_Arg /\ kind_of t <> K_CallArg) (forest l).
Proof.
  induction 1 as [|m x T t l cs TP H IH]; [constructor|]. rewrite (forest_node "current" K_Current) by reflexivity. constructor; [|exact IH].
  destruct (type_pieces "type" K_Type T t eq_refl eq_refl TP) as [_ BT].
  assert (DA : exists d, dat K_Current (flags "mut" m ++ str "name" x :: T) = d /\ x_kind d = K_Current /\ simple d = true).
  { unfold dat. rewrite builds_flags. unfold str. rewrite builds_value. specialize (BT []). rewrite app_nil_r in BT. rewrite BT. eexists. split; [reflexivity|]. destruct m, t; repeat split. }
  destruct DA as (d & DA & D1 & D3). unfold kind_of, node. rewrite DA, (simple_wo _ _ D3). unfold t_kind, t_data. rewrite D1. split; discriminate.
Qed.
Lemma names_none : forall ts, Forall (fun t => kind_of t <> K_Arg /\ kind_of t <> K_Current) ts -> names_of (map seen ts) = [].
Proof.
  induction 1 as [|t ts [A B] H IH]; [reflexivity|]. unfold names_of in *. cbn [map flat_map]. rewrite IH, app_nil_r.
  assert (E : of_ K_Arg (seen t) || of_ K_Current (seen t) = false); [|now rewrite E]. unfold of_. rewrite seen_kind. change (t_kind (wo t)) with (kind_of t). now destruct (kind_of t).
Qed.
Lemma fn_seen : forall d args currents xs lz cs x blk rest, args_mean in_of alloc args xs lz -> currents_mean currents cs -> oks args = true -> oks currents = true ->
  x_kind d = K_Fn -> x_names d = [x] -> simple d = true -> x_op d = None -> Forall (kin [K_Block; K_Expr; K_ReturnVoid; K_Ty]) (blk :: rest) ->
  let t := seen (NT d (forest args ++ forest currents ++ blk :: rest)) in
  x_kind (t_data t) = K_Fn /\ x_names (t_data t) = [full_name x (map r_mut xs)] /\ length (filter (of_ K_Arg) (t_children t)) = length xs /\
  (tok false false [] t -> tok false false (map r_name xs ++ map fst cs) (seen blk)).
Proof.
  intros d args currents xs lz cs x blk rest A C OA OC K N S_ OP KR t. destruct (args_seen _ _ _ A OA) as [E1 E2]. pose proof (currents_kinds _ _ C) as CK.
  assert (RK : Forall (fun t => kind_of t <> K_Arg /\ kind_of t <> K_CallArg /\ kind_of t <> K_Current) (blk :: rest)).
  { rewrite Forall_forall in KR |- *. intros y Y. specialize (KR y Y). unfold kin in KR. simpl in KR. intuition congruence. }
  set (us := forest args ++ forest currents ++ blk :: rest).
  assert (ET : t = NT (with_names [full_name x (map r_mut xs)] d) (map seen us)).
  { unfold t. fold us. unfold seen at 1. rewrite (simple_wo _ _ S_). cbn [ren]. assert (W : word_in d = None) by (unfold word_in; now rewrite K). rewrite W, ren_none, map_map. f_equal. f_equal.
    unfold t_names. rewrite K, N. assert (TM : tmarks (map wo us) = map r_mut xs).
    { unfold us. rewrite !map_app, !marks_app, E1, (marks_none _ CK), marks_none; [apply app_nil_r|]. eapply Forall_impl; [|exact RK]. cbn. tauto. }
    rewrite TM. unfold full_name. now destruct (existsb id (map r_mut xs)). }
  rewrite ET. cbn [t_data t_children with_names x_kind x_names]. split; [exact K|]. split; [reflexivity|]. split.
  - unfold us. rewrite !map_app, !filter_app, !app_length, E2. rewrite args_count; [|eapply Forall_impl; [|exact CK]; cbn; tauto]. rewrite args_count; [cbn; lia|]. eapply Forall_impl; [|exact RK]. cbn. tauto.
  - intros H. cbn [VisibleTree.tok] in H. destruct H as (_ & _ & [H|H]); [cbn [with_names x_kind] in H; congruence|].
    destruct (grammar_visible callable in_of alloc) as (_ & _ & _ & _ & _ & _ & _ & _ & _ & _ & _ & _ & _ & _ & _ & _ & GP & _). specialize (GP _ _ _ A). pose proof (currents_v _ _ C) as CP.
    assert (EU : map seen us = (view args ++ view currents) ++ map seen (blk :: rest)) by (unfold us, view; rewrite !map_app, app_assoc; reflexivity).
    assert (EP : params (with_names [full_name x (map r_mut xs)] d) (map seen us) = map r_name xs ++ map fst cs).
    { unfold params. cbn [with_names x_kind]. rewrite K. cbn [is_kind orb]. fold (names_of (map seen us)). rewrite EU, !names_app, (vp_names _ _ GP OA), (vp_names _ _ CP OC), names_none, app_nil_r; [reflexivity|].
      eapply Forall_impl; [|exact RK]. cbn. tauto. }
    rewrite EP, EU in H. apply kids_params in H; [exact (proj1 H)| |cbn [with_names x_op]; now rewrite OP| |right; reflexivity].
    + unfold over. cbn [with_names x_kind]. now rewrite K.
    + apply Forall_app. split; [exact (vp_silent _ _ GP OA)|exact (vp_silent _ _ CP OC)].
Qed.
(** the function [fn] of the file has this tree *)
Record fn_tree (s : stx) (t : ntree) (fn : function_) : Prop := {
  ft_forest : forest [s] = [t];
  ft_kind : t_kind (seen t) = K_Fn;
  ft_name : x_names (t_data (seen t)) = [h_name fn];
  ft_args : length (filter (of_ K_Arg) (t_children (seen t))) = length (h_args fn);
  ft_body : tok false false [] (seen t) -> visible_function callable fn }.
Lemma signature_forest : forall tys, extra_signatures tys -> forall d, fst (builds tys d) = d /\ Forall (kin [K_Ty]) (forest tys).
Proof. intros tys H d. destruct (signatures_nodes true _ H) as (_ & ts & B & _ & K). unfold forest. rewrite !B. auto. Qed.
Lemma fn_case : forall x args currents xs lz cs mid n k c tys lz' es r, args_mean in_of alloc args xs lz -> currents_mean currents cs -> kind_new n = Some k ->
  Forall (kin [K_Block; K_Expr; K_ReturnVoid]) [node k c] -> extra_signatures tys -> (forall r, forest (mid ++ r) = forest r) ->
  (exists d, fst (builds mid (with_names [x] (blank K_Fn None))) = d /\ x_kind d = K_Fn /\ x_names d = [x] /\ simple d = true /\ x_op d = None) ->
  oks (args ++ currents) = true -> (forall V, tok false false V (seen (node k c)) -> in_turn visible V es) ->
  exists t, fn_tree (SNode "fn" (str "name" x :: args ++ currents ++ mid ++ SNode n c :: tys)) t (Function_ (full_name x (map r_mut xs)) xs lz' cs es r).
Proof.
  intros x args currents xs lz cs mid n k c tys lz' es r HA HC KN KC SG FM (d & DM & D1 & D2 & D3 & D4) O BV. set (b := str "name" x :: args ++ currents ++ mid ++ SNode n c :: tys).
  destruct (grammar_good true in_of alloc) as (_ & _ & _ & _ & _ & _ & _ & _ & _ & _ & _ & _ & _ & _ & _ & _ & GF & _). apply oks_app in O. destruct O as [OA OC].
  destruct (head_nodes true _ _ _ (GF _ _ _ HA) HC OA) as (_ & as_ & us & BH & _).
  assert (EF : forest b = forest args ++ forest currents ++ node k c :: forest tys).
  { unfold b, str. rewrite forest_value, (forest_app args), (forest_app currents), FM, (forest_node n k) by assumption. reflexivity. }
  assert (ED : dat K_Fn b = d).
  { unfold dat, b, str. rewrite builds_value, app_assoc, builds_app. cbn [fst]. rewrite BH. cbn [fst]. change (start_ty K_Fn) with (@None ty). change (say (MString "name" x) (blank K_Fn None)) with (with_names [x] (blank K_Fn None)).
    rewrite builds_app. cbn [fst]. rewrite DM. cbn [GrammarBuild.builds fst]. rewrite build_node, KN. cbn [fst]. now apply signature_forest. }
  destruct (fn_seen d args currents xs lz cs x (node k c) (forest tys) HA HC OA OC D1 D2 D3 D4) as (T1 & T2 & T3 & T4).
  { inversion_clear KC as [|? ? K1 _]. constructor; [|eapply kin_more; [apply (signature_forest _ SG (blank K_Fn None))|]]; [unfold kin in *; simpl in *; tauto|intros y [<-|[]]; simpl; tauto]. }
  exists (NT d (forest args ++ forest currents ++ node k c :: forest tys)). split; cbn [h_name h_args].
  - rewrite (forest_node "fn" K_Fn) by reflexivity. unfold node at 1. rewrite ED, EF. reflexivity.
  - exact T1.
  - exact T2.
  - exact T3.
  - intros H. unfold visible_function. cbn [h_args h_currents h_block]. apply BV. now apply T4.
Qed.
Lemma function_v : forall s fn, function_means in_of alloc s fn -> nodes_all tidy s = true -> nodes_all regular s = true -> exists t, fn_tree s t fn.
Proof.
  destruct (grammar_visible callable in_of alloc) as (GE & GA & _).
  intros s fn H O R. destruct H as [x args currents T t l tys xs lz lz' cs es HA HC TP HL SG _|x args currents l tys xs lz lz' cs es HA HC HL SG _|x args currents b xs lz lz' cs e HA HC HB _];
    apply ok_node in O; apply reg_node in R; destruct O as [_ O], R as [_ R]; apply oks_cons in O; apply regs_cons in R; destruct O as [_ O], R as [_ R];
    rewrite app_assoc in O; rewrite app_assoc in R; apply oks_app in O; apply regs_app in R; destruct O as [OA O], R as [_ R].
  - apply oks_cons in O. apply regs_cons in R. destruct O as [_ O], R as [_ R]. apply oks_app in O. apply regs_app in R. destruct O as [_ O], R as [_ R]. apply oks_cons in O. apply regs_cons in R. destruct O as [O _], R as [R _].
    destruct (block_part callable in_of alloc "block" K_Block l es) as (_ & _ & BV); auto; try (simpl; tauto). destruct (type_pieces "ret_type" K_RetType T t eq_refl eq_refl TP) as [_ BT].
    apply (fn_case x args currents xs lz cs (flag "returns" :: T) "block" K_Block l tys lz' es); auto.
    + constructor; [|constructor]. unfold kin. left. symmetry. unfold kind_of. rewrite <- seen_kind. destruct (block_seen callable K_Block l) as [-> _]; [simpl; tauto|eapply all_nodes_; eauto|reflexivity].
    + intros r. cbn [app]. unfold flag. rewrite forest_value. eapply forest_piece; eauto.
    + unfold flag. rewrite builds_value. specialize (BT []). rewrite app_nil_r in BT. rewrite BT. eexists. split; [reflexivity|]. destruct t; repeat split.
  - apply oks_cons in O. apply regs_cons in R. destruct O as [_ O], R as [_ R]. apply oks_cons in O. apply regs_cons in R. destruct O as [O _], R as [R _].
    destruct (block_part callable in_of alloc "block" K_Block l es) as (_ & _ & BV); auto; try (simpl; tauto).
    apply (fn_case x args currents xs lz cs [SValue (MBool "returns" false)] "block" K_Block l tys lz' es); auto.
    + constructor; [|constructor]. unfold kin. left. symmetry. unfold kind_of. rewrite <- seen_kind. destruct (block_seen callable K_Block l) as [-> _]; [simpl; tauto|eapply all_nodes_; eauto|reflexivity].
    + intros r. cbn [app]. apply forest_value.
    + eexists. split; [reflexivity|]. repeat split.
  - apply oks_cons in O. apply regs_cons in R. destruct O as [O _], R as [R _].
    assert (B : body b) by (eapply good_body; eauto).
    destruct (wrap_part callable "expr" K_Expr b e) as (P1 & _); auto; [simpl; tauto|].
    apply (fn_case x args currents xs lz cs [] "expr" K_Expr b [] lz' [EReturn e]); auto.
    + constructor; [|constructor]. unfold kin. apply ok_node in O. destruct (wrapper_node K_Expr b false) as (d & _ & _ & _ & _ & _ & _ & K & _ & W); [simpl; tauto|now apply body_arg|apply O|].
      unfold kind_of. rewrite W. unfold t_kind, t_data. rewrite K. destruct (voids b); simpl; tauto.
    + constructor.
    + eexists. split; [reflexivity|]. repeat split.
    + intros V H. cbn [in_turn VisibleSpec.visible]. split; [now apply P1|exact Logic.I].
Qed.

(** ** Files *)
Lemma file_forest : forall F f, file_means in_of alloc F f -> oks F = true -> file_stands parse_type F (forest F) /\
  (forall t, In t (forest F) -> operators_fit true t) /\ file_fits (forest F).
Proof.
  intros F f H O. pose proof (file_nodes true in_of alloc F f H O) as X. clear H O.
  induction X as [|s F' [(W & t & B & G & T & TL & TA) N] X (A1 & A2 & A3)].
  - split; [constructor|]. split; intros t [].
  - destruct s as [name b| | |]; try discriminate.
    assert (EF : forest (SNode name b :: F') = t :: forest F') by (unfold forest; rewrite (builds_one _ _ _ _ B); reflexivity). rewrite EF. split; [|split].
    + apply Fs_cons with (d := blank K_Fn None); [|exact A1]. pose proof (build_stands parse_type (SNode name b) (blank K_Fn None) W) as ST. now rewrite (B (blank K_Fn None)) in ST.
    + intros u [<-|I]; auto.
    + intros u [<-|I]; [|now apply A3]. split; [apply G|exact TL].
Qed.
Lemma forest_in : forall l t, In t (forest l) <-> exists s, In s l /\ In t (forest [s]).
Proof.
  induction l as [|s l IH]; intros t; [split; [intros []|intros (s & [] & _)]|]. change (s :: l) with ([s] ++ l) at 1. rewrite forest_app, in_app_iff, IH. split.
  - intros [H|(s' & I & H)]; [exists s; split; [now left|exact H]|exists s'; split; [now right|exact H]].
  - intros (s' & [<-|I] & H); [now left|right; eauto].
Qed.
(** the trees of functions are those of the functions of the file *)
Lemma file_functions : forall F f, file_means in_of alloc F f -> oks F = true -> regs F = true ->
  (forall fn, In fn (d_fns f) -> exists s t, In s F /\ In t (forest F) /\ fn_tree s t fn) /\
  (forall t, In t (forest F) -> t_kind (wo t) = K_Fn -> exists s fn, In fn (d_fns f) /\ fn_tree s t fn) /\
  (exists us ts, forest F = us ++ ts /\ Forall2 (fun t fn => exists s, fn_tree s t fn) ts (d_fns f)).
Proof.
  intros F f H O R. pose proof (file_nodes true in_of alloc F f H O) as FN. destruct H as [N U ns us l us' fs HN HU HUS HF]. cbn [d_fns].
  assert (OL : oks l = true /\ regs l = true) by (rewrite !oks_app in O; rewrite !regs_app in R; tauto). destruct OL as [OL RL].
  assert (X : Forall2 (fun s fn => exists t, fn_tree s t fn) l fs).
  { clear - HF OL RL. induction HF as [|s fn l fs H HF IH]; [constructor|]. apply oks_cons in OL. apply regs_cons in RL. constructor; [eapply function_v; eauto; tauto|apply IH; tauto]. }
  assert (NF : forall s t, In s (N ++ U) -> In t (forest [s]) -> t_kind (wo t) <> K_Fn).
  { intros s t I E. apply in_app_or in I. destruct I as [I|I].
    - destruct HN as [[-> _]| ->]; [destruct I|]. destruct I as [<-|[]]. destruct (strings_node true "ns" K_Ns _ eq_refl ltac:(simpl; auto) (map_strings "name" ns)) as (_ & d & B & _ & E' & _ & KD).
      unfold forest in E. rewrite (builds_one _ _ _ _ B) in E. destruct E as [<-|[]]. rewrite E'. unfold t_kind, t_data. rewrite KD. discriminate.
    - destruct HU as [[-> _]| ->]; [destruct I|]. destruct I as [<-|[]]. destruct (uses_nodes true _ _ HUS) as (_ & ts & B & _). rewrite (forest_node "uses" K_Uses) in E by reflexivity. destruct E as [<-|[]].
      unfold node, dat. rewrite B, simple_wo by reflexivity. discriminate. }
  split; [|split].
  - intros fn I. assert (Y : exists s t, In s l /\ fn_tree s t fn).
    { clear - X I. induction X as [|s fn' l fs (t & T) X IH]; [destruct I|]. destruct I as [->|I]; [exists s, t; split; [now left|exact T]|]. destruct (IH I) as (s' & t' & I' & T'). exists s', t'. split; [now right|exact T']. }
    destruct Y as (s & t & Y & T). exists s, t. split; [rewrite !in_app_iff; auto|]. split; [|exact T]. apply forest_in. exists s. split; [rewrite !in_app_iff; auto|]. rewrite (ft_forest _ _ _ T). now left.
  - intros t I K. apply forest_in in I. destruct I as (s & I & E). rewrite app_assoc in I. apply in_app_or in I. destruct I as [I|I]; [exfalso; exact (NF s t I E K)|]. exists s.
    clear - X I E. induction X as [|s' fn' l fs (t' & T) X IH]; [destruct I|]. destruct I as [->|I]; [|destruct (IH I) as (fn & I' & T'); exists fn; split; [now right|exact T']].
    exists fn'. split; [now left|]. rewrite (ft_forest _ _ _ T) in E. destruct E as [<-|[]]. exact T.
  - exists (forest (N ++ U)), (forest l). split; [now rewrite app_assoc, forest_app|]. clear - X. induction X as [|s fn l fs (t & T) X IH]; [constructor|].
    change (s :: l) with ([s] ++ l). rewrite forest_app, (ft_forest _ _ _ T). constructor; [eauto|exact IH].
Qed.
End Visible_.

(** ** Accepted files *)
Lemma places_above : forall ts b i, In i (places b ts) -> b <= i.
Proof. induction ts as [|t ts IH]; intros b i I; [destruct I|]. destruct I as [<-|I]; [lia|]. apply IH in I. lia. Qed.
Lemma places_differ : forall ts b, NoDup (places b ts).
Proof.
  induction ts as [|t ts IH]; intros b; [constructor|]. cbn [places]. constructor; [|apply IH]. intros I. apply places_above in I. destruct t. cbn [size] in I. lia.
Qed.
Lemma map_differ : forall (p : nat -> nat) n l, (forall i j, i < n -> j < n -> p i = p j -> i = j) -> (forall i, In i l -> i < n) -> NoDup l -> NoDup (map p l).
Proof.
  intros p n l H B N. induction N as [|i l NI N IH]; [constructor|]. cbn [map]. constructor; [|apply IH; intros; apply B; now right].
  intros I. apply in_map_iff in I. destruct I as (j & E & I). apply NI. replace i with j; [exact I|]. apply H; auto; apply B; [now right|now left].
Qed.
Lemma drop_left : forall {A} (l r : list A), NoDup (l ++ r) -> NoDup r.
Proof. induction l as [|x l IH]; intros r N; [exact N|]. inversion_clear N. auto. Qed.
Lemma names_differ : forall {A B} (P : A -> B -> Prop) l r, Forall2 P l r -> NoDup l -> (forall i j x, P i x -> P j x -> i = j) -> NoDup r.
Proof.
  intros A B P l r F. induction F as [|i x l r Pi F IH]; intros N H; [constructor|]. inversion_clear N as [|? ? NI N']. constructor; [|auto].
  intros I. apply NI. assert (X : exists j, In j l /\ P j x). { clear - F I. induction F; [destruct I|]. destruct I as [->|I]; [exists x0; split; [now left|auto]|]. destruct (IHF I) as (j & J & Q). exists j. split; [now right|auto]. }
  destruct X as (j & J & Q). now rewrite (H i j x Pi Q).
Qed.
Theorem file_visible : forall in_of alloc sort F f K g', file_means in_of alloc F f -> forallb (nodes_all (tidy true)) F = true -> forallb (nodes_all regular) F = true ->
  (forall g0 g1 g2, NodesModel.convert parse_type (flat_map tokens F) = NOk g0 -> nest g0 = NOk g1 -> sugar g1 = NOk g2 -> exists p, sorted_by p g2 (sort g2)) ->
  NodesModel.front parse_type sort K (flat_map tokens F) = NOk g' ->
  NoDup (map h_name (d_fns f)) /\ forall fn, In fn (d_fns f) -> visible_function (callable_in K f) fn.
Proof.
  intros in_of alloc sort F f K g' M O R SO FR.
  destruct (file_forest in_of alloc F f M O) as (A1 & A2 & A3). set (ts := forest F) in *.
  assert (GF : good_file parse_type sort F ts) by (split; auto; intros g1 g2 R1 R2; exact (SO _ g1 g2 (C53_conversion _ _ _ A1) R1 R2)).
  destruct (C53_operators parse_type F ts A1 A2) as (g1 & g2 & R1 & R2 & T2 & _ & E2 & P2).
  destruct (go_sort _ _ _ _ GF g1 g2 R1 R2) as [p S_]. set (g0 := sort g2) in *.
  destruct (graph_fits ts g1 g2 p g0 A2 A3 R1 R2 T2 S_ E2) as (FS & FN & FC & _).
  destruct (graph_roots ts g1 g2 p g0 A2 A3 R1 R2 T2 S_ E2) as (RD & RO & _).
  destruct (name_all_spec g0 (sf_tree _ FS) FN) as (g & RN & LN & NA).
  assert (GO : graph_of sort ts g) by (exists g1, g2; auto).
  assert (TG : tree_ok g) by (exact (rename_tree g0 g (sf_tree _ FS) LN NA)).
  destruct (C55_checked _ _ _ _ _ K GF GO) as [(h & RH & _ & RF)|[(e & i & RH & _)|(RH & _)]]; try (cbv zeta in RH; congruence).
  (* the roots *)
  assert (ROOT : forall t i, In (i, t) (combine (map p (places 0 ts)) ts) -> reads g0 i (wo t) /\ reads g i (seen t)).
  { intros t i I. assert (X : reads g0 i (wo t)).
    { clear - RD I. revert I RD. generalize (map p (places 0 ts)) as l. generalize ts as us. induction us as [|u us IH]; intros [|j l] I RD; cbn in I; try contradiction.
      cbn [map] in RD. inversion_clear RD. destruct I as [I|I]; [injection I as <- <-; assumption|eauto]. }
    split; [exact X|]. unfold seen. apply (ren_reads g0 g (sf_tree _ FS) NA); [exact X|]. intros n EN KI CH. exfalso.
    assert (IT : In t ts) by (eapply in_combine_r; eauto). destruct (A3 t IT) as [_ TL]. unfold top_level in TL. apply andb_true_iff in TL. destruct TL as [_ TL].
    inversion X as [i' n' ls E' F' E1 E3]; subst. rewrite EN in E'. injection E' as <-. rewrite <- E3 in TL. unfold of_, t_kind in TL. cbn [t_data every] in TL. change (x_kind (f_data n)) with (f_kind n) in TL. rewrite KI in TL.
    cbn in TL. discriminate TL. }
  assert (LP : length (map p (places 0 ts)) = length ts) by (apply Forall2_len in RD; rewrite !map_length in RD; now rewrite map_length).
  assert (FIND : forall t, In t ts -> exists i, In (i, t) (combine (map p (places 0 ts)) ts)).
  { intros t I. clear - LP I. revert LP I. generalize (map p (places 0 ts)) as l. generalize ts as us. induction us as [|u us IH]; intros [|j l] L I; try discriminate; try destruct I.
    - subst. exists j. now left.
    - injection L as L. destruct (IH l L H) as [i X]. exists i. now right. }
  assert (BACK : forall i, In i (map p (places 0 ts)) -> exists t, In t ts /\ In (i, t) (combine (map p (places 0 ts)) ts)).
  { intros i I. clear - LP I. revert LP I. generalize (map p (places 0 ts)) as l. generalize ts as us. induction us as [|u us IH]; intros [|j l] L I; try discriminate; try destruct I.
    - subst. exists u. split; now left.
    - injection L as L. destruct (IH l L H) as (t & X & Y). exists t. split; now right. }
  destruct (file_functions (callable_in K f) in_of alloc F f M O R) as (F1 & F2 & us & us' & F3 & F4). fold ts in F1, F2, F3.
  (* functions of the graph *)
  assert (FUN : forall k x n, NodesSpec.function g k x -> nth_error g k = Some n -> exists fn, In fn (d_fns f) /\ h_name fn = x /\ length (parts g K_Arg n) = length (h_args fn)).
  { intros k x n (n' & E' & KF & NX) E. rewrite E in E'. injection E' as <-.
    assert (E0 : exists n0, nth_error g0 k = Some n0 /\ f_kind n0 = K_Fn).
    { destruct (nth_error g0 k) as [n0|] eqn:E0; [|apply nth_error_None in E0; assert (k < length g) by (apply nth_error_Some; congruence); lia]. exists n0. split; [reflexivity|]. rewrite (NA _ _ E0) in E. injection E as <-. exact KF. }
    destruct E0 as (n0 & E0 & K0). destruct (RO k n0 E0 (sf_fn _ FS k n0 E0 K0)) as [I|[(_ & _ & X) _]]; [|destruct X; congruence].
    destruct (BACK k I) as (t & IT & IC). destruct (ROOT t k IC) as [RT RS].
    assert (KT : t_kind (wo t) = K_Fn). { inversion RT as [i' n1 ls E1 F' X1 X2]; subst. rewrite E0 in E1. injection E1 as <-. exact K0. }
    destruct (F2 t IT KT) as (s & fn' & I' & FT). exists fn'. split; [exact I'|].
    inversion RS as [i' n1 ls E1 F' X1 X2]; subst. rewrite E in E1. injection E1 as <-. split.
    - pose proof (ft_name _ _ _ _ FT) as N1. rewrite <- X2 in N1. cbn [t_data] in N1. unfold f_name in NX. rewrite N1 in NX. now injection NX.
    - rewrite <- (ft_args _ _ _ _ FT), <- X2. cbn [t_children]. apply Forall2_len with (P := reads g). now apply parts_tree. }
  split.
  { assert (ND : NoDup (map p (places 0 ts))).
    { apply (map_differ p (length g2)); [apply (sb_inj _ _ _ S_)| |apply places_differ]. intros i I. destruct (P2 i I) as (n & E & _). apply nth_error_Some. congruence. }
    rewrite F3, places_app with (p := None), map_app in ND. apply drop_left in ND.
    apply (names_differ (NodesSpec.function g) _ _) with (2 := ND); [|intros i j x; apply (ri_functions _ _ _ RF)].
    assert (L2 : length (places (0 + length (lays 0 None us)) us') = length us') by (generalize (0 + length (lays 0 None us)); clear; induction us'; intros; cbn [places length]; auto).
    assert (RS : forall t i, In (i, t) (combine (map p (places (0 + length (lays 0 None us)) us')) us') -> reads g i (seen t)).
    { intros t i I. apply ROOT. rewrite F3, places_app with (p := None), map_app.
      replace (combine _ _) with (combine (map p (places 0 us)) us ++ combine (map p (places (0 + length (lays 0 None us)) us')) us'); [apply in_or_app; now right|].
      assert (L1 : length (map p (places 0 us)) = length us) by (rewrite map_length; generalize 0; clear; induction us; intros; cbn [places length]; auto).
      revert L1. generalize (map p (places 0 us)) (map p (places (0 + length (lays 0 None us)) us')). clear. induction us as [|u us IH]; intros [|i l] l' L; try discriminate; [reflexivity|].
      cbn [combine app]. now rewrite IH by (cbn in L; lia). }
    rewrite <- (map_length p) in L2. revert RS L2. generalize (map p (places (0 + length (lays 0 None us)) us')) as l. clear - F4. induction F4 as [|t fn us fs (s & T) F4 IH]; intros [|i l] RS L; try discriminate; [constructor|].
    cbn [map]. constructor; [|apply IH; [intros; apply RS; now right|now injection L]].
    specialize (RS t i (or_introl eq_refl)). inversion RS as [i0 n1 ls E1 F' X1 X2]; subst. exists n1. split; [exact E1|]. pose proof (ft_kind _ _ _ _ T) as KF. pose proof (ft_name _ _ _ _ T) as NF. rewrite <- X2 in KF, NF.
    split; [exact KF|]. unfold f_name. cbn [t_data] in NF. now rewrite NF. }
  intros fn IF. destruct (F1 fn IF) as (s & t & IS & IT & FT). apply (ft_body _ _ _ _ FT).
  destruct (FIND t IT) as [i IC]. destruct (ROOT t i IC) as [RT RS].
  assert (EN : exists n, nth_error g i = Some n /\ f_kind n = K_Fn /\ f_parent n = None).
  { inversion RS as [i' n1 ls E1 F' X1 X2]; subst. exists n1. split; [exact E1|]. pose proof (ft_kind _ _ _ _ FT) as KF. rewrite <- X2 in KF. split; [exact KF|].
    inversion RT as [i' n0 ls' E0 F0 X3 X4]; subst. pose proof (NA _ _ E0) as EE. rewrite E1 in EE. injection EE as ->. apply (sf_fn _ FS i n0 E0). exact KF. }
  destruct EN as (n & EN & KF & PN).
  assert (NL : forall a an, nth_error g a = Some an -> hd_error (f_children an) = Some i -> False).
  { intros a an EA HA. destruct (to_child _ TG _ _ i EA) as (cn & Ec & Pc); [destruct (f_children an); [discriminate|injection HA as ->; now left]|]. congruence. }
  apply (tree_accepted g TG (callable_in K f)) with (i := i).
  - intros j x V. destruct (ri_variables _ _ _ RF j x V) as (_ & d & _ & _ & RR). eauto.
  - intros c cn x EC KC NX AL. destruct (C55_calls _ _ _ _ _ _ _ GF GO FR c cn x EC KC NX AL) as (n' & _ & [(k & kn & _ & B & C & D & V)|(_ & B & C & V)]).
    + left. destruct (FUN k x kn C B) as (fn' & I1 & I2 & I3). exists fn'. split; [exact I1|]. split; [exact I2|]. rewrite V. now symmetry.
    + right. split; [|exists (f_lts n'); split; [exact C|now symmetry]]. intros fn' I' NX'. destruct (F1 fn' I') as (s' & t' & _ & IT' & FT'). destruct (FIND t' IT') as [i' IC']. destruct (ROOT t' i' IC') as [_ RS'].
      apply (B i'). inversion RS' as [i0 n1 ls E1 F' X1 X2]; subst. exists n1. split; [exact E1|]. pose proof (ft_kind _ _ _ _ FT') as KF'. pose proof (ft_name _ _ _ _ FT') as NF'. rewrite <- X2 in KF', NF'. split; [exact KF'|].
      unfold f_name. cbn [t_data] in NF'. now rewrite NF'.
  - exact RS.
  - intros x k c q l w d OW. exfalso. clear - OW EN PN. induction OW as [n1 q E1 P1|k c q l m q' OW IH Em KC Q LZ|k c q l m q' OW IH Em KC Q]; auto. congruence.
  - split; [discriminate|]. intros (a & an & EA & _ & HA). exfalso. eauto.
  - split; [discriminate|]. intros (l & ln & _ & EL & HL). exfalso. eauto.
Qed.
