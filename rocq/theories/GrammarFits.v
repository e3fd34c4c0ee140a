(** * The trees of a text that follows the grammar have what the checkers need. *)
From Coq Require Import String List Bool Arith ZArith Lia.
From Verif Require Import PrintModel ColorModel Float64 TypeModel LifetimeModel NodesModel FoldModel TransformModel NodesSpec LivesSpec Syntax AstModel AstSpec AstProofs AstFile GrammarSpec GrammarBuild.
Import ListNotations.
Local Open Scope string_scope.
Local Open Scope nat_scope.
Local Open Scope list_scope.

Notation wo := without_operators.

Section Fits.
(** with the lifetime checks or without *)
Context (L : bool).
Definition tidy (n : string) (b : list stx) : bool := linkable n b && (negb L || traceable n b).
Notation oks := (forallb (nodes_all tidy)).

(** ** Trees *)
Record good (t : ntree) : Prop := Good {
  gd_fit : operators_fit false t;
  gd_plain : unsimplified t = true;
  gd_written : every written (wo t) = true;
  gd_lively : L = true -> every lively (wo t) = true;
  gd_op : x_op (t_data (wo t)) = None \/ t_kind (wo t) = K_Assign }.
Definition kind_of (t : ntree) : kind := t_kind (wo t).
Definition kin (ks : list kind) (t : ntree) : Prop := In (kind_of t) ks.
Lemma kin_more : forall ks ks' ts, Forall (kin ks) ts -> incl ks ks' -> Forall (kin ks') ts.
Proof. intros ks ks' ts H I. eapply Forall_impl; [|exact H]. intros t. apply I. Qed.

Lemma all_fits : forall l, Forall (operators_fit false) l <->
  (fix all (l : list ntree) : Prop := match l with [] => True | t :: l => operators_fit false t /\ all l end) l.
Proof. induction l as [|t l IH]; split; intros H; auto; [inversion_clear H; split; [auto|now apply IH]|destruct H; constructor; [auto|now apply IH]]. Qed.
Lemma fits_node : forall top d ts, operators_fit top (NT d ts) <->
  ((x_binops d = [] \/ (ts = [] /\ length (x_binops d) = 1)) \/ (length ts = S (length (x_binops d)) /\ top = false)) /\
  (x_kind d = K_Add \/ x_kind d = K_Mul -> top = false) /\
  (unop_name (x_kind d) <> None -> x_binops d = [] /\ forall t, In t ts -> x_kind (t_data t) = K_Expr /\ x_binops (t_data t) = []) /\
  Forall (operators_fit false) ts.
Proof. intros top d ts. rewrite all_fits. reflexivity. Qed.
Lemma good_fits : forall ts, Forall good ts -> Forall (operators_fit false) ts.
Proof. intros ts H. eapply Forall_impl; [|exact H]. intros t []. assumption. Qed.
Lemma forall_every : forall Q ts, (forall t, In t ts -> every Q (wo t) = true) -> forallb (every Q) (map wo ts) = true.
Proof. intros Q ts H. apply forallb_forall. intros t I. apply in_map_iff in I. destruct I as (u & <- & I). auto. Qed.
Lemma good_written : forall ts, Forall good ts -> forallb (every written) (map wo ts) = true.
Proof. intros ts H. apply forall_every. intros t I. now apply (proj1 (Forall_forall _ _) H). Qed.
Lemma good_lively : forall ts, Forall good ts -> L = true -> forallb (every lively) (map wo ts) = true.
Proof. intros ts H E. apply forall_every. intros t I. now apply (proj1 (Forall_forall _ _) H). Qed.
Lemma good_plain : forall ts, Forall good ts -> forallb (every (fun t => (0 <=? x_grab (t_data t))%Z &&
                  match t_kind t, x_op (t_data t) with K_Add, Some _ | K_Mul, Some _ => false | _, _ => true end)) ts = true.
Proof. intros ts H. apply forallb_forall. intros t I. exact (gd_plain _ (proj1 (Forall_forall _ _) H t I)). Qed.

Lemma none_of : forall ks bad ts, Forall (kin ks) ts -> forallb (fun k => negb (existsb (is_kind k) bad)) ks = true ->
  forallb (fun c => negb (one_of bad c)) (map wo ts) = true.
Proof.
  intros ks bad ts H B. apply forallb_forall. intros t I. apply in_map_iff in I. destruct I as (u & <- & I).
  apply (proj1 (Forall_forall _ _) H) in I. rewrite forallb_forall in B. exact (B _ I).
Qed.
Lemma none_kind : forall ks k ts, Forall (kin ks) ts -> forallb (fun j => negb (is_kind j k)) ks = true ->
  forallb (fun c => negb (of_ k c)) (map wo ts) = true.
Proof.
  intros ks k ts H B. apply forallb_forall. intros t I. apply in_map_iff in I. destruct I as (u & <- & I).
  apply (proj1 (Forall_forall _ _) H) in I. rewrite forallb_forall in B. exact (B _ I).
Qed.

(** a node that is not an operator *)
Definition simple (d : data) : bool :=
  match x_binops d with [] => true | _ => false end && match unop_name (x_kind d) with None => true | _ => false end &&
  negb (is_kind (x_kind d) K_Add) && negb (is_kind (x_kind d) K_Mul) && (0 <=? x_grab d)%Z.
Lemma simple_wo : forall d ts, simple d = true -> wo (NT d ts) = NT d (map wo ts).
Proof.
  intros d ts H. unfold simple in H. rewrite !andb_true_iff, !negb_true_iff in H. destruct H as ((((A & B) & C) & D) & E).
  cbn [wo]. unfold without_operator. destruct (x_binops d); [|discriminate]. destruct (map wo ts) as [|t [|? ?]]; try reflexivity.
  destruct (unop_name (x_kind d)); [discriminate|]. rewrite C, D. reflexivity.
Qed.
Lemma node_good : forall d ts, simple d = true -> x_op d = None \/ x_kind d = K_Assign -> Forall good ts -> written (NT d (map wo ts)) = true ->
  (L = true -> lively (NT d (map wo ts)) = true) -> good (NT d ts) /\ wo (NT d ts) = NT d (map wo ts).
Proof.
  intros d ts S OP H W V. pose proof (simple_wo d ts S) as E. split; [|exact E].
  unfold simple in S. rewrite !andb_true_iff, !negb_true_iff in S. destruct S as ((((A & B) & C) & D) & F).
  destruct (x_binops d) eqn:X; [|discriminate]. destruct (unop_name (x_kind d)) eqn:U; [discriminate|].
  split.
  - apply fits_node. rewrite X, U. split; [now left; left|]. split; [auto|]. split; [congruence|]. now apply good_fits.
  - unfold unsimplified. cbn [every]. rewrite (good_plain _ H). cbn [t_data t_kind]. rewrite F. cbn [andb]. rewrite andb_true_r.
    unfold t_kind. cbn [t_data]. destruct (x_kind d); try reflexivity; discriminate.
  - rewrite E. cbn [every]. now rewrite W, good_written.
  - intros l. rewrite E. cbn [every]. now rewrite V, good_lively.
  - rewrite E. exact OP.
Qed.

(** The kinds of children that a node can have; [ne]: there are some. *)
Definition accepts (d : data) (ks : list kind) (ne : bool) : bool :=
  let k := x_kind d in
  simple d && match x_op d with None => true | _ => false end &&
  (has_names d || negb (existsb (is_kind k) [K_Item; K_Fn; K_Arg; K_Call; K_In])) &&
  negb (existsb (is_kind k) [K_CallClosure; K_Closure; K_Fn; K_Call; K_Assign]) &&
  (negb (is_kind k K_Return) || ne) &&
  (negb (is_kind k K_Grab) || forallb (fun j => negb (is_kind j K_Item)) ks) &&
  forallb (fun j => negb (is_kind j K_Fn)) ks && forallb (fun j => negb (is_kind j K_Arg)) ks && forallb (fun j => negb (is_kind j K_CallArg)) ks &&
  (existsb (is_kind k) [K_Fn; K_Item; K_Ty; K_Ns; K_Uses; K_Use; K_For; K_Vec4; K_Mat4; K_Swizzle; K_ItemExtra] ||
   forallb (fun j => negb (existsb (is_kind j) odd_kinds)) ks).
Lemma accepts_good : forall d ks ts ne, accepts d ks ne = true -> (ne = true -> L = true -> ts <> []) -> Forall good ts -> Forall (kin ks) ts ->
  good (NT d ts) /\ wo (NT d ts) = NT d (map wo ts).
Proof.
  intros d ks ts ne H NE G K. unfold accepts in H. rewrite !andb_true_iff in H.
  destruct H as (((((((((A & B) & C) & D) & R) & E) & F) & F2) & F3) & O). destruct (x_op d) eqn:X; [discriminate|]. rewrite negb_true_iff in D.
  pose proof (none_kind _ _ _ K F) as F'. pose proof (none_kind _ _ _ K F2) as F2'. pose proof (none_kind _ _ _ K F3) as F3'.
  apply node_good; [assumption|now left|assumption| |].
  - unfold written. cbn [t_data t_children]. rewrite X, F'. unfold t_kind. cbn [t_data]. rewrite !andb_true_r. rewrite andb_true_iff. split.
    + destruct (has_names d); [now destruct (x_kind d)|]. destruct (x_kind d); try reflexivity; discriminate.
    + destruct (x_kind d); try reflexivity; try discriminate. simpl in E. now apply (none_kind _ _ _ K).
  - intros l. unfold lively. cbn [t_data t_children]. rewrite X. rewrite !andb_true_iff. split; [split; [split; [split|]|]|].
    + rewrite orb_true_iff. right. apply forallb_forall. intros c I. rewrite forallb_forall in F2'. now rewrite (F2' _ I).
    + reflexivity.
    + unfold t_kind. cbn [t_data]. destruct (x_kind d); try reflexivity; try discriminate.
      simpl in R. specialize (NE R l). destruct ts; [congruence|reflexivity].
    + rewrite orb_true_iff. now right.
    + rewrite orb_true_iff in O |- *. unfold one_of at 1, t_kind. cbn [t_data]. destruct O as [O|O]; [now left|right]. now apply (none_of _ _ _ K).
Qed.

(** ** Pieces of text *)
Notation sorted := (sorted parse_type).
Notation build := (build parse_type).
Notation builds := (builds parse_type).
Definition voids (b : list stx) : bool := existsb (is_flag "return_void") b.
(** what is left of the data of a node after the body of an expression *)
Definition after (d : data) (v m : bool) (t : option ty) (tr : bool) : data :=
  Data (if v then K_ReturnVoid else x_kind d) (x_alias d) (x_names d) t (if m then true else x_mut d) tr (x_grab d) (x_lifetime d) (x_op d) (x_binops d).
Definition plain_kinds : list kind :=
  [K_In; K_Closure; K_Object; K_Array; K_ArrayFill; K_Link; K_Block; K_For; K_Loop; K_If; K_Break; K_Continue; K_Assign; K_Return; K_ReturnVoid;
   K_Call; K_Expr; K_Compare; K_Pow; K_Vec4; K_Mat4; K_Vec4UnLoop; K_Grab; K_TryExpr; K_Item; K_Go; K_CallClosure;
   K_ForN; K_Sum; K_Prod; K_SumVec4; K_ProdVec4; K_Min; K_Max; K_Sift; K_Any; K_All; K_LinkFor;
   K_ForIn; K_SumIn; K_ProdIn; K_MinIn; K_MaxIn; K_AnyIn; K_AllIn; K_SiftIn; K_LinkIn].
(** one node *)
Definition one_node (s : stx) (ks : list kind) : Prop :=
  sorted s /\ exists t, (forall d, build s d = (d, [t])) /\ good t /\ kin ks t.
(** several nodes *)
Definition all_nodes (l : list stx) (ks : list kind) : Prop :=
  Forall sorted l /\ exists ts, (forall d, builds l d = (d, ts)) /\ Forall good ts /\ Forall (kin ks) ts.
(** the body of an argument ([m]: [mut]) or an expression *)
Definition a_body (b : list stx) (m : bool) : Prop :=
  oks b = true -> Forall sorted b /\ existsb (is_flag "mut") b = m /\
  forall d, exists t tr ts, builds b d = (after d (voids b) m t tr, ts) /\ Forall good ts /\ Forall (kin (K_Swizzle :: plain_kinds)) ts /\
    (existsb (named "swizzle") b = false -> Forall (kin plain_kinds) ts) /\ (existsb is_node b = true -> ts <> []).
Definition body (b : list stx) : Prop :=
  oks b = true -> Forall sorted b /\ (existsb (is_flag "mut") b = false /\ existsb (named "swizzle") b = false /\ existsb is_node b && voids b = false) /\
  forall d, exists t tr ts, builds b d = (after d (voids b) false t tr, ts) /\ Forall good ts /\ Forall (kin plain_kinds) ts /\
    (existsb is_node b = true -> ts <> []).
Lemma body_arg : forall b, body b -> a_body b false.
Proof.
  intros b H O. destruct (H O) as (W & [M _] & X). do 2 (split; [assumption|]). intros d. destruct (X d) as (t & tr & ts & A & B & C & D).
  exists t, tr, ts. do 2 (split; [assumption|]). split; [eapply kin_more; [exact C|]; intros k K; now right|]. split; auto.
Qed.
Lemma oks_app : forall a b, oks (a ++ b) = true <-> oks a = true /\ oks b = true.
Proof. intros. rewrite forallb_app. apply andb_true_iff. Qed.
Lemma oks_cons : forall t b, oks (t :: b) = true <-> nodes_all tidy t = true /\ oks b = true.
Proof. intros. cbn [forallb]. apply andb_true_iff. Qed.
Lemma ok_node : forall n b, nodes_all tidy (SNode n b) = true <-> tidy n b = true /\ oks b = true.
Proof. intros. cbn [nodes_all]. apply andb_true_iff. Qed.
Lemma one_kind : forall s k ks, one_node s [k] -> In k ks -> one_node s ks.
Proof. intros s k ks (A & t & B & C & D) I. split; [exact A|]. exists t. do 2 (split; [assumption|]). unfold kin in *. destruct D as [<-|[]]. exact I. Qed.
Lemma one_more : forall s ks ks', one_node s ks -> incl ks ks' -> one_node s ks'.
Proof. intros s ks ks' (A & t & B & C & D) I. split; [exact A|]. exists t. do 2 (split; [assumption|]). now apply I. Qed.
Lemma all_more : forall s ks ks', all_nodes s ks -> incl ks ks' -> all_nodes s ks'.
Proof. intros s ks ks' (A & t & B & C & D) I. split; [exact A|]. exists t. do 2 (split; [assumption|]). eapply kin_more; eauto. Qed.
Lemma all_none : forall ks, all_nodes [] ks.
Proof. intros ks. split; [constructor|]. exists []. repeat split; constructor. Qed.
Lemma all_cons : forall s l ks, one_node s ks -> all_nodes l ks -> all_nodes (s :: l) ks.
Proof.
  intros s l ks (A & t & B & C & D) (A' & ts & B' & C' & D'). split; [now constructor|]. exists (t :: ts). split; [|split; now constructor].
  intros d. cbn [GrammarBuild.builds]. rewrite B. cbn [fst snd]. rewrite B'. reflexivity.
Qed.
Lemma all_app : forall s l ks, all_nodes s ks -> all_nodes l ks -> all_nodes (s ++ l) ks.
Proof.
  intros s l ks (A & t & B & C & D) (A' & ts & B' & C' & D'). split; [now apply Forall_app|]. exists (t ++ ts). split; [|split; now apply Forall_app].
  intros d. rewrite builds_app, B. cbn [fst snd]. rewrite B'. reflexivity.
Qed.
Lemma node_body : forall n c, n <> "swizzle" -> (tidy n c = true -> oks c = true -> one_node (SNode n c) plain_kinds) -> body [SNode n c].
Proof.
  intros n c N H O. rewrite oks_cons, ok_node in O. destruct (H (proj1 (proj1 O)) (proj2 (proj1 O))) as (A & t & B & C & D).
  apply String.eqb_neq in N. split; [now constructor|]. split; [simpl; now rewrite N|]. intros d. exists (x_ty d), (x_try d), [t].
  split; [|split; [constructor; [assumption|constructor]|split; [constructor; [assumption|constructor]|congruence]]].
  unfold voids. cbn [GrammarBuild.builds]. rewrite B. now destruct d.
Qed.
Definition fine (k : kind) : Prop := is_type k = false /\ is_sig_type k = false.
(** a node with parts *)
Lemma contain : forall n k l ks d ts ne, kind_new n = Some k -> fine k -> Forall sorted l -> builds l (blank k (start_ty k)) = (d, ts) ->
  Forall good ts -> Forall (kin ks) ts -> accepts d ks ne = true -> (ne = true -> L = true -> ts <> []) ->
  one_node (SNode n l) [x_kind d].
Proof.
  intros n k l ks d ts ne K [K1 K2] W B G KI A N. split; [apply sorted_node; split; eauto|]. exists (NT d ts).
  split; [|destruct (accepts_good d ks ts ne A N G KI) as [X Y]; split; [exact X|unfold kin, kind_of; rewrite Y; now left]].
  intros e. rewrite build_node, K. cbv zeta. now rewrite B.
Qed.
(** ... of one sort *)
Lemma contain_all : forall n k l ks, kind_new n = Some k -> fine k -> all_nodes l ks -> accepts (blank k (start_ty k)) ks false = true -> one_node (SNode n l) [k].
Proof. intros n k l ks K F (A & ts & B & C & D) X. change k with (x_kind (blank k (start_ty k))). eapply contain; eauto. discriminate. Qed.

(** a node around an expression *)
Definition wrappers : list kind :=
  [K_Expr; K_Left; K_Right; K_Val; K_Fill; K_N; K_ArrayItem; K_LinkItem; K_Init; K_Cond; K_Step; K_Start; K_End; K_Iter; K_ElseIfCond; K_Id;
   K_Return; K_CallArg; K_X; K_Y; K_Z; K_W; K_EX; K_EY; K_EZ; K_EW].
Lemma wrapper_accepts : forall k v m t tr, In k wrappers ->
  accepts (after (blank k (start_ty k)) v m t tr) (K_Swizzle :: plain_kinds) (is_kind k K_Return && negb v) = true.
Proof. intros k v m t tr H. simpl in H. repeat (destruct H as [<-|H]; [destruct v, m; reflexivity|]). destruct H. Qed.
Record wrapped (n : string) (k : kind) (b : list stx) (m : bool) (t : ntree) : Prop := {
  wr_build : forall d, build (SNode n b) d = (d, [t]);
  wr_good : good t;
  wr_kind : kind_of t = if voids b then K_ReturnVoid else k;
  wr_mut : x_mut (t_data (wo t)) = m;
  wr_some : existsb is_node b = true -> t_children (wo t) <> [];
  wr_swizzle : existsb (named "swizzle") b = false -> forallb (fun s => negb (of_ K_Swizzle s)) (t_children (wo t)) = true;
  wr_kids : forallb (fun s => negb (one_of odd_kinds s)) (t_children (wo t)) = true;
  wr_says : existsb (is_flag "mut") b = m;
  wr_data : x_op (t_data t) = None /\ x_binops (t_data t) = [] /\ t_kind t = kind_of t }.
Lemma wrap : forall n k b m, kind_new n = Some k -> In k wrappers -> a_body b m -> oks b = true ->
  (L = true -> k = K_Return -> existsb is_node b || voids b = true) -> sorted (SNode n b) /\ exists t, wrapped n k b m t.
Proof.
  intros n k b m K I B O R. destruct (B O) as (W & M & X). split.
  { apply sorted_node. split; [|exact W]. exists k. split; [exact K|]. simpl in I. repeat (destruct I as [<-|I]; [split; reflexivity|]). destruct I. }
  destruct (X (blank k (start_ty k))) as (t & tr & ts & Y & G & KI & SW & NE).
  pose proof (wrapper_accepts k (voids b) m t tr I) as A.
  destruct (accepts_good _ _ ts _ A) as [GT E]; auto.
  { intros H l. apply andb_true_iff in H. destruct H as [H V]. apply NE. assert (k = K_Return) by (now destruct k).
    specialize (R l H0). rewrite negb_true_iff in V. rewrite V, orb_false_r in R. exact R. }
  exists (NT (after (blank k (start_ty k)) (voids b) m t tr) ts). split.
  - intros d. rewrite build_node, K. cbv zeta. now rewrite Y.
  - exact GT.
  - unfold kind_of. rewrite E. reflexivity.
  - rewrite E. simpl. now destruct m.
  - intros H. rewrite E. simpl. intros H'. apply (NE H). now destruct ts.
  - intros H. rewrite E. simpl. apply (none_kind _ _ _ (SW H)). reflexivity.
  - rewrite E. cbn [t_children]. apply (none_of _ _ _ KI). reflexivity.
  - exact M.
  - unfold kind_of. rewrite E. repeat split.
Qed.
Lemma wrap_node : forall n k b m, kind_new n = Some k -> In k wrappers -> k <> K_Return -> a_body b m -> oks b = true -> one_node (SNode n b) [k; K_ReturnVoid].
Proof.
  intros n k b m K I R B O. destruct (wrap n k b m K I B O) as (W & t & T); [congruence|]. split; [exact W|]. exists t.
  split; [apply (wr_build _ _ _ _ _ T)|split; [apply (wr_good _ _ _ _ _ T)|]]. unfold kin. rewrite (wr_kind _ _ _ _ _ T). destruct (voids b); simpl; auto.
Qed.

(** ** Values *)
Lemma builds_value : forall m b d, builds (SValue m :: b) d = builds b (say m d).
Proof. intros. cbn [GrammarBuild.builds GrammarBuild.build fst snd app]. now destruct (builds b (say m d)). Qed.
Lemma builds_flags : forall n v b d, builds (flags n v ++ b) d = builds b (if v then set_bool n true d else d).
Proof. intros n [] b d; [apply builds_value|reflexivity]. Qed.
Lemma builds_strs : forall n o b d, builds (strs n o ++ b) d = builds b (match o with Some v => set_string n v d | None => d end).
Proof. intros n [] b d; [apply builds_value|reflexivity]. Qed.
Lemma sorted_flags : forall n v, Forall sorted (flags n v).
Proof. intros n []; repeat constructor. Qed.
Lemma sorted_strs : forall n o, Forall sorted (strs n o).
Proof. intros n []; repeat constructor. Qed.
Lemma oks_flags : forall n v b, oks (flags n v ++ b) = oks b.
Proof. intros n []; reflexivity. Qed.
Lemma oks_strs : forall n o b, oks (strs n o ++ b) = oks b.
Proof. intros n []; reflexivity. Qed.
(** data of which only names, alias, type and the like are there *)
Lemma set_label : forall o d, (match o with Some v => set_string "label" v d | None => d end) = d.
Proof. intros [] d; reflexivity. Qed.
Lemma builds_label : forall o b d, builds (strs "label" o ++ b) d = builds b d.
Proof. intros. now rewrite builds_strs, set_label. Qed.
Lemma all_label : forall o l ks, all_nodes l ks -> all_nodes (strs "label" o ++ l) ks.
Proof.
  intros o l ks (A & ts & B & C & D). split; [apply Forall_app; split; [apply sorted_strs|exact A]|]. exists ts. split; [|auto].
  intros d. now rewrite builds_label.
Qed.

(** ** Operators *)
Definition operand_kinds : list kind := [K_Expr; K_ReturnVoid; K_Call; K_Pow].
Definition sound_ (t : ntree) : Prop :=
  every written t = true /\ (L = true -> every lively t = true) /\ In (t_kind t) operand_kinds /\ (x_op (t_data t) = None \/ t_kind t = K_Assign).
Lemma op_sound : forall k b l r, sound_ l -> sound_ r -> sound_ (op_call (blank k None) b l r).
Proof.
  intros k b l r (A & B & C & D) (A' & B' & C' & D').
  assert (X : forall t, sound_ t -> every written (argument t) = true /\ (L = true -> every lively (argument t) = true) /\
     negb (of_ K_Swizzle t) = true).
  { intros t (E & F & G & _). unfold argument.
    assert (Y : of_ K_Fn t = false /\ of_ K_Arg t = false /\ of_ K_CallArg t = false /\ one_of odd_kinds t = false /\ of_ K_Swizzle t = false).
    { unfold of_, one_of. simpl in G. repeat (destruct G as [<-|G]; [repeat split; reflexivity|]). destruct G. }
    destruct Y as (Y1 & Y2 & Y3 & Y4 & Y5). cbn [every forallb]. rewrite E, Y5. split; [|split; [|reflexivity]].
    - rewrite andb_true_r. unfold written. cbn [t_data t_children blank x_op forallb]. rewrite Y1. reflexivity.
    - intros l'. rewrite (F l'), !andb_true_r. unfold lively. cbn [t_data t_children blank x_op forallb]. rewrite Y2, Y3, Y4. reflexivity. }
  destruct (X l (conj A (conj B (conj C D)))) as (Xl & Yl & Zl). destruct (X r (conj A' (conj B' (conj C' D')))) as (Xr & Yr & Zr).
  unfold sound_, op_call. cbn [every forallb]. rewrite Xl, Xr. split; [|split; [|split; [right; right; now left|left; reflexivity]]].
  - unfold written. cbn. reflexivity.
  - intros l'. rewrite (Yl l'), (Yr l'). rewrite !andb_true_r. unfold lively, argument. cbn [t_data t_children forallb]. rewrite Zl, Zr. reflexivity.
Qed.
Lemma ops_sound : forall k rest t, sound_ t -> Forall sound_ (map snd rest) ->
  sound_ (fold_left (fun acc (x : binop * ntree) => op_call (blank k None) (fst x) acc (snd x)) rest t).
Proof.
  induction rest as [|[b u] rest IH]; intros t T F; [exact T|]. inversion_clear F. cbn [fold_left fst snd]. apply IH; [now apply op_sound|assumption].
Qed.
Lemma good_sound : forall t, good t -> kin operand_kinds t -> sound_ (wo t).
Proof. intros t [A B C D E] K. split; [assumption|]. split; [assumption|]. split; assumption. Qed.
Lemma combine_snd : forall (bs : list binop) (us : list ntree), Forall sound_ us -> Forall sound_ (map snd (combine bs us)).
Proof. induction bs as [|b bs IH]; intros us H; [constructor|]. destruct H; simpl; constructor; auto. Qed.
Lemma op_good : forall k bs t us, In k [K_Add; K_Mul; K_Compare; K_Pow] -> length us = length bs -> Forall good (t :: us) -> Forall (kin operand_kinds) (t :: us) ->
  good (NT (with_binops bs (blank k None)) (t :: us)) /\ kin (K_Compare :: operand_kinds) (NT (with_binops bs (blank k None)) (t :: us)) /\
  (k <> K_Compare -> kin operand_kinds (NT (with_binops bs (blank k None)) (t :: us))).
Proof.
  intros k bs t us K N G KI. set (d := with_binops bs (blank k None)).
  assert (U : unop_name k = None) by (simpl in K; intuition (subst; reflexivity)).
  assert (F : operators_fit false (NT d (t :: us))).
  { apply fits_node. split; [right; split; [cbn [length]; rewrite N; reflexivity|reflexivity]|]. split; [reflexivity|]. split; [intros X; exfalso; apply X; exact U|now apply good_fits]. }
  assert (V : unsimplified (NT d (t :: us)) = true).
  { unfold unsimplified. cbn [every]. rewrite (good_plain _ G). unfold t_kind. cbn. now destruct k. }
  destruct bs as [|b bs].
  - destruct us; [|discriminate]. inversion_clear G as [|? ? GT _]. inversion_clear KI as [|? ? KT _].
    assert (E : wo (NT d [t]) = if is_kind k K_Add || is_kind k K_Mul then wo t else NT d [wo t]).
    { cbn [wo map]. unfold without_operator. cbn [x_binops d with_binops blank x_kind]. now rewrite U. }
    destruct (is_kind k K_Add || is_kind k K_Mul) eqn:AM.
    + split; [|split; [right|intros _]; unfold kin, kind_of; rewrite E; exact KT]. split; auto; rewrite E; apply GT.
    + assert (K' : k = K_Compare \/ k = K_Pow) by (simpl in K; destruct K as [<-|[<-|[<-|[<-|[]]]]]; auto; discriminate AM).
      destruct (accepts_good d operand_kinds [t] false) as [X Y]; [destruct K' as [-> | ->]; reflexivity|congruence|constructor; [exact GT|constructor]|constructor; [exact KT|constructor]|].
      split; [exact X|]. unfold kin, kind_of. rewrite Y. destruct K' as [-> | ->]; (split; [simpl; tauto|intros; try congruence; simpl; tauto]).
  - destruct us as [|u us]; [discriminate|]. inversion_clear G as [|? ? G1 G']. inversion_clear G' as [|? ? G2 G3].
    inversion_clear KI as [|? ? K1 K']. inversion_clear K' as [|? ? K2 K3].
    assert (E : wo (NT d (t :: u :: us)) = op_calls d b (wo t) (wo u) (combine bs (map wo us))) by reflexivity.
    assert (W : sound_ (op_calls d b (wo t) (wo u) (combine bs (map wo us)))).
    { unfold op_calls. apply ops_sound.
      - apply (op_sound k b); now apply good_sound.
      - apply combine_snd. clear - G3 K3. induction us; simpl; [constructor|]. inversion_clear G3. inversion_clear K3. constructor; [now apply good_sound|auto]. }
    destruct W as (W1 & W2 & W3 & W4). split; [split; auto; rewrite E; auto|]. unfold kin, kind_of. rewrite E. split; [now right|auto].
Qed.
End Fits.
