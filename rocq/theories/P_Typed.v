(** * C72: What the rules of types say holds for the texts that are accepted

    C50 and C51 are about graphs of nodes that are well formed. Here the graph is the one that the passes before the type
    checker give for the tokens of a file, and well-formedness is proved. *)
From Coq Require Import String List Bool Arith ZArith Lia.
From Verif Require Import Syntax Float64 TypeModel LifetimeModel LifetimeSpec TypecheckModel TypecheckSpec P_Typecheck PrintModel NodesModel NodesSpec NodesProofs NodesLayout NodesScope NodesCalls NodesClean NodesFits
  P_Nodes P_Scope LivesModel LivesSpec LivesFits P_Lives TypedSpec TypedFits.
From Verif Require AstModel AstSpec AstFile GrammarSpec P_Grammar.
Import ListNotations.
Local Open Scope string_scope.
Local Open Scope nat_scope.
Local Open Scope list_scope.

(** Everything that is asked of a file: it is as the grammar allows, can be linked, traced and typed, and is accepted by the
    passes before the type checker with the graph [g']. *)
Record accepted (P : type_parser) (sort : fgraph -> fgraph) (K : known) (O : outside) (F : list stx) (ts : list ntree) (g' : fgraph) : Prop := {
  ac_graph : exists g, graph_of sort ts g;
  ac_good : good_file P sort F ts;
  ac_lively : lively_file ts;
  ac_typable : typable_file ts;
  ac_outside : good_outside O;
  ac_front : front P sort O (flat_map tokens F) = NOk g';
  ac_before : declared_before g';
  ac_known : known_fit K O;
  ac_own : own_fit (checked g') }.
(** The graph that the type checker gets is well formed. *)
Lemma accepted_facts : forall P sort K O F ts g', accepted P sort K O F ts g' -> well_formed K (checked g') /\
  forall i n c cn x xn, nth_error g' i = Some n -> f_kind n = K_Call -> In c (f_children n) -> nth_error g' c = Some cn -> In x (f_children cn) ->
  nth_error g' x = Some xn -> f_kind xn <> K_Swizzle.
Proof.
  intros P sort K O F ts g' [[g GR] GF LF TF GO R DB KF OF]. pose proof (C56_linked _ _ _ _ _ _ _ GF LF GO GR R) as LV. pose proof (C55_checked P sort F ts g O GF GR) as X. cbv zeta in X. destruct X as [(g1 & R1 & _ & RF)|[(e & i & R1 & _)|(R1 & _)]]; try congruence.
  assert (g1 = g') as -> by congruence. clear R1. destruct GF as [A B C D]. destruct GR as (h1 & h2 & R1 & R2 & R3).
  destruct (C53_operators P F ts A B) as (g1 & g2 & Q1 & Q2 & T & _ & E & _). rewrite R1 in Q1. injection Q1 as <-. rewrite R2 in Q2. injection Q2 as <-.
  destruct (D h1 h2 R1 R2) as [p S]. destruct (graph_fits ts h1 h2 p (sort h2) B C R1 R2 T S E) as (FS & FN & FC & U).
  destruct (graph_roots ts h1 h2 p (sort h2) B C R1 R2 T S E) as (Fg & Hp & _).
  destruct (name_all_spec (sort h2) (sf_tree _ FS) FN) as (g3 & R4 & L & H). assert (g3 = g) as -> by congruence.
  assert (forall t, In t (map without_operators ts) -> every lively t = true /\ of_ K_Arg t = false) as H1 by (intros t I; apply in_map_iff in I; destruct I as (t0 & <- & I); exact (LF t0 I)).
  assert (forall t, In t (map without_operators ts) -> every typable t = true) as H2 by (intros t I; apply in_map_iff in I; destruct I as (t0 & <- & I); exact (TF t0 I)).
  split.
  - eapply (checked_wf K O (sort h2) g g' (map p (places 0 ts)) (map without_operators ts)); eauto; [apply (sf_tree _ FS)|apply (sf_order _ FS)].
  - eapply (checked_plain O (sort h2) g g' (map p (places 0 ts)) (map without_operators ts)); eauto; [apply (sf_tree _ FS)|apply (sf_order _ FS)].
Qed.
Theorem C72_well_formed : forall P sort K O F ts g', accepted P sort K O F ts g' -> well_formed K (checked g').
Proof. intros P sort K O F ts g' A. apply (accepted_facts _ _ _ _ _ _ _ A). Qed.
Print Assumptions C72_well_formed.

(** When the type checker accepts the file also, then every node has the type that the rules give, and, without a declared type
    and apart from calls that choose among signatures, no other. *)
Theorem C72_types : forall P sort K O F ts g' rounds fuel h, accepted P sort K O F ts g' -> typecheck K rounds fuel (checked g') = TOk h ->
  (forall i t, derives K h i t -> ty_at h i = Some t) /\
  (forall i n t, is_node h i n -> ruled n -> ~ choosing K h i -> ty_at (checked g') i = None -> ty_at h i = Some t -> derives K h i t).
Proof.
  intros P sort K O F ts g' rounds fuel h A R. pose proof (C72_well_formed _ _ _ _ _ _ _ A) as W. split.
  - intros i t D. eapply C51_closed; eauto.
  - intros i n t N RU C T0 T. eapply (C51_exact K rounds fuel (checked g') h); eauto.
Qed.
Print Assumptions C72_types.

(** The arguments of a call go with the types that the function in the file declares for its parameters, and with those of a
    function from outside. *)
Lemma ones_supply : forall K g i n j a, well_formed K g -> is_node g i n -> g_kind n = K_Call ->
  (forall c cn x, In c (g_children n) -> is_node g c cn -> In x (g_children cn) -> ~ TypecheckSpec.kind_at g x K_Swizzle) ->
  nth_error (g_children n) j = Some a -> supplies g n a j.
Proof.
  intros K g i n j a W N KC NS E. destruct (nth_error_split _ _ E) as (pre & post & CH & LE).
  assert (forall c, In c (g_children n) -> spread g c 1) as SP.
  { intros c I. destruct (proj2 (proj2 (wf_call _ _ W i n N KC)) c I) as (cn & x & EC & _ & _ & CC). exists cn, x. split; auto. split; auto. right. split; auto. eapply NS; eauto. rewrite CC. now left. }
  exists pre, post, (map (fun _ => 1) pre), 1. split; auto. split; [|split].
  - assert (forall c, In c pre -> spread g c 1) as X by (intros c I; apply SP; rewrite CH; apply in_or_app; auto). clear -X. induction pre; cbn; constructor; [apply X; now left|apply IHpre; intros; apply X; now right].
  - apply SP. rewrite CH. apply in_or_app. right. now left.
  - assert (list_sum (map (fun _ => 1) pre) = length pre) as ->; [clear; unfold list_sum; induction pre; simpl; congruence|]. lia.
Qed.
Theorem C72_arguments : forall P sort K O F ts g' rounds fuel h, accepted P sort K O F ts g' -> typecheck K rounds fuel (checked g') = TOk h ->
  forall c n j a an x t, nth_error g' c = Some n -> f_kind n = K_Call -> nth_error (f_children n) j = Some a -> nth_error g' a = Some an ->
    f_children an = [x] ->
    ty_at h x = Some t ->
    (forall f fn p pn q, f_decl n = Some f -> nth_error g' f = Some fn -> nth_error (f_children fn) j = Some p -> nth_error g' p = Some pn ->
       x_ty (f_data pn) = Some q -> q = TAny \/ goes_with q t = true) /\
    (forall f q, target K (checked_node n) f -> nth_error (d_tys f) j = Some q -> goes_with q t = true).
Proof.
  intros P sort K O F ts g' rounds fuel h A R c n j a an x t E KC EA EAN CA T. pose proof (C72_well_formed _ _ _ _ _ _ _ A) as W.
  assert (is_node (checked g') c (checked_node n)) as NC by (apply g_node; eauto). assert (is_node (checked g') a (checked_node an)) as NA by (apply g_node; eauto).
  assert (supplies (checked g') (checked_node n) a j) as S.
  { eapply ones_supply; eauto. intros b bn y I NB IY Q. apply g_node in NB. destruct NB as (bn' & EB & ->). apply g_kind_at in Q. destruct Q as (yn & EY & KY). exact (proj2 (accepted_facts _ _ _ _ _ _ _ A) c n b bn' y yn E KC I EB IY EY KY). }
  destruct (C51_arguments K rounds fuel (checked g') h c (checked_node n) a (checked_node an) x j t W R NC KC (nth_error_In _ _ EA) NA CA S T) as [X Y]. split; [|exact Y].
  intros f fn p pn q D EF EP EPN Q. apply (X f (checked_node fn) p q D); auto; [apply g_node; eauto|]. unfold ty_at. assert (is_node (checked g') p (checked_node pn)) as NP by (apply g_node; eauto). unfold is_node in NP. now rewrite NP.
Qed.
Print Assumptions C72_arguments.

(** The same for a text of the grammar, as far as its trees can be typed. *)
Theorem C72_text : forall in_of alloc sort F f K O g', AstSpec.file_means in_of alloc F f ->
  forallb (GrammarSpec.nodes_all GrammarSpec.linkable) F = true -> forallb (GrammarSpec.nodes_all GrammarSpec.traceable) F = true -> P_Grammar.sorts sort F ->
  good_outside O -> front AstFile.parse_type sort O (flat_map tokens F) = NOk g' ->
  (forall ts, file_stands AstFile.parse_type F ts -> typable_file ts) -> declared_before g' -> known_fit K O -> own_fit (checked g') ->
  exists ts, accepted AstFile.parse_type sort K O F ts g'.
Proof.
  intros in_of alloc sort F f K O g' M A B SO GO R TY DB KF OF. destruct (P_Grammar.C61_traceable _ _ _ _ _ M A B SO) as (ts & G & LF).
  destruct (C55_graph _ _ _ _ G) as (g0 & g & p & GR & _). exists ts. split; eauto. apply TY. apply G.
Qed.
Print Assumptions C72_text.

(** ** A file

    [fn f(b: 'return f64) -> f64 { x := b  return k(b) }  fn k(r: 'return f64) -> f64 { return r }] *)
Definition f64_ : stx := SType "type" [MBool "f64" true].
Definition typed_ : list stx :=
  [SNode "fn" [s_name "f"; SNode "arg" [s_name "b"; SValue (MString "lifetime" "return"); f64_]; SValue (MBool "returns" true); SType "ret_type" [MBool "f64" true];
     SNode "block" [s_let "x" (item_ "b"); s_expr (SNode "return" [SNode "call" [s_name "k"; SNode "call_arg" [item_ "b"]]])]];
   SNode "fn" [s_name "k"; SNode "arg" [s_name "r"; SValue (MString "lifetime" "return"); f64_]; SValue (MBool "returns" true); SType "ret_type" [MBool "f64" true];
     SNode "block" [s_expr (SNode "return" [item_ "r"])]]].
Definition typed_arg (x : string) : ntree := NT (with_ty TF64 (with_lifetime "return" (named K_Arg x))) [].
Definition typed_t : list ntree :=
  [NT (with_ty TF64 (named K_Fn "f")) [typed_arg "b"; t_block [t_let "x" (var_ "b"); t_expr (NT (blank K_Return None) [t_call "k" [var_ "b"]])]];
   NT (with_ty TF64 (named K_Fn "k")) [typed_arg "r"; t_block [t_expr (NT (blank K_Return None) [var_ "r"])]]].
Definition typed_g : fgraph := Eval vm_compute in graph_ typed_t.
Definition nothing_ : known := Known (fun _ => None) (fun _ _ => None).
(** without extra signatures there is nothing to fit *)
Lemma plain_own : forall g, forallb (fun n => negb (is_kind (f_kind n) K_Ty)) g = true -> own_fit (checked g).
Proof.
  intros g H d f sigs ps _ _ SI NE. exfalso. apply NE. unfold sigs_are in SI.
  assert (filter (fun c => match nth_error (checked g) c with Some m => is_kind (g_kind m) K_Ty | None => false end) (g_children f) = []) as Q.
  { clear SI. induction (g_children f) as [|c l IH]; [reflexivity|]. cbn. rewrite IH. unfold checked. rewrite nth_error_map. destruct (nth_error g c) as [n|] eqn:E; cbn; [|reflexivity].
    apply nth_error_In in E. rewrite forallb_forall in H. specialize (H _ E). apply negb_true_iff in H. unfold f_kind in H. now rewrite H. }
  rewrite Q in SI. now inversion SI.
Qed.
Definition before_b (g : fgraph) : bool :=
  forallb (fun i => match nth_error g i with
                    | Some n => match f_decl n with
                                | Some d => negb (is_kind (f_kind n) K_Item) || negb (match nth_error g d with Some dn => is_kind (f_kind dn) K_Item | None => false end) || (d <? i)
                                | None => true
                                end
                    | None => true
                    end) (seq 0 (length g)).
Lemma before_ok : forall g, before_b g = true -> declared_before g.
Proof.
  intros g H i n d dn E KI D ED KD. unfold before_b in H. rewrite forallb_forall in H. specialize (H i). rewrite E, D, ED in H. assert (is_kind (f_kind n) K_Item = true) as A by now apply is_kind_true. assert (is_kind (f_kind dn) K_Item = true) as B by now apply is_kind_true.
  rewrite A, B in H. cbn in H. apply Nat.ltb_lt. apply H. apply in_seq. split; [lia|]. cbn. apply nth_error_Some. congruence.
Qed.
Example C72_example : accepted types_ (fun g => g) nothing_ outside_ typed_ typed_t typed_g.
Proof.
  split.
  - do 3 eexists. repeat split; vm_compute; reflexivity.
  - split.
    + assert (exists ts, file_stands types_ typed_ ts /\ ts = typed_t) as (ts & H & ->); [|exact H].
      eexists. split; [unfold typed_, f64_, s_let, s_expr, s_name, item_; stand|reflexivity].
      Unshelve. all: exact (blank K_Fn None).
    + intros t H. destruct H as [<-|[<-|[]]]; cbn;
      repeat match goal with
             | |- _ /\ _ => split
             | |- True => exact Logic.I
             | |- (_ = K_Add \/ _ = K_Mul) -> _ => intros [?|?]; first [discriminate|reflexivity]
             | |- ?a <> None -> _ => intros A; exfalso; apply A; reflexivity
             | |- (_ \/ _) \/ _ => left; left; reflexivity
             end.
    + intros t [<-|[<-|[]]]; split; reflexivity.
    + intros g1 g2 A B. exists (fun i => i). apply sorted_already. vm_compute in A. injection A as <-. vm_compute in B. injection B as <-.
      apply all_in_order_ok. vm_compute. reflexivity.
  - intros t [<-|[<-|[]]]; split; reflexivity.
  - intros t [<-|[<-|[]]]; reflexivity.
  - apply C56_example_file.
  - vm_compute. reflexivity.
  - apply before_ok. vm_compute. reflexivity.
  - split; discriminate.
  - apply plain_own. vm_compute. reflexivity.
Qed.
(** The type checker accepts it; the local variable, its use and the call have the type that is declared for the argument and
    the result. *)
Definition typed_h : graph := Eval vm_compute in match typecheck nothing_ 10 100 (checked typed_g) with TOk h => h | _ => [] end.
Example C72_example_types : typecheck nothing_ 10 100 (checked typed_g) = TOk typed_h /\
  map (fun n => (g_kind n, g_ty n)) typed_h =
  [(K_Fn, Some TF64); (K_Arg, Some TF64); (K_Block, Some TUnreachable); (K_Expr, Some TVoid); (K_Assign, Some TVoid); (K_Left, Some TF64);
   (K_Item, Some TF64); (K_Right, Some TF64); (K_Item, Some TF64); (K_Expr, Some TUnreachable); (K_Return, Some TF64); (K_Call, Some TF64);
   (K_CallArg, Some TF64); (K_Item, Some TF64); (K_Fn, Some TF64); (K_Arg, Some TF64); (K_Block, Some TUnreachable); (K_Expr, Some TUnreachable);
   (K_Return, Some TF64); (K_Item, Some TF64)].
Proof. split; vm_compute; reflexivity. Qed.
