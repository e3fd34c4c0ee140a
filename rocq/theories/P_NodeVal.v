(** * C75: The nodes of the checker that a program gets tell the graph. *)
From Coq Require Import String Ascii List ZArith Bool Arith Lia.
From Verif Require Import Float64 Syntax InterpModel EmbedModel EmbedSpec P_Embed.
From Verif Require TypeTextModel TypeTextSpec P_TypeText.
From Verif Require Import TypeModel LifetimeModel TypecheckModel TypecheckSpec TypecheckProofs TypecheckShape TypecheckInv P_Typecheck PrintModel NodesModel NodesSpec NodesLayout P_Nodes P_Scope
  LivesModel LivesSpec P_Lives TypedSpec TypedFits P_Typed CheckModel P_Check NodeValModel NodeValSpec.
Import ListNotations.
Local Open Scope string_scope.
Local Open Scope nat_scope.
Local Open Scope list_scope.

(** ** Every node, in order, with all its parts *)

Lemma lt_texts : forall l, Forall2 lt_says l (map lt_text l).
Proof.
  induction l as [|[i| |] l IH]; cbn [map]; constructor; auto; cbn [lt_text]; try constructor. apply P_TypeText.decimal_text. lia.
Qed.
Lemma holds_at : forall o k w, NoDup (map fst o) -> In (k, w) o -> holds (VObject o) k w.
Proof. intros o k w N I. exists o. auto. Qed.
Lemma keys_once : NoDup keys.
Proof. unfold keys. repeat constructor; cbn; intuition discriminate. Qed.
Lemma node_tells : forall n p r, node_rval n p = Some r -> tells (push_var r) n p.
Proof.
  intros n p r H. unfold node_rval in H. destruct (type_rval (x_ty (f_data n))) as [t|] eqn:T; [|discriminate]. injection H as <-.
  match goal with |- tells (push_var (RObj ?l)) _ _ => set (o := map (fun x => (fst x, push_var (snd x))) l); assert (push_var (RObj l) = VObject o) as -> by reflexivity end.
  assert (NoDup (map fst o)) as ND by exact keys_once.
  assert (forall k w, In (k, w) o -> holds (VObject o) k w) as HO by (intros; now apply holds_at).
  assert (forall A (f : A -> rval) g (l : list A), (forall x, push_var (f x) = g x) -> push_var (RList (map f l)) = VArray (map g l)) as LS by (intros A f g l E; cbn [push_var]; rewrite map_map; f_equal; now apply map_ext).
  assert (forall A (f : A -> rval) g (x : option A), (forall x, push_var (f x) = g x) -> push_var (opt_rval f x) = maybe g x) as OS by (intros A f g [x|] E; cbn; [now rewrite E|reflexivity]).
  split.
  - apply HO. left. reflexivity.
  - apply HO. do 1 right. left. f_equal. apply LS. reflexivity.
  - apply HO. do 2 right. left. f_equal. apply LS. reflexivity.
  - apply HO. do 3 right. left. f_equal. apply OS. reflexivity.
  - unfold type_rval in T. destruct (x_ty (f_data n)) as [u|].
    + destruct (TypeTextModel.description u) as [d|]; [|discriminate]. injection T as <-. exists d. split; auto. apply HO. do 4 right. left. reflexivity.
    + injection T as <-. apply HO. do 4 right. left. reflexivity.
  - apply HO. do 5 right. left. f_equal. apply OS. reflexivity.
  - apply HO. do 6 right. left. reflexivity.
  - apply HO. do 7 right. left. reflexivity.
  - apply HO. do 8 right. left. reflexivity.
  - apply HO. do 9 right. left. reflexivity.
  - apply HO. do 10 right. left. reflexivity.
  - apply HO. do 11 right. left. reflexivity.
  - apply HO. do 12 right. left. reflexivity.
  - apply HO. do 13 right. left. f_equal. apply OS. reflexivity.
  - apply HO. do 14 right. left. f_equal. apply OS. reflexivity.
  - apply HO. do 15 right. left. f_equal. apply OS. reflexivity.
  - exists (map lt_text (f_lts n)). split; [apply lt_texts|]. apply HO. do 16 right. left. f_equal. rewrite map_map. now apply LS.
  - intros k w (o' & E & _ & I). injection E as <-. exact (in_map fst o (k, w) I).
Qed.
Theorem C75_told : forall l vs, to_array l = Some vs -> Forall2 (fun np v => tells v (fst np) (snd np)) l vs.
Proof.
  induction l as [|[n p] l IH]; intros vs H; cbn [to_array] in H; [injection H as <-; constructor|].
  destruct (node_rval n p) as [r|] eqn:E; [|discriminate]. destruct (to_array l) as [ws|]; [|discriminate]. injection H as <-. constructor; auto. now apply node_tells.
Qed.
Print Assumptions C75_told.

(** ** It stops the process exactly for types that have no text: secrets of other types than [bool] and [f64]. *)

Theorem C75_panic : forall l, to_array l = None <-> exists n p t, In (n, p) l /\ x_ty (f_data n) = Some t /\ ~ TypeTextSpec.secrets_ok t.
Proof.
  induction l as [|[n p] l IH]; cbn [to_array]; [split; [discriminate|intros (? & ? & ? & [] & _)]|].
  assert (node_rval n p = None <-> exists t, x_ty (f_data n) = Some t /\ ~ TypeTextSpec.secrets_ok t) as N.
  { unfold node_rval, type_rval. destruct (x_ty (f_data n)) as [t|]; [|split; [discriminate|intros (t & E & _); discriminate]].
    pose proof (P_TypeText.described (S (TypeModel.size t)) t (Nat.lt_succ_diag_r _)) as D. destruct (TypeTextModel.description t) as [d|].
    - split; [discriminate|]. intros (u & E & NS). injection E as <-. destruct NS. apply D. discriminate.
    - split; auto. intros _. exists t. split; auto. intros S. apply D in S. congruence. }
  destruct (node_rval n p) as [r|] eqn:E.
  - destruct (to_array l) as [ws|] eqn:L; (split; [intros H|intros (m & q & t & [I|I] & T & NS)]); try discriminate; auto.
    + injection I as -> ->. destruct N as [_ N]. discriminate N. eauto.
    + destruct IH as [_ IH]. discriminate IH. exists m, q, t. auto.
    + destruct IH as [IH _]. destruct (IH eq_refl) as (m & q & t & I & R). exists m, q, t. split; [now right|auto].
  - split; auto. intros _. destruct N as [N _]. destruct (N eq_refl) as (t & T & NS). exists n, p, t. split; [now left|auto].
Qed.
Print Assumptions C75_panic.

(** ** Different graphs give different arrays. *)

Fixpoint value_of (s : string) (acc : nat) : nat :=
  match s with
  | EmptyString => acc
  | String c s => value_of s (10 * acc + (nat_of_ascii c - 48))
  end.
Lemma value_of_last : forall s c acc, value_of (s ++ String c "") acc = 10 * value_of s acc + (nat_of_ascii c - 48).
Proof. induction s as [|d s IH]; intros c acc; cbn [String.append value_of]; auto. Qed.
Lemma digit_value : forall i c, nth_error TypeTextSpec.digits i = Some c -> nat_of_ascii c - 48 = i.
Proof. intros i c H. do 10 (destruct i as [|i]; [injection H as <-; reflexivity|]). cbn in H. destruct i; discriminate. Qed.
Lemma number_value : forall n s, TypeTextSpec.number_text n s -> value_of s 0 = n.
Proof.
  intros n s H. induction H as [i c H|n i s c N H IH D].
  - cbn [value_of]. rewrite Nat.mul_0_r. cbn. now apply digit_value.
  - rewrite value_of_last, IH. f_equal. now apply digit_value.
Qed.
Lemma append_last : forall a b c, (a ++ String c "" = b ++ String c "" -> a = b)%string.
Proof.
  induction a as [|x a IH]; intros [|y b] c H; cbn in H; auto.
  - injection H as -> H. destruct b; discriminate.
  - injection H as -> H. destruct a; discriminate.
  - injection H as -> H. f_equal. eauto.
Qed.
Lemma lt_text_one : forall a b, lt_text a = lt_text b -> a = b.
Proof.
  intros [i| |] [j| |] H; cbn [lt_text String.append] in H; try discriminate; auto. injection H as H. apply append_last in H.
  pose proof (number_value _ _ (P_TypeText.decimal_text (S i) i (Nat.lt_succ_diag_r _))) as A. pose proof (number_value _ _ (P_TypeText.decimal_text (S j) j (Nat.lt_succ_diag_r _))) as B.
  unfold TypeTextModel.decimal in H. rewrite H in A. congruence.
Qed.
Lemma kind_text_one : forall a b, kind_text a = kind_text b -> a = b.
Proof. intros a b H. destruct a; destruct b; first [reflexivity|discriminate H]. Qed.
Lemma op_text_one : forall a b, op_text a = op_text b -> a = b.
Proof. intros [] [] H; first [reflexivity|discriminate H]. Qed.
Lemma said_one : forall t u, said t -> said u -> TypeTextModel.description t = TypeTextModel.description u -> t = u.
Proof.
  assert (forall t d, TypeTextSpec.sayable t -> TypeTextModel.description t = Some d -> d <> "void" /\ d <> "unreachable") as N.
  { intros t d S D. destruct (P_TypeText.C69_read t "" S Logic.I) as (d' & b & D' & R & T). rewrite D in D'. injection D' as <-. specialize (T "type" []).
    split; intros ->; vm_compute in R; injection R as <-; vm_compute in T; injection T as <-; discriminate. }
  intros t u [S|[->| ->]] [S'|[->| ->]] H; auto; try discriminate.
  - now apply P_TypeText.C69_unique.
  - now destruct (N t "void" S H).
  - now destruct (N t "unreachable" S H).
  - now destruct (N u "void" S' (eq_sym H)).
  - now destruct (N u "unreachable" S' (eq_sym H)).
Qed.
Lemma map_one : forall A B (f : A -> B) l k, (forall a b, f a = f b -> a = b) -> map f l = map f k -> l = k.
Proof. intros A B f l. induction l as [|a l IH]; intros [|b k] I H; try discriminate; auto. injection H as H1 H2. f_equal; auto. Qed.
Lemma opt_one : forall A (f : A -> rval) a b, (forall a b, f a = f b -> a = b) -> opt_rval f a = opt_rval f b -> a = b.
Proof. intros A f [a|] [b|] I H; try discriminate; auto. injection H as H. f_equal. auto. Qed.

Definition node_ty : rty := TObj [("kind", EmbedModel.TStr); ("children", TVec TUsize); ("names", TVec EmbedModel.TStr); ("parent", EmbedModel.TOption TUsize); ("ty", EmbedModel.TOption EmbedModel.TStr);
  ("alias", EmbedModel.TOption EmbedModel.TStr); ("mutable", EmbedModel.TBool); ("try", EmbedModel.TBool); ("grab_level", TU32); ("source_offset", TUsize); ("source_length", TUsize); ("start", TUsize); ("end", TUsize);
  ("lifetime", EmbedModel.TOption EmbedModel.TStr); ("declaration", EmbedModel.TOption TUsize); ("op", EmbedModel.TOption EmbedModel.TStr); ("lts", TVec EmbedModel.TStr)].
Lemma vec_typed : forall A (f : A -> rval) t l, (forall a, In a l -> typed exact_usize t (f a)) -> typed exact_usize (TVec t) (RList (map f l)).
Proof.
  intros A f t l H. apply T_vec. rewrite map_length. induction l as [|a l IH]; cbn [length repeat map]; constructor; [apply H; now left|]. apply IH. intros b I. apply H. now right.
Qed.
Lemma opt_typed : forall A (f : A -> rval) t o, (forall a, o = Some a -> typed exact_usize t (f a)) -> typed exact_usize (EmbedModel.TOption t) (opt_rval f o).
Proof. intros A f t [a|] H; cbn; constructor. auto. Qed.
Lemma exact_typed : forall z, exact z -> typed exact_usize TUsize (RInt z).
Proof. intros z [A B]. constructor; [lia|exact B]. Qed.
Lemma node_typed : forall n p r, plain n p -> node_rval n p = Some r -> typed exact_usize node_ty r.
Proof.
  intros n p r [C PA D G (P1 & P2 & P3 & P4) _] H. unfold node_rval in H. destruct (type_rval (x_ty (f_data n))) as [t|] eqn:T; [|discriminate]. injection H as <-.
  apply T_obj; [exact keys_once|reflexivity|]. cbn [map snd].
  constructor; [constructor|]. constructor; [apply vec_typed; intros i I; apply exact_typed; rewrite Forall_forall in C; auto|].
  constructor; [apply vec_typed; intros; constructor|]. constructor; [apply opt_typed; intros; apply exact_typed; auto|].
  constructor; [unfold type_rval in T; destruct (x_ty (f_data n)) as [u|]; [destruct (TypeTextModel.description u); [|discriminate]|]; injection T as <-; repeat constructor|].
  constructor; [apply opt_typed; intros; constructor|]. constructor; [constructor|]. constructor; [constructor|]. constructor; [constructor; lia|].
  do 4 (constructor; [now apply exact_typed|]). constructor; [apply opt_typed; intros; constructor|]. constructor; [apply opt_typed; intros; apply exact_typed; auto|].
  constructor; [apply opt_typed; intros; constructor|]. constructor; [apply vec_typed; intros; constructor|]. constructor.
Qed.
Lemma node_one : forall n p m q r, plain n p -> plain m q -> node_rval n p = Some r -> node_rval m q = Some r -> forget n = forget m /\ p = q.
Proof.
  intros n p m q r Pn Pm H H'. pose proof (pl_type _ _ Pn) as Sn. pose proof (pl_type _ _ Pm) as Sm. unfold node_rval in H, H'.
  destruct (type_rval (x_ty (f_data n))) as [t|] eqn:T; [|discriminate]. destruct (type_rval (x_ty (f_data m))) as [t'|] eqn:T'; [|discriminate].
  rewrite <- H in H'. injection H' as E1 E2 E3 E4 E5 E6 E7 E8 E9 E10 E11 E12 E13 E14 E15 E16 E17. clear H. subst t'.
  assert (forall a b, index a = index b -> a = b) as IX by (intros a b E; injection E; lia).
  assert (forall a b, RStr a = RStr b -> a = b) as SX by (intros a b E; now injection E).
  assert (x_ty (f_data n) = x_ty (f_data m)) as TY.
  { unfold type_rval in T, T'. destruct (x_ty (f_data n)) as [u|], (x_ty (f_data m)) as [u'|]; auto.
    - destruct (TypeTextModel.description u) as [d|] eqn:D; [|discriminate]. destruct (TypeTextModel.description u') as [d'|] eqn:D'; [|discriminate]. f_equal. apply said_one; auto. congruence.
    - destruct (TypeTextModel.description u); congruence.
    - destruct (TypeTextModel.description u'); congruence. }
  apply kind_text_one in E1. apply map_one in E2; auto. apply map_one in E3; auto. apply opt_one in E4; auto. apply opt_one in E6; auto. apply opt_one in E14; auto. apply opt_one in E15; auto.
  apply opt_one in E16; [|intros a b E; injection E as E; now apply op_text_one]. apply map_one in E17; [|intros a b E; injection E as E; now apply lt_text_one].
  split; [unfold forget; congruence|]. destruct p, q; cbn in *. congruence.
Qed.
Theorem C75_unique : forall l k vs, Forall (fun np => plain (fst np) (snd np)) l -> Forall (fun np => plain (fst np) (snd np)) k ->
  to_array l = Some vs -> to_array k = Some vs -> map (fun np => (forget (fst np), snd np)) l = map (fun np => (forget (fst np), snd np)) k.
Proof.
  induction l as [|[n p] l IH]; intros [|[m q] k] vs Pl Pk H H'; cbn [to_array] in H, H'; auto.
  - injection H as <-. destruct (node_rval m q); [|discriminate]. destruct (to_array k); discriminate.
  - injection H' as <-. destruct (node_rval n p); [|discriminate]. destruct (to_array l); discriminate.
  - destruct (node_rval n p) as [r|] eqn:R; [|discriminate]. destruct (to_array l) as [ws|] eqn:L; [|discriminate]. injection H as <-.
    destruct (node_rval m q) as [r'|] eqn:R'; [|discriminate]. destruct (to_array k) as [ws'|] eqn:L'; [|discriminate]. injection H' as E ->.
    inversion Pl as [|? ? P1 P2]; subst. inversion Pk as [|? ? Q1 Q2]; subst. cbn [fst snd] in *.
    pose proof (sent_all node_ty [] r (node_typed _ _ _ P1 R)) as A. pose proof (sent_all node_ty [] r' (node_typed _ _ _ Q1 R')) as B. rewrite E in B. rewrite A in B. injection B as <-.
    destruct (node_one _ _ _ _ _ P1 Q1 R R') as (F & ->). cbn [map fst snd]. rewrite F. f_equal. eapply IH; eauto.
Qed.
Print Assumptions C75_unique.

(** ** What a program gets for a file that is accepted: the linked nodes with the types of the rules *)

Definition with_type (n : fnode) (o : option ty) : fnode :=
  let d := f_data n in
  FNode (Data (x_kind d) (x_alias d) (x_names d) o (x_mut d) (x_try d) (x_grab d) (x_lifetime d) (x_op d) (x_binops d)) (f_parent n) (f_children n) (f_decl n) (f_lts n).
Lemma nth_combine : forall A B (l : list A) (k : list B) i a b, nth_error l i = Some a -> nth_error k i = Some b -> nth_error (combine l k) i = Some (a, b).
Proof. induction l as [|x l IH]; intros [|y k] [|i] a b X Y; try discriminate; cbn in *; [congruence|eauto]. Qed.
Lemma forall2_nth : forall A B (R : A -> B -> Prop) l k i a, Forall2 R l k -> nth_error l i = Some a -> exists b, nth_error k i = Some b /\ R a b.
Proof. intros A B R l k i a H. revert i. induction H as [|x y l k X H IH]; intros [|i] E; try discriminate; cbn in *; [injection E as <-; eauto|eauto]. Qed.
Lemma same_length : forall (g h : graph), (forall i, nth_error g i = None <-> nth_error h i = None) -> length g = length h.
Proof.
  intros g h H. apply Nat.le_antisymm; apply nth_error_None; apply H; apply nth_error_None; reflexivity.
Qed.
Theorem C75_file : forall P sort K O F ts rounds fuel rets, checkable P sort K O F ts ->
  (forall g, front P sort O (flat_map tokens F) = NOk g -> length g < fuel) ->
  check_core P sort O K rounds fuel (flat_map tokens F) = CGood rets ->
  exists g h N, accepted P sort K O F ts g /\ typecheck K rounds fuel (checked g) = TOk h /\
    check_nodes P sort O K rounds fuel (flat_map tokens F) = Some N /\ length N = length g /\
    forall message ps vs, length ps = length N -> check_value message true (combine N ps) = Some (VOk (VArray vs)) ->
      length vs = length g /\
      (forall i n, nth_error g i = Some n -> exists v p, nth_error vs i = Some v /\ nth_error ps i = Some p /\ tells v (with_type n (ty_at h i)) p) /\
      (forall i t, derives K h i t -> exists v d, nth_error vs i = Some v /\ TypeTextModel.description t = Some d /\ holds v "ty" (VSome (VStr d))) /\
      (forall i n c, nth_error g i = Some n -> In c (f_children n) -> exists v w l, nth_error vs i = Some v /\ nth_error vs c = Some w /\
         holds v "children" (VArray l) /\ In (node_number c) l /\ holds w "parent" (VSome (node_number i))).
Proof.
  intros P sort K O F ts rounds fuel rets CH FU C. destruct (C73_good _ _ _ _ _ _ _ _ _ CH FU C) as (g & h & AC & _ & TC & DE & _).
  pose proof (C72_well_formed _ _ _ _ _ _ _ AC) as WF. destruct (typecheck_last _ _ _ _ _ WF TC) as (todo & errs & s & _ & B & _). pose proof (V_shape _ _ _ _ _ _ B) as S. clear B.
  assert (forall i n, nth_error g i = Some n -> exists u, nth_error h i = Some (retype (checked_node n) u)) as SH.
  { intros i n E. destruct (shape_node _ _ i (checked_node n) S) as (u & M); [apply g_node; eauto|]. exists u. exact M. }
  assert (length h = length g) as LH.
  { transitivity (length (checked g)); [|apply map_length]. symmetry. apply same_length. intros i. specialize (S i). destruct (nth_error (checked g) i), (nth_error h i); cbn in S; split; intros; auto; discriminate. }
  exists g, h, (retyped g h). split; [exact AC|]. split; [exact TC|].
  split. { pose proof (ac_front _ _ _ _ _ _ _ AC) as R. unfold check_core in C. unfold check_nodes. rewrite R in C |- *. destruct (check_lives fuel g); try discriminate. now rewrite TC. }
  assert (length (retyped g h) = length g) as LN by (unfold retyped; rewrite map_length, combine_length; lia).
  assert (forall i n, nth_error g i = Some n -> nth_error (retyped g h) i = Some (with_type n (ty_at h i))) as NR.
  { intros i n E. destruct (SH i n E) as (u & M). unfold retyped. rewrite nth_error_map, (nth_combine _ _ _ _ _ _ _ E M). cbn [option_map]. unfold with_type, ty_at. rewrite M. reflexivity. }
  split; [exact LN|]. intros message ps vs LP V. unfold check_value in V. destruct (to_array (combine (retyped g h) ps)) as [ws|] eqn:T; [|discriminate]. injection V as ->. apply C75_told in T.
  assert (forall i n, nth_error g i = Some n -> exists v p, nth_error vs i = Some v /\ nth_error ps i = Some p /\ tells v (with_type n (ty_at h i)) p) as TE.
  { intros i n E. destruct (nth_error ps i) as [p|] eqn:Q; [|apply nth_error_None in Q; assert (i < length g) by (apply nth_error_Some; congruence); lia].
    destruct (forall2_nth _ _ _ _ _ i _ T (nth_combine _ _ _ _ _ _ _ (NR i n E) Q)) as (v & X & Y). eauto. }
  split; [|split; [exact TE|split]].
  - assert (length (combine (retyped g h) ps) = length vs) as L by (clear - T; induction T; cbn; auto). rewrite combine_length in L. lia.
  - intros i t D. apply DE in D. destruct (nth_error g i) as [n|] eqn:E.
    + destruct (TE i n E) as (v & p & X & _ & Y). pose proof (te_type _ _ _ Y) as TT. cbn [with_type f_data x_ty] in TT. rewrite D in TT. destruct TT as (d & A & H). exists v, d. auto.
    + exfalso. apply nth_error_None in E. unfold ty_at in D. assert (nth_error h i = None) as Q by (apply nth_error_None; lia). now rewrite Q in D.
  - intros i n c E I. destruct (wf_tree _ _ WF i (checked_node n)) as [_ H]; [apply g_node; eauto|]. destruct (H c I) as (cn & M & PA). apply g_node in M. destruct M as (m & EM & ->).
    destruct (TE i n E) as (v & p & X & _ & Y). destruct (TE c m EM) as (w & q & X' & _ & Y'). exists v, w, (map node_number (f_children n)). split; auto. split; auto.
    split; [exact (te_children _ _ _ Y)|]. split; [now apply in_map|]. pose proof (te_parent _ _ _ Y') as PP. cbn in PA. cbn [with_type f_parent] in PP. rewrite PA in PP. exact PP.
Qed.
Print Assumptions C75_file.

(** ** A file that has an unsafe place gives its nodes all the same; only a text that cannot be parsed gives an error. *)

Theorem C75_rejected : forall P sort K O F ts rounds fuel e i, checkable P sort K O F ts ->
  (forall g, front P sort O (flat_map tokens F) = NOk g -> length g < fuel) ->
  check_core P sort O K rounds fuel (flat_map tokens F) = CLife e i ->
  exists g, check_nodes P sort O K rounds fuel (flat_map tokens F) = Some g /\ front P sort O (flat_map tokens F) = NOk g /\ unsafe g e i /\
    forall message ps vs, length ps = length g -> check_value message true (combine g ps) = Some (VOk (VArray vs)) ->
      forall j n, nth_error g j = Some n -> exists v p, nth_error vs j = Some v /\ nth_error ps j = Some p /\ tells v n p.
Proof.
  intros P sort K O F ts rounds fuel e i CH FU C. destruct (C73_rejected _ _ _ _ _ _ rounds fuel N_unsorted i CH FU) as [_ R]. destruct (R e C) as (g & E & U). exists g.
  split. { unfold check_core in C. unfold check_nodes. rewrite E in C |- *. destruct (check_lives fuel g) as [|e' j| |]; try discriminate; auto. destruct (typecheck K rounds fuel (checked g)); discriminate. }
  split; [exact E|]. split; [exact U|]. intros message ps vs LP V j n J. unfold check_value in V. destruct (to_array (combine g ps)) as [ws|] eqn:T; [|discriminate]. injection V as ->. apply C75_told in T.
  destruct (nth_error ps j) as [p|] eqn:Q; [|apply nth_error_None in Q; assert (j < length g) by (apply nth_error_Some; congruence); lia].
  destruct (forall2_nth _ _ _ _ _ j _ T (nth_combine _ _ _ _ _ _ _ J Q)) as (v & X & Y). eauto.
Qed.
Print Assumptions C75_rejected.
Theorem C75_syntax : forall message parsed l,
  (parsed = false <-> check_value message parsed l = Some (VErr (VStr message) [])) /\
  (parsed = true -> (forall n p t, In (n, p) l -> x_ty (f_data n) = Some t -> TypeTextSpec.secrets_ok t) -> exists vs, check_value message parsed l = Some (VOk (VArray vs))).
Proof.
  intros message parsed l. unfold check_value. split.
  - destruct parsed; split; auto; try discriminate. destruct (to_array l); discriminate.
  - intros -> H. destruct (to_array l) as [vs|] eqn:T; eauto. apply C75_panic in T. destruct T as (n & p & t & I & X & NS). destruct NS. eauto.
Qed.
Print Assumptions C75_syntax.

(** ** Examples

    The file of C72: [fn f(b: 'return f64) -> f64 { x := b  return k(b) }  fn k(r: 'return f64) -> f64 { return r }] *)
Definition places (n : nat) : list place := map (fun i => Place (Z.of_nat i) 1 (Z.of_nat i) (Z.of_nat i + 1)) (seq 0 n).
Definition told_nodes : fgraph := Eval vm_compute in match check_nodes types_ (fun g => g) outside_ nothing_ 10 100 (flat_map tokens typed_) with Some g => g | None => [] end.
Definition told : list value := Eval vm_compute in match to_array (combine told_nodes (places 20)) with Some l => l | None => [] end.
Definition part (k : string) (v : value) : option value := match v with VObject o => assoc k o | _ => None end.
Example C75_example : checkable types_ (fun g => g) nothing_ outside_ typed_ typed_t /\
  check_nodes types_ (fun g => g) outside_ nothing_ 10 100 (flat_map tokens typed_) = Some told_nodes /\
  check_value "" true (combine told_nodes (places 20)) = Some (VOk (VArray told)) /\
  firstn 12 (map (fun v => (part "kind" v, part "ty" v)) told) = map (fun x => (Some (VStr (fst x)), Some (VSome (VStr (snd x)))))
    [("Fn", "f64"); ("Arg", "f64"); ("Block", "unreachable"); ("Expr", "void"); ("Assign", "void"); ("Left", "f64"); ("Item", "f64"); ("Right", "f64"); ("Item", "f64");
     ("Expr", "unreachable"); ("Return", "f64"); ("Call", "f64")] /\
  Forall (fun np => plain (fst np) (snd np)) (combine told_nodes (places 20)).
Proof.
  split; [apply C73_example|]. split; [vm_compute; reflexivity|]. split; [vm_compute; reflexivity|]. split; [vm_compute; reflexivity|].
  assert (forall n p, forallb (fun i => i <=? 100) (f_children n) && match f_parent n with Some i => i <=? 100 | None => true end && match f_decl n with Some i => i <=? 100 | None => true end &&
    (0 <=? x_grab (f_data n))%Z && (x_grab (f_data n) <? 2 ^ 16)%Z && forallb (fun z => (0 <=? z)%Z && (z <=? 2 ^ 53)%Z) [p_offset p; p_length p; p_start p; p_end p] &&
    match x_ty (f_data n) with Some TF64 | Some TVoid | Some TUnreachable | None => true | _ => false end = true -> plain n p) as Q.
  { intros n p H. repeat (apply andb_prop in H; destruct H as [H ?]). cbn [forallb] in *.
    repeat match goal with X : (_ && _)%bool = true |- _ => apply andb_prop in X; destruct X end.
    assert (forall i, (i <=? 100) = true -> exact (Z.of_nat i)) as E by (intros i L; apply Nat.leb_le in L; unfold exact; lia).
    repeat match goal with X : (_ <=? _)%Z = true |- _ => apply Z.leb_le in X | X : (_ <? _)%Z = true |- _ => apply Z.ltb_lt in X end.
    split; [|intros i I; apply E; rewrite I in *; auto|intros i I; apply E; rewrite I in *; auto|lia|unfold exact; lia|].
    - apply Forall_forall. intros i I. apply E. rewrite forallb_forall in H. auto.
    - intros t T. rewrite T in *. unfold said. destruct t; try discriminate; auto. left. constructor. }
  apply Forall_forall. intros np I. apply Q. revert np I. apply forallb_forall. vm_compute. reflexivity.
Qed.
(** The function [k] without the lifetime of its argument is rejected, and its nodes are given. *)
Definition loose_ : list stx :=
  [SNode "fn" [s_name "k"; SNode "arg" [s_name "r"; f64_]; SValue (MBool "returns" true); SType "ret_type" [MBool "f64" true];
     SNode "block" [s_expr (SNode "return" [item_ "r"])]]].
Definition loose_t : list ntree :=
  [NT (with_ty TF64 (P_Nodes.named K_Fn "k")) [NT (with_ty TF64 (P_Nodes.named K_Arg "r")) []; t_block [t_expr (NT (blank K_Return None) [var_ "r"])]]].
Definition loose_g : fgraph := Eval vm_compute in graph_ loose_t.
Example C75_example_rejected : checkable types_ (fun g => g) nothing_ outside_ loose_ loose_t /\
  check_core types_ (fun g => g) outside_ nothing_ 10 100 (flat_map tokens loose_) = CLife (X_lifetime (CNeedsReturn 1)) 5 /\
  check_nodes types_ (fun g => g) outside_ nothing_ 10 100 (flat_map tokens loose_) = Some loose_g /\
  exists vs, check_value "" true (combine loose_g (places 6)) = Some (VOk (VArray vs)) /\ length vs = 6.
Proof.
  assert (front types_ (fun g => g) outside_ (flat_map tokens loose_) = NOk loose_g) as R by (vm_compute; reflexivity).
  split.
  { split.
    - split.
      + assert (exists ts, file_stands types_ loose_ ts /\ ts = loose_t) as (ts & H & ->); [|exact H].
        eexists. split; [unfold loose_, f64_, s_let, s_expr, s_name, item_; stand|reflexivity].
        Unshelve. all: exact (blank K_Fn None).
      + intros t H. destruct H as [<-|[]]; cbn;
        repeat match goal with
               | |- _ /\ _ => split
               | |- True => exact Logic.I
               | |- (_ = K_Add \/ _ = K_Mul) -> _ => intros [?|?]; first [discriminate|reflexivity]
               | |- ?a <> None -> _ => intros A; exfalso; apply A; reflexivity
               | |- (_ \/ _) \/ _ => left; left; reflexivity
               end.
      + intros t [<-|[]]; split; reflexivity.
      + intros g1 g2 A B. exists (fun i => i). apply sorted_already. vm_compute in A. injection A as <-. vm_compute in B. injection B as <-.
        apply all_in_order_ok. vm_compute. reflexivity.
    - intros t [<-|[]]; split; reflexivity.
    - intros t [<-|[]]; reflexivity.
    - apply C56_example_file.
    - split; discriminate.
    - intros g R'. rewrite R in R'. injection R' as <-. split; [apply before_ok; vm_compute; reflexivity|apply plain_own; vm_compute; reflexivity]. }
  split; [vm_compute; reflexivity|]. split; [vm_compute; reflexivity|]. eexists. split; vm_compute; reflexivity.
Qed.

(** ** What is not told

    The operators of a node, and numbers from 2^53 on. *)
Definition value_node (ops : list binop) (parent : option nat) (t : option ty) : fnode := FNode (Data K_Val None [] t false false 0 None None ops) parent [] None [].
Theorem C75_operators_refuted : ~ forall n m p vs, plain n p -> plain m p -> to_array [(n, p)] = Some vs -> to_array [(m, p)] = Some vs -> n = m.
Proof.
  intros H.
  assert (forall ops, plain (value_node ops None None) (Place 0 0 0 0)) as PL by (intros ops; split; cbn; try discriminate; try lia; [constructor|unfold exact; lia]).
  specialize (H _ _ _ _ (PL []) (PL [Add]) eq_refl eq_refl). discriminate.
Qed.
Theorem C75_numbers_refuted : ~ forall n p q vs, to_array [(n, p)] = Some vs -> to_array [(n, q)] = Some vs -> p = q.
Proof.
  intros H. assert (Place (2 ^ 53) 0 0 0 = Place (2 ^ 53 + 1) 0 0 0) as E; [|discriminate].
  apply (H (value_node [] None None) _ _ match to_array [(value_node [] None None, Place (2 ^ 53) 0 0 0)] with Some l => l | None => [] end); vm_compute; reflexivity.
Qed.
(** A node with a secret of another type stops the process. *)
Example C75_example_panic : to_array [(value_node [] None (Some (TSecret TStr)), Place 0 0 0 0)] = None.
Proof. reflexivity. Qed.
