(** * Lemmas: the parts of expressions are converted to what they mean, if the expressions in them are. *)
From Coq Require Import String List Bool Arith ZArith Lia.
From Verif Require Import PrintModel ColorModel Float64 TypeModel LifetimeModel NodesModel FoldModel TransformModel NodesSpec Syntax AstModel AstSpec AstProofs.
Import ListNotations.
Local Open Scope string_scope.
Local Open Scope nat_scope.
Local Open Scope list_scope.

Section Parts.
Context (in_of : option string -> string -> callee) (alloc : Z -> bool) (E : string -> list meta -> ares expr) (N : nat).
Context (G : forall b m e, arg_body in_of alloc b m e -> len b < N -> good E b e)
        (R : 0 < N -> forall name m ms, m <> MStart name -> E name (m :: ms) = AErr []).

Lemma GE : forall b e, expr_body in_of alloc b e -> len b < N -> good E b e.
Proof. intros b e H L. apply (G b false); auto. now constructor. Qed.

Ltac steps := cbn [tokens app str flag]; cbv beta iota zeta delta [collect slots grab_step key_value_step object_step seq_step item_step call_step go_step closure_step
  assign_step un_loop_step sw_step swizzle_step for_step for_in_step for_n_step label_step if_step in_step arg_step current_step fn_step
  pos assoc option_map String.eqb Ascii.eqb Bool.eqb negb andb fst snd
  i_name i_current i_try i_ids i_tries k_alias k_name k_args k_marks c_item c_word c_args l_parts l_block l_label n_indices n_block n_label
  f_cond f_true f_conds f_blocks f_else s_name s_lifetime s_ty s_mut s_lazy g_name g_args g_currents g_ret g_block g_expr].
Ltac ge H := rewrite (GE _ _ H) by (lens).

Lemma runs_map_cons : forall St name step tail (s : St) t l s1 s2, opens name (tokens t) ->
  (forall rest, step s (tokens t ++ rest) = SNext s1 rest []) -> runs name step tail s1 (map tokens l) s2 ->
  runs name step tail s (map tokens (t :: l)) s2.
Proof. intros. cbn [map]. econstructor; [assumption|apply H0|assumption]. Qed.
Lemma node_map : forall St A name step (s s' : St) fin (a : A) body rest,
  runs name step (MEnd name :: rest) s (map tokens body) s' -> fin s' = FSome a ->
  node name step s fin (MStart name :: (flat_map tokens body ++ [MEnd name]) ++ rest) = AOk a rest [].
Proof. intros. eapply node_ok; [apply concat_tokens|eassumption|assumption]. Qed.

Lemma all_ok : forall item l es, all_mean in_of alloc item l es -> len l <= N -> forall name tail s,
  runs name (collect E item) tail s (map tokens l) (s ++ es).
Proof.
  intros item l es A. induction A as [item|item b e l es B A IH]; intros L name tail s; [rewrite app_nil_r; constructor|].
  lens. eapply runs_map_cons; [exact I| |].
  - intros rest. cbn [tokens app collect]. rewrite String.eqb_refl. ge B. reflexivity.
  - rewrite (app_assoc s [e] es : s ++ e :: es = _). apply IH. lia.
Qed.
Lemma block_ok : forall name l es rest, all_mean in_of alloc "expr" l es -> len l <= N ->
  block E name (MStart name :: (flat_map tokens l ++ [MEnd name]) ++ rest) = AOk es rest [].
Proof. intros. eapply node_map; [apply all_ok; eassumption|reflexivity]. Qed.

(** ** Items *)
Lemma ids_ok : forall k l ids tries, ids_mean in_of alloc k l ids tries -> len l <= N -> forall tail s, length (i_ids s) = k ->
  runs "item" (item_step E) tail s (map tokens l) (Ist (i_name s) (i_current s) (i_try s) (i_ids s ++ ids) (i_tries s ++ tries)).
Proof.
  intros k l ids tries A.
  assert (Q : forall k q l ids (tries : list nat) (s : ist) i tail,
    (forall s, length (i_ids s) = S k ->
      runs "item" (item_step E) tail s (map tokens l) (Ist (i_name s) (i_current s) (i_try s) (i_ids s ++ ids) (i_tries s ++ tries))) ->
    length (i_ids s) = k ->
    runs "item" (item_step E) tail (Ist (i_name s) (i_current s) (i_try s) (i_ids s ++ [i]) (i_tries s)) (map tokens (flags "try_id" q ++ l))
      (Ist (i_name s) (i_current s) (i_try s) (i_ids s ++ i :: ids) (i_tries s ++ (if q then [k] else []) ++ tries))).
  { clear. intros k q l ids tries [nm cu tr js ts] i tail H K. subst k. cbn [i_name i_current i_try i_ids i_tries] in *. destruct q; cbn [flags app].
    - eapply runs_map_cons; [exact I| |].
      + intros rest. steps. rewrite app_length. simpl length. rewrite Nat.add_comm. simpl. reflexivity.
      + specialize (H (Ist nm cu tr (js ++ [i]) (ts ++ [length js]))). simpl in H. rewrite app_length in H. simpl in H.
        rewrite <- !app_assoc in H. simpl in H. apply H. lia.
    - specialize (H (Ist nm cu tr (js ++ [i]) ts)). simpl in H. rewrite app_length in H. simpl in H.
      rewrite <- !app_assoc in H. simpl in H. apply H. lia. }
  induction A as [k|k x q l ids tries A IH|k x q l ids tries A IH|k b e q l ids tries B A IH]; intros L tail s K.
  - rewrite !app_nil_r. destruct s; constructor.
  - lens. eapply runs_map_cons; [exact I|intros rest; reflexivity|]. apply Q; auto. intros. apply IH; [lia|assumption].
  - lens. eapply runs_map_cons; [exact I|intros rest; reflexivity|]. apply Q; auto. intros. apply IH; [lia|assumption].
  - lens. eapply runs_map_cons; [exact I| |].
    + intros rest. steps. ge B. reflexivity.
    + apply Q; auto. intros. apply IH; [lia|assumption].
Qed.
Lemma item_ok : forall t it rest, item_means in_of alloc t it -> length (tokens t) <= 2 + N -> item_ E (tokens t ++ rest) = AOk it rest [].
Proof.
  intros t it rest [c x q|c x q l ids tries X D] L.
  - cbn [tokens app]. destruct c, q; (eapply node_map; [|]); cbn [flags app];
      try (repeat (eapply runs_map_cons; [exact I|intros; reflexivity|])); try constructor; reflexivity.
  - lens. assert (len l <= N) by lia. cbn [tokens app]. eapply node_ok with
      (cs := map tokens (flags "current" c ++ str "name" x :: flags "try_item" q) ++ [MStart "item_extra"] :: map tokens l ++ [[MEnd "item_extra"]]).
    + rewrite concat_app, concat_tokens. cbn [concat]. rewrite concat_app, concat_tokens. simpl.
      rewrite !flat_map_app. simpl. rewrite !flat_map_app. simpl. rewrite <- !app_assoc. simpl. rewrite ?app_nil_r. reflexivity.
    + eapply runs_app.
      * destruct c, q; cbn [flags app]; repeat (eapply runs_map_cons; [exact I|intros; reflexivity|]); constructor.
      * econstructor; [exact I|reflexivity|]. eapply runs_app; [apply (ids_ok _ _ _ _ D); [assumption|]|].
        -- destruct c, q; reflexivity.
        -- econstructor; [discriminate|reflexivity|constructor].
    + destruct c, q; reflexivity.
Qed.

(** ** Arguments and calls *)
Lemma item_head : forall t it, item_means in_of alloc t it -> exists n b, t = SNode n b.
Proof. intros t it H. destruct H; eauto. Qed.
Lemma call_head : forall t f es, call_means in_of alloc t f es -> exists n b, t = SNode n b.
Proof. intros t f es H. destruct H; eauto. Qed.
Lemma expr_head : forall b e, expr_body in_of alloc b e -> exists m ms, flat_map tokens b = m :: ms /\ forall v, m <> MBool "mut" v.
Proof.
  intros b e H. induction H; try (eexists; eexists; split; [reflexivity|intros; discriminate]).
  - destruct IHexpr_body as (m & ms & K & D). rewrite flat_map_app, K. simpl. eauto.
  - apply item_head in H. destruct H as (n & b & ->). eexists; eexists; split; [reflexivity|intros; discriminate].
  - apply call_head in H. destruct H as (n & b & ->). eexists; eexists; split; [reflexivity|intros; discriminate].
Qed.
Lemma marked_ok : forall b m e n rest, arg_body in_of alloc b m e -> marked_arg (MStart n :: (flat_map tokens b ++ [MEnd n]) ++ rest) = m.
Proof.
  intros b m e n rest [it i H|l inds b0 e0 H H'|b0 e0 H]; [reflexivity|reflexivity|].
  destruct (expr_head _ _ H) as (x & ms & -> & D). destruct x; try reflexivity. simpl.
  destruct (String.eqb_spec name "mut"); [subst; exfalso; eapply D; reflexivity|reflexivity].
Qed.
Lemma arguments_ok : forall l ms es, arguments_mean in_of alloc l ms es -> len l <= N -> forall named tail name s,
  runs name (call_step E named) tail s (map tokens l) (Kst (k_alias s) (k_name s) (k_args s ++ es) (k_marks s ++ ms)).
Proof.
  intros l ms es A. induction A as [|b m e l ms es B A IH]; intros L named tail name s.
  - rewrite !app_nil_r. destruct s; constructor.
  - lens. eapply runs_map_cons; [exact I| |].
    + intros rest. steps. rewrite (G _ _ _ B) by lia. rewrite (marked_ok _ _ _ _ _ B). reflexivity.
    + specialize (IH ltac:(lia) named tail name (Kst (k_alias s) (k_name s) (k_args s ++ [e]) (k_marks s ++ [m]))).
      simpl in IH. rewrite <- !app_assoc in IH. exact IH.
Qed.
Lemma named_ok : forall l ws ms es, named_mean in_of alloc l ws ms es -> len l <= N -> forall tail name a x args marks, x <> "" ->
  runs name (call_step E true) tail (Kst a (Some x) args marks) (map tokens l) (Kst a (Some (fold_left join ws x)) (args ++ es) (marks ++ ms)).
Proof.
  intros l ws ms es A. induction A as [|w b m e l ws ms es B A IH]; intros L tail name a x args marks X.
  - rewrite !app_nil_r. constructor.
  - unfold str in L. lens. eapply runs_map_cons; [exact I| |eapply runs_map_cons; [exact I| |]].
    + intros rest. cbn [tokens app str call_step k_name k_alias k_args k_marks negb andb]. destruct (String.eqb_spec x "") as [K|K]; [contradiction|]. reflexivity.
    + intros rest. steps. rewrite (G _ _ _ B) by lia. rewrite (marked_ok _ _ _ _ _ B). reflexivity.
    + specialize (IH ltac:(lia) tail name a (x ++ "_" ++ w)%string (args ++ [e]) (marks ++ [m])).
      cbn [fold_left]. unfold join at 2. destruct (String.eqb_spec x ""); [contradiction|]. rewrite <- !app_assoc in IH. apply IH.
      intros K. apply sapp_empty in K. tauto.
Qed.
Lemma call_ok : forall t f es rest, call_means in_of alloc t f es -> length (tokens t) <= 2 + N ->
  exists a x, f = qualified a x /\
    ((exists b, t = SNode "call" b) /\ call_ E (tokens t ++ rest) = AOk (a, x, es) rest [] \/
     (exists b, t = SNode "named_call" b) /\ named_call E (tokens t ++ rest) = AOk (a, x, es) rest []).
Proof.
  intros t f es rest [a x l ms es' A|a x l ws ms es' X A] L; exists a.
  - exists (full_name x ms). split; [reflexivity|]. left. split; [eauto|]. cbn [tokens app]. lens. eapply node_map.
    + destruct a; cbn [strs app]; repeat (eapply runs_map_cons; [exact I|intros; reflexivity|]); (apply arguments_ok; [exact A|lia]).
    + cbn [k_alias k_name k_args k_marks app]. now rewrite with_marks_name.
  - exists (full_name (words_name x ws) ms). split; [reflexivity|]. right. split; [eauto|]. cbn [tokens app]. lens. eapply node_map.
    + destruct a; cbn [strs app]; repeat (eapply runs_map_cons; [exact I|intros; reflexivity|]); cbv beta iota delta [String.eqb];
        (apply (named_ok _ _ _ _ A); [lia|intros K; apply sapp_empty in K; tauto]).
    + cbn [k_alias k_name k_args k_marks app]. rewrite with_marks_name, join_nonempty by (intros K; apply sapp_empty in K; tauto).
      unfold words_name. now rewrite sapp_assoc.
Qed.
Lemma closure_arguments_ok : forall l ms es, arguments_mean in_of alloc l ms es -> len l <= N -> forall named tail name s,
  runs name (closure_step E named) tail s (map tokens l) (Cst_ (c_item s) (c_word s) (c_args s ++ es)).
Proof.
  intros l ms es A. induction A as [|b m e l ms es B A IH]; intros L named tail name s.
  - rewrite !app_nil_r. destruct s; constructor.
  - lens. eapply runs_map_cons; [exact I| |].
    + intros rest. steps. rewrite (G _ _ _ B) by lia. reflexivity.
    + specialize (IH ltac:(lia) named tail name (Cst_ (c_item s) (c_word s) (c_args s ++ [e]))). simpl in IH. rewrite <- !app_assoc in IH. exact IH.
Qed.
Lemma closure_named_ok : forall l ws ms es, named_mean in_of alloc l ws ms es -> len l <= N -> forall tail name it x args,
  runs name (closure_step E true) tail (Cst_ it x args) (map tokens l) (Cst_ it (fold_left join ws x) (args ++ es)).
Proof.
  intros l ws ms es A. induction A as [|w b m e l ws ms es B A IH]; intros L tail name it x args.
  - rewrite !app_nil_r. constructor.
  - unfold str in L. lens. eapply runs_map_cons; [exact I| |eapply runs_map_cons; [exact I| |]].
    + intros rest. reflexivity.
    + intros rest. steps. rewrite (G _ _ _ B) by lia. reflexivity.
    + specialize (IH ltac:(lia) tail name it (join x w) (args ++ [e])). rewrite <- !app_assoc in IH. exact IH.
Qed.
Lemma parts_ok : forall names l es, parts_mean in_of alloc names l es -> len l <= N -> forall all pre, all = pre ++ names -> NoDup all ->
  forall tail name done, length done = length pre ->
  runs name (slots E all) tail (done ++ repeat None (length names)) (map tokens l) (done ++ es).
Proof.
  intros names l es A. induction A as [|n b m e names l es B A IH|n names l es A IH]; intros L all pre P U tail name done D.
  - constructor.
  - lens. eapply runs_map_cons; [exact I| |].
    + intros rest. cbn [tokens app slots].
      assert (K : pos n all = Some (length pre)).
      { subst all. clear - U. induction pre as [|x pre IH]; simpl in *; [now rewrite String.eqb_refl|]. inversion_clear U.
        destruct (String.eqb_spec n x); [subst; exfalso; apply H; apply in_or_app; right; now left|]. now rewrite IH. }
      rewrite K, (G _ _ _ B) by lia. reflexivity.
    + specialize (IH ltac:(lia) all (pre ++ [n])). rewrite <- app_assoc in IH. specialize (IH P U tail name (done ++ [Some e])).
      rewrite !app_length in IH. simpl in IH. specialize (IH ltac:(lia)). rewrite <- !app_assoc in IH. simpl in IH. simpl length.
      replace (put (length pre) e (done ++ repeat None (S (length names)))) with (done ++ Some e :: repeat None (length names)); [exact IH|].
      rewrite <- D. clear. induction done as [|x done IH]; simpl in *; [reflexivity|]. now rewrite IH.
  - specialize (IH L all (pre ++ [n])). rewrite <- app_assoc in IH. specialize (IH P U tail name (done ++ [None])).
    rewrite !app_length in IH. simpl in IH. specialize (IH ltac:(lia)). rewrite <- !app_assoc in IH. exact IH.
Qed.
Lemma parts_length : forall ns l es, parts_mean in_of alloc ns l es -> length es = length ns.
Proof. intros ns l es A. induction A; simpl; lia. Qed.

(** ** Operators *)
Lemma seq_ok : forall k,
  (forall l e es r, operands_mean in_of alloc l e es -> applied e es r -> len l <= N -> len l < k -> forall name rest,
    bin_seq E k name (MStart name :: (flat_map tokens l ++ [MEnd name]) ++ rest) = AOk r rest []).
Proof.
  induction k as [|k IH]; intros l e es r O A L K name rest; [lia|]. cbn [bin_seq].
  assert (T : forall t e0, operand_means in_of alloc t e0 -> length (tokens t) <= N -> length (tokens t) <= S k -> forall s rest,
    seq_step E (bin_seq E k "pow") s (tokens t ++ rest) = SNext (e0 :: fst s, snd s) rest []).
  { intros t e0 [b e1 B|l' e1 es1 r1 O1 A1|b e1 B] L1 K1 s rest1.
    - cbn [tokens app seq_step String.eqb Ascii.eqb Bool.eqb]. lens.
      replace (neg E _) with (AOk (call "neg" [e1]) rest1 []); [reflexivity|]. symmetry. eapply node_map.
      + eapply runs_map_cons; [exact I| |constructor]. intros rest2. steps. ge B. reflexivity.
      + reflexivity.
    - cbn [tokens app seq_step String.eqb Ascii.eqb Bool.eqb]. lens. rewrite (IH _ _ _ _ O1 A1) by lia. reflexivity.
    - cbn [tokens app seq_step String.eqb Ascii.eqb Bool.eqb]. lens. ge B. reflexivity. }
  assert (TO : forall t e0 n, operand_means in_of alloc t e0 -> opens n (tokens t)) by (intros t e0 n []; exact I).
  assert (M : forall l es, rest_mean in_of alloc l es -> len l <= N -> len l <= S k -> forall tail s,
    runs name (seq_step E (bin_seq E k "pow")) tail s (map tokens l) (rev (map snd es) ++ fst s, rev (map fst es) ++ snd s)).
  { clear O A l es L K r. intros l es O. induction O as [|s o t e0 l es S0 O1 O IHO]; intros L K tail [xs os]; [constructor|]. unfold flag in L, K. lens.
    eapply runs_map_cons; [exact I| |eapply runs_map_cons; [eauto| |]].
    - intros rest0. cbn [tokens app flag seq_step]. rewrite (assoc_symbols _ _ S0). reflexivity.
    - intros rest0. apply T; [eassumption|lia|lia].
    - specialize (IHO ltac:(lia) ltac:(lia) tail (e0 :: xs, o :: os)). simpl in *. rewrite <- !app_assoc. exact IHO. }
  destruct O as [t e l es O1 O2]. lens. eapply node_map.
  - eapply runs_map_cons; [eauto| |].
    + intros rest0. apply T; [eassumption|lia|lia].
    + apply M; [exact O2|lia|lia].
  - cbn [fst snd]. rewrite (into_applied _ _ _ A [e] [] eq_refl). destruct (rev (map snd es)); reflexivity.
Qed.

(** ** Loops *)
Definition no_part (ms : list meta) : Prop := match ms with m :: _ => m <> MStart "start" /\ m <> MStart "end" | [] => False end.
Lemma optional_none : forall n ms, 0 < N -> match ms with m :: _ => m <> MStart n | [] => False end -> optional E n ms = AOk None ms [].
Proof. intros n [|m ms] P H; [contradiction|]. unfold optional. now rewrite R. Qed.
Lemma optional_some : forall n b e rest, expr_body in_of alloc b e -> len b < N ->
  optional E n (MStart n :: (flat_map tokens b ++ [MEnd n]) ++ rest) = AOk (Some e) rest [].
Proof. intros n b e rest B L. unfold optional. now rewrite (GE _ _ B L). Qed.
Lemma indices_ok : forall l is_, indices_mean in_of alloc l is_ -> len l <= N -> exists cs, concat cs = flat_map tokens l /\
  forall tail name s, no_part tail -> runs name (for_n_step E) tail s cs (Nst (n_indices s ++ is_) (n_block s) (n_label s)).
Proof.
  intros l is_ A. assert (NP : forall l is_ tail, indices_mean in_of alloc l is_ -> no_part tail -> no_part (flat_map tokens l ++ tail)).
  { clear. intros l is_ tail [] P; [exact P| | |]; simpl; split; discriminate. }
  induction A as [|x b c s e l is_ B C A IH|x c e l is_ C A IH|x l is_ A IH]; intros L.
  - exists []. split; [reflexivity|]. intros tail name s P. rewrite app_nil_r. destruct s; constructor.
  - unfold str in L. lens. destruct (IH ltac:(lia)) as (cs & EQ & H). exists ((tokens (str "name" x) ++ tokens (SNode "start" b) ++ tokens (SNode "end" c)) :: cs).
    split; [cbn [concat]; rewrite EQ; cbn [flat_map]; now rewrite <- !app_assoc|]. intros tail name st P. econstructor; [exact I| |].
    + rewrite <- !app_assoc. cbn [str tokens app for_n_step String.eqb Ascii.eqb Bool.eqb].
      rewrite (optional_some "start" _ _ _ B) by lia. rewrite (optional_some "end" _ _ _ C) by lia. reflexivity.
    + specialize (H tail name (Nst (n_indices st ++ [(x, Some s, Some e)]) (n_block st) (n_label st)) P). simpl in H. rewrite <- app_assoc in H. exact H.
  - unfold str in L. lens. destruct (IH ltac:(lia)) as (cs & EQ & H). exists ((tokens (str "name" x) ++ tokens (SNode "end" c)) :: cs).
    split; [cbn [concat]; rewrite EQ; cbn [flat_map]; now rewrite <- !app_assoc|]. intros tail name st P. econstructor; [exact I| |].
    + rewrite <- !app_assoc. cbn [str tokens app for_n_step String.eqb Ascii.eqb Bool.eqb].
      rewrite optional_none; [|lia|discriminate]. rewrite (optional_some "end" _ _ _ C) by lia. reflexivity.
    + specialize (H tail name (Nst (n_indices st ++ [(x, None, Some e)]) (n_block st) (n_label st)) P). simpl in H. rewrite <- app_assoc in H. exact H.
  - unfold str in L. lens. destruct (IH ltac:(lia)) as (cs & EQ & H). exists (tokens (str "name" x) :: cs).
    split; [cbn [concat]; rewrite EQ; reflexivity|]. intros tail name st P. econstructor; [exact I| |].
    + cbn [str tokens app for_n_step String.eqb Ascii.eqb Bool.eqb]. pose proof (NP _ _ tail A P) as Q. rewrite EQ.
      rewrite optional_none; [|lia|destruct (flat_map tokens l ++ tail); [contradiction|apply Q]].
      rewrite optional_none; [|lia|destruct (flat_map tokens l ++ tail); [contradiction|apply Q]]. reflexivity.
    + specialize (H tail name (Nst (n_indices st ++ [(x, None, None)]) (n_block st) (n_label st)) P). simpl in H. rewrite <- app_assoc in H. exact H.
Qed.
Lemma elses_ok : forall l cs bs, elses_mean in_of alloc l cs bs -> len l <= N -> forall tail name s,
  runs name (if_step E) tail s (map tokens l) (Ifst (f_cond s) (f_true s) (f_conds s ++ cs) (f_blocks s ++ bs) (f_else s)).
Proof.
  intros l cs bs A. induction A as [|b c l es r cs bs B A1 A IH]; intros L tail name s.
  - rewrite !app_nil_r. destruct s; constructor.
  - lens. eapply runs_map_cons; [exact I| |eapply runs_map_cons; [exact I| |]].
    + intros rest. steps. ge B. reflexivity.
    + intros rest. steps. rewrite (block_ok _ _ _ _ A1) by lia. reflexivity.
    + specialize (IH ltac:(lia) tail name (Ifst (f_cond s) (f_true s) (f_conds s ++ [c]) (f_blocks s ++ [es]) (f_else s))).
      simpl in IH. rewrite <- !app_assoc in IH. exact IH.
Qed.

(** ** Arguments of functions *)
Lemma type_step_ok : forall name T t, type_piece name T t -> T = [] /\ t = None \/ exists t', t = Some t' /\ forall rest, exists T', T = [T'] /\
  tokens T' = MStart name :: tl (tokens T') /\ type_of name (tokens T' ++ rest) = AOk t' rest [].
Proof.
  intros name T t [|b t' B]; [left; auto|right]. exists t'. split; [reflexivity|]. intros rest. eexists. split; [reflexivity|]. split; [reflexivity|].
  apply (type_of_good _ _ B name rest).
Qed.
Lemma grab_ok : forall level b e rest, expr_body in_of alloc b e -> 2 + len b <= N ->
  grab E (MStart "grab" :: (flat_map tokens (level_pieces level ++ [SNode "expr" b]) ++ [MEnd "grab"]) ++ rest)
  = AOk (match level with Some v => f64_to_u16 v | None => 1%Z end, e) rest [].
Proof.
  intros level b e rest B L. destruct level; (eapply node_map; [cbn [level_pieces app];
    repeat (eapply runs_map_cons; [exact I|intros; first [reflexivity|steps; ge B; reflexivity]|]); constructor|reflexivity]).
Qed.
Lemma lazy_ok : forall l zs, lazy_mean in_of alloc l zs -> len l <= N -> forall tail name s,
  runs name (arg_step alloc E) tail s (map tokens l) (Ast_ (s_name s) (s_lifetime s) (s_ty s) (s_mut s) (s_lazy s ++ zs)).
Proof.
  intros l zs A. assert (Q : forall l zs, len l <= N ->
    (len l <= N -> forall tail name s, runs name (arg_step alloc E) tail s (map tokens l) (Ast_ (s_name s) (s_lifetime s) (s_ty s) (s_mut s) (s_lazy s ++ zs))) ->
    forall tail name s z, runs name (arg_step alloc E) tail (Ast_ (s_name s) (s_lifetime s) (s_ty s) (s_mut s) (s_lazy s ++ [z])) (map tokens l)
       (Ast_ (s_name s) (s_lifetime s) (s_ty s) (s_mut s) (s_lazy s ++ z :: zs))).
  { clear. intros l zs L H tail name s z. specialize (H L tail name (Ast_ (s_name s) (s_lifetime s) (s_ty s) (s_mut s) (s_lazy s ++ [z]))).
    simpl in H. rewrite <- app_assoc in H. exact H. }
  induction A as [|l zs A IH|l zs A IH|l zs A IH|b e v l zs B P A IH]; intros L tail name s.
  - rewrite !app_nil_r. destruct s; constructor.
  - unfold flag in L. lens. eapply runs_map_cons; [exact I|intros; reflexivity|]. apply Q; auto. lia.
  - unfold flag in L. lens. eapply runs_map_cons; [exact I|intros; reflexivity|]. apply Q; auto. lia.
  - unfold flag in L. lens. eapply runs_map_cons; [exact I|intros; reflexivity|]. apply Q; auto. lia.
  - lens. eapply runs_map_cons; [exact I| |].
    + intros rest. steps. pose proof (grab_ok None b e rest B ltac:(lia)) as H. cbn [level_pieces app] in H. rewrite H. cbn [take_if snd]. rewrite P. reflexivity.
    + apply Q; auto. lia.
Qed.
Definition arg_state (T : option ty) x lt m lz := Ast_ (Some x) lt T m lz.
Lemma arg_ok : forall m x lt T t L lz rest, type_piece "type" T t -> lazy_mean in_of alloc L lz -> len L <= N ->
  arg_ alloc E (MStart "arg" :: (flat_map tokens (flags "mut" m ++ str "name" x :: strs "lifetime" lt ++ T ++ L) ++ [MEnd "arg"]) ++ rest)
  = AOk (Arg x lt (match t with Some t => t | None => TAny end) m, lz) rest [].
Proof.
  intros m x lt T t L lz rest P Z LN.
  assert (Q : forall tail s, s_ty s = None -> runs "arg" (arg_step alloc E) tail s (map tokens (T ++ L)) (Ast_ (s_name s) (s_lifetime s) t (s_mut s) (s_lazy s ++ lz))).
  { intros tail s K. destruct (type_step_ok _ _ _ P) as [[-> ->]|(t' & -> & H)].
    - rewrite <- K. apply lazy_ok; assumption.
    - destruct (H []) as (T' & -> & HH & _). cbn [app]. eapply runs_map_cons; [rewrite HH; exact I| |].
      + intros rest0. destruct (H rest0) as (T'' & EQ & _ & H'). injection EQ as <-. rewrite HH in *. cbn [app] in *. steps. rewrite H'. reflexivity.
      + apply (lazy_ok _ _ Z LN tail "arg" (Ast_ (s_name s) (s_lifetime s) (Some t') (s_mut s) (s_lazy s))). }
  destruct m, lt; (eapply node_map; [cbn [flags strs app]; repeat (eapply runs_map_cons; [exact I|intros; reflexivity|]); apply Q; reflexivity|reflexivity]).
Qed.
Lemma args_ok : forall l xs lz, args_mean in_of alloc l xs lz -> len l <= N -> forall fn tail name s,
  runs name (fn_step alloc E fn) tail s (map tokens l)
    (Fnst (g_name s) (g_args s ++ combine xs lz) (g_currents s) (g_ret s) (g_block s) (g_expr s)) /\ length xs = length lz.
Proof.
  intros l xs lz A. induction A as [|m x lt T t L lz l xs lzs P Z A IH]; intros LN fn tail name s.
  - split; [|reflexivity]. rewrite !app_nil_r. destruct s; constructor.
  - lens. assert (len L <= N) as LL by (destruct m, lt; simpl in LN; rewrite ?len_app in LN; unfold str in LN; lens).
    pose proof (IH ltac:(lia) fn tail name
      (Fnst (g_name s) (g_args s ++ [(Arg x lt (match t with Some t => t | None => TAny end) m, lz)]) (g_currents s) (g_ret s) (g_block s) (g_expr s))) as [H K].
    simpl in H. rewrite <- app_assoc in H. split; [|simpl; now rewrite K]. eapply runs_map_cons; [exact I| |exact H].
    intros rest. cbn [tokens app fn_step]. rewrite (String.eqb_refl "arg"). rewrite (arg_ok m x lt T t L lz rest P Z LL). reflexivity.
Qed.
Lemma currents_ok : forall l cs, currents_mean l cs -> forall fn tail name s,
  runs name (fn_step alloc E fn) tail s (map tokens l) (Fnst (g_name s) (g_args s) (g_currents s ++ cs) (g_ret s) (g_block s) (g_expr s)).
Proof.
  intros l cs A. induction A as [|m x T t l cs P A IH]; intros fn tail name s.
  - rewrite !app_nil_r. destruct s; constructor.
  - specialize (IH fn tail name (Fnst (g_name s) (g_args s) (g_currents s ++ [(x, m)]) (g_ret s) (g_block s) (g_expr s))). simpl in IH.
    rewrite <- app_assoc in IH. eapply runs_map_cons; [exact I| |exact IH]. intros rest. cbn [tokens app fn_step].
    change ("current" =? "arg")%string with false. change ("current" =? "current")%string with true. cbv iota.
    replace (current_ _) with (AOk (x, m) rest (@nil (list meta))); [reflexivity|]. symmetry.
    assert (Q : forall tail s, runs "current" current_step tail s (map tokens T) s).
    { intros tail0 s0. destruct (type_step_ok _ _ _ P) as [[-> ->]|(t' & -> & H)]; [constructor|].
      destruct (H []) as (T' & -> & HH & _). eapply runs_map_cons; [rewrite HH; exact I| |constructor].
      intros rest0. destruct (H rest0) as (T'' & EQ & _ & H'). injection EQ as <-. rewrite HH in *. cbn [app] in *. steps. rewrite H'. reflexivity. }
    destruct m; (eapply node_map; [cbn [flags app]; repeat (eapply runs_map_cons; [exact I|intros; reflexivity|]); apply Q|reflexivity]).
Qed.

(** ** Expressions *)
Lemma by_table : forall n body e f, assoc n (nodes in_of alloc E) = Some f ->
  (forall rest, f (MStart n :: (flat_map tokens body ++ [MEnd n]) ++ rest) = AOk e rest []) ->
  forall name tail s, runs name (expr_step in_of alloc E) tail s (map tokens [SNode n body]) (Some e).
Proof.
  intros n body e f A H name tail s. eapply runs_map_cons; [exact I| |constructor]. intros rest. cbn [tokens app expr_step].
  rewrite A, H. reflexivity.
Qed.
Ltac ges := match goal with H : expr_body _ _ ?b _ |- context [E _ (MStart _ :: (flat_map tokens ?b ++ _) ++ _)] => rewrite (GE _ _ H) by (lens) end.
Ltac blocks := match goal with H : all_mean _ _ _ ?b _ |- context [block E _ (MStart _ :: (flat_map tokens ?b ++ _) ++ _)] => rewrite (block_ok _ _ _ _ H) by (lens) end.
Ltac read_ := cbn [strs flags app]; repeat (eapply runs_map_cons; [exact I|intros; first [reflexivity|steps; first [ges|blocks]; reflexivity]|]).
Lemma swizzled_ok : forall l inds, swizzled l inds -> forall name tail e, runs name (swizzle_step E) tail ([None; None; None; None], e) (map tokens l)
  (match inds with [a; b] => [Some a; Some b; None; None] | [a; b; c] => [Some a; Some b; Some c; None] | [a; b; c; d] => [Some a; Some b; Some c; Some d] | _ => [] end, e).
Proof.
  assert (Q : forall n i t j s, letter n t j -> pos n ["sw0"; "sw1"; "sw2"; "sw3"] = Some i ->
    opens "" (tokens t) /\ forall rest, swizzle_step E s (tokens t ++ rest) = SNext (put_nat i j (fst s), snd s) rest []).
  { intros n i t j s [c k H] P. split; [exact I|]. intros rest. cbn [tokens app swizzle_step]. rewrite P.
    replace (sw n _) with (AOk k rest (@nil (list meta))); [reflexivity|]. symmetry.
    apply (node_map _ _ n sw_step None (Some k) need k [flag c] rest); [|reflexivity]. eapply runs_map_cons; [exact I| |constructor].
    intros rest0. simpl in H. repeat destruct H as [H|H]; try (injection H as <- <-; reflexivity); contradiction. }
  assert (O : forall n t j name, letter n t j -> opens name (tokens t)) by (intros n t j name []; exact I).
  intros l inds [s t i j H0 H1|s t u i j k H0 H1 H2|s t u v i j k m H0 H1 H2 H3] name tail e;
    repeat (eapply runs_map_cons; [eauto|eapply Q; [eassumption|reflexivity]|]); constructor.
Qed.

Lemma expr_ok : forall b e, expr_body in_of alloc b e -> len b <= N -> forall name tail,
  runs name (expr_step in_of alloc E) tail None (map tokens b) (Some e).
Proof.
  intros b e B. induction B; intros L name' tail; lens.
  - (* try *) rewrite map_app. eapply runs_app; [apply IHB; unfold flag in *; lens|]. eapply runs_map_cons; [exact I|intros; reflexivity|constructor].
  - (* in *) eapply by_table; [reflexivity|]. intros rest. destruct a; (eapply node_map; [read_; constructor|reflexivity]).
  - (* closure *) eapply by_table; [reflexivity|]. intros rest. pose proof (args_ok _ _ _ H ltac:(lia)) as A. eapply node_map.
    + rewrite !map_app. eapply runs_app; [apply A|]. eapply runs_app; [apply currents_ok; eassumption|]. read_. constructor.
    + cbn [g_ret g_expr g_args g_currents fn_start app]. do 3 f_equal. unfold names_of.
      destruct (A false tail name' fn_start) as [_ K]. clear - K.
      revert lz K. induction xs as [|x xs IH]; intros [|z lz] K; try discriminate; [reflexivity|]. simpl. f_equal. apply IH. now injection K.
  - (* object *) eapply by_table; [reflexivity|]. intros rest. assert (LL : len l <= N) by lia. eapply node_map; [|reflexivity].
    assert (Q : forall l kvs, pairs_mean in_of alloc l kvs -> len l <= N -> forall tail s, runs "object" (object_step E) tail s (map tokens l) (s ++ kvs)).
    { clear - G R. intros l kvs P. induction P as [|k b e l kvs B P IH]; intros L tail s; [rewrite app_nil_r; constructor|]. unfold str in L. lens.
      eapply runs_map_cons; [exact I| |].
      - intros rest. steps. replace (key_value E _) with (AOk (k, e) rest (@nil (list meta))); [reflexivity|]. symmetry. eapply node_map; [read_; constructor|reflexivity].
      - rewrite (app_assoc s [(k, e)] kvs : s ++ (k, e) :: kvs = _). apply IH. lia. }
    exact (Q l kvs H LL (MEnd "object" :: rest) []).
  - (* array *) eapply by_table; [reflexivity|]. intros rest. eapply node_map; [apply all_ok; [eassumption|lia]|reflexivity].
  - (* fill *) eapply by_table; [reflexivity|]. intros rest. eapply node_map; [read_; constructor|reflexivity].
  - (* link *) eapply by_table; [reflexivity|]. intros rest. eapply node_map; [apply all_ok; [eassumption|lia]|reflexivity].
  - (* block *) eapply by_table; [reflexivity|]. intros rest. cbv beta. rewrite (block_ok _ _ _ _ H) by lia. reflexivity.
  - (* for *) eapply by_table; [reflexivity|]. intros rest. destruct label; cbn [strs] in *; unfold str in *; lens; (eapply node_map; [read_; constructor|reflexivity]).
  - (* loop *) eapply by_table; [reflexivity|]. intros rest. destruct label; cbn [strs] in *; unfold str in *; lens; (eapply node_map; [read_; constructor|reflexivity]).
  - (* index loops *)
    eapply by_table with (f := for_n E name k).
    { simpl in H. repeat destruct H as [H|H]; try (injection H as <- <-; reflexivity); contradiction. }
    intros rest. destruct (indices_ok _ _ H0 ltac:(lia)) as (cs & EQ & Q).
    eapply node_ok with (cs := map tokens (strs "label" label) ++ cs ++ [tokens (SNode "block" b)])
      (s' := Nst is_ (Some es) label).
    + rewrite !concat_app, concat_tokens, EQ, !flat_map_app. simpl. now rewrite !app_nil_r.
    + eapply runs_app; [|eapply runs_app; [apply Q; simpl; split; discriminate|]].
      * destruct label; [eapply runs_map_cons; [exact I|intros; reflexivity|constructor]|constructor].
      * apply one_chunk; [exact I|]. steps. rewrite (block_ok _ _ _ _ H1) by lia. destruct label; reflexivity.
    + cbn [n_block n_label n_indices]. rewrite (loops_create _ _ _ _ _ H2). reflexivity.
  - (* receiving loops *)
    eapply by_table with (f := for_in E name k).
    { simpl in H. repeat destruct H as [H|H]; try (injection H as <- <-; reflexivity); contradiction. }
    intros rest. destruct label; cbn [strs] in *; unfold str in *; lens; (eapply node_map; [read_; constructor|reflexivity]).
  - (* if *) eapply by_table; [reflexivity|]. intros rest. pose proof (elses_ok _ _ _ H0 ltac:(lia)) as Q.
    destruct H1 as [|l' es' H1]; lens; (eapply node_map; [read_; rewrite map_app; (eapply runs_app; [apply Q|]); read_; constructor|]); reflexivity.
  - (* break *) eapply by_table; [reflexivity|]. intros rest. destruct label; (eapply node_map; [read_; constructor|reflexivity]).
  - (* continue *) eapply by_table; [reflexivity|]. intros rest. destruct label; (eapply node_map; [read_; constructor|reflexivity]).
  - (* assign *) eapply by_table; [reflexivity|]. intros rest. unfold flag in *. lens.
    eapply node_map; [eapply runs_map_cons; [exact I| |eapply runs_map_cons; [exact I| |eapply runs_map_cons; [exact I| |constructor]]]|].
    + intros rest0. steps. ge B1. reflexivity.
    + intros rest0. cbn [tokens app assign_step]. rewrite (assoc_assignments _ _ H). reflexivity.
    + intros rest0. steps. ge B2. reflexivity.
    + reflexivity.
  - (* return *) eapply by_table; [reflexivity|]. intros rest. cbv beta. ge B. reflexivity.
  - (* return void *) eapply runs_map_cons; [exact I|intros; reflexivity|constructor].
  - (* operators *)
    eapply by_table with (f := fun ms => bin_seq E (S (length ms)) name ms).
    { simpl in H. repeat destruct H as [H|H]; try (subst name; reflexivity); contradiction. }
    intros rest. eapply seq_ok; [eassumption|eassumption|lia|]. simpl. rewrite !app_length. unfold len. lia.
  - (* not *) eapply by_table; [reflexivity|]. intros rest. eapply node_map; [read_; constructor|reflexivity].
  - (* norm *) eapply by_table; [reflexivity|]. intros rest. eapply node_map; [read_; constructor|reflexivity].
  - (* vec4 *) eapply by_table; [reflexivity|]. intros rest. pose proof (parts_length _ _ _ H) as K. eapply node_map.
    + apply (parts_ok _ _ _ H ltac:(lia) _ [] eq_refl) with (done := []); [|reflexivity]. repeat constructor; simpl; intuition discriminate.
    + destruct es as [|y [|z [|w [|? ?]]]]; try discriminate. destruct y, z, w; reflexivity.
  - (* mat4 *) eapply by_table; [reflexivity|]. intros rest. pose proof (parts_length _ _ _ H) as K. eapply node_map.
    + apply (parts_ok _ _ _ H ltac:(lia) _ [] eq_refl) with (done := []); [|reflexivity]. repeat constructor; simpl; intuition discriminate.
    + destruct es as [|y [|z [|w [|? ?]]]]; try discriminate. destruct y, z, w; reflexivity.
  - (* un_loop *) eapply by_table; [reflexivity|]. intros rest. unfold flag, str in *. lens.
    simpl in H. repeat destruct H as [H|H]; try (injection H as <- <-; (eapply node_map; [read_; constructor|reflexivity])); contradiction.
  - (* constant *) eapply by_table; [reflexivity|]. intros rest. unfold grab_expr. rewrite (grab_ok level b e rest B) by (destruct level; simpl in *; lens).
    unfold make_grab. now rewrite H.
  - (* grab *) eapply by_table; [reflexivity|]. intros rest. unfold grab_expr. rewrite (grab_ok level b e rest B) by (destruct level; simpl in *; lens).
    unfold make_grab. rewrite H. destruct level; reflexivity.
  - (* try_expr *) eapply by_table; [reflexivity|]. intros rest. eapply node_map; [read_; constructor|reflexivity].
  - eapply runs_map_cons; [exact I|intros; reflexivity|constructor].
  - eapply runs_map_cons; [exact I|intros; reflexivity|constructor].
  - eapply runs_map_cons; [exact I|intros; reflexivity|constructor].
  - (* color *) eapply runs_map_cons; [exact I| |constructor]. intros rest. cbn [tokens app str expr_step String.eqb Ascii.eqb Bool.eqb]. now rewrite H.
  - (* item *) assert (Q' : forall rest, item_ E (tokens it ++ rest) = AOk i rest []) by (intros; apply item_ok; [assumption|lia]).
    assert (exists b, it = SNode "item" b) as [b ->] by (destruct H; eauto).
    eapply by_table; [reflexivity|]. intros rest. cbv beta. specialize (Q' rest). cbn [tokens app] in Q'. rewrite Q'. reflexivity.
  - (* call *) assert (LC : length (tokens c) <= 2 + N) by lia. pose proof (fun rest => call_ok _ _ _ rest H LC) as Q. clear LC. destruct (Q []) as (a & x & -> & [[[b ->] _]|[[b ->] _]]).
    + eapply by_table; [reflexivity|]. intros rest. cbv beta. destruct (Q rest) as (a' & x' & EQ & [[_ K]|[[b' K'] _]]); [|discriminate].
      cbn [tokens app] in K. rewrite K. simpl. rewrite <- EQ. reflexivity.
    + eapply by_table; [reflexivity|]. intros rest. cbv beta. destruct (Q rest) as (a' & x' & EQ & [[[b' K'] _]|[_ K]]); [discriminate|].
      cbn [tokens app] in K. rewrite K. simpl. rewrite <- EQ. reflexivity.
  - (* go *) assert (LC : length (tokens c) <= 2 + N) by lia. pose proof (fun rest => call_ok _ _ _ rest H LC) as Q. clear LC. eapply by_table; [reflexivity|]. intros rest.
    destruct (Q (MEnd "go" :: rest)) as (a & x & -> & [[[b ->] K]|[[b ->] K]]); cbn [tokens app] in K.
    + apply node_map with (s' := Some (a, x, args)); [|reflexivity]. eapply one_chunk; [exact I|]. steps. rewrite K. reflexivity.
    + apply node_map with (s' := Some (a, x, args)); [|reflexivity]. eapply one_chunk; [exact I|]. steps. rewrite K. reflexivity.
  - (* call of a closure *) assert (Q : forall rest, item_ E (tokens it ++ rest) = AOk i rest []) by (intros; apply item_ok; [assumption|lia]). assert (exists b, it = SNode "item" b) as [b ->] by (destruct H; eauto).
    eapply by_table; [reflexivity|]. intros rest. eapply node_map.
    + eapply runs_map_cons; [exact I| |apply (closure_arguments_ok _ _ _ H0); lia]. intros rest0. specialize (Q rest0). cbn [tokens app] in Q. steps. rewrite Q. reflexivity.
    + reflexivity.
  - (* with words *) assert (Q : forall rest, item_ E (tokens it ++ rest) = AOk i rest []) by (intros; apply item_ok; [assumption|lia]). assert (exists b, it = SNode "item" b) as [b ->] by (destruct H; eauto).
    eapply by_table; [reflexivity|]. intros rest. eapply node_map.
    + eapply runs_map_cons; [exact I| |apply (closure_named_ok _ _ _ _ H0); lia]. intros rest0. specialize (Q rest0). cbn [tokens app] in Q. steps. rewrite Q. reflexivity.
    + cbn [c_item c_word c_args app]. rewrite join_concat, with_words by assumption; reflexivity.
Qed.
Lemma arg_body_ok : forall b m e, arg_body in_of alloc b m e -> len b <= N -> forall name tail,
  runs name (expr_step in_of alloc E) tail None (map tokens b) (Some e).
Proof.
  intros b m e [it i H|l inds b0 e0 H H'|b0 e0 H] L name tail; [| |apply expr_ok; assumption].
  - unfold flag in L. lens. assert (Q : forall rest, item_ E (tokens it ++ rest) = AOk i rest []) by (intros; apply item_ok; [assumption|lia]). assert (exists b, it = SNode "item" b) as [b0 ->] by (destruct H; eauto).
    eapply runs_map_cons; [exact I|intros; reflexivity|]. eapply by_table; [reflexivity|]. intros rest. cbv beta. specialize (Q rest).
    cbn [tokens app] in Q. rewrite Q. reflexivity.
  - lens. eapply by_table; [reflexivity|]. intros rest. eapply node_map.
    + rewrite map_app. eapply runs_app; [apply swizzled_ok; eassumption|]. eapply runs_map_cons; [exact I| |constructor]. intros rest0. steps. ge H'. reflexivity.
    + destruct H; reflexivity.
Qed.
End Parts.
