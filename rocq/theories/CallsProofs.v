(** * The evaluator keeps the module and the call stack, for every program. *)
From Coq Require Import String List ZArith Bool Arith Lia.
From Verif Require Import Float64 Syntax InterpModel SyntaxProofs BalanceBase.
Import ListNotations.
Local Open Scope string_scope.
Local Open Scope nat_scope.
Local Open Scope list_scope.
Local Notation wpq := (wp anyp).

(** Channels, senders and threads are only added. *)
Definition grown (w w' : world) : Prop :=
  length (w_queues w) <= length (w_queues w') /\
  (exists l, w_senders w' = w_senders w ++ l) /\ (exists l, w_threads w' = w_threads w ++ l).
Definition kept (s s' : rt) : Prop :=
  r_mod s' = r_mod s /\ r_calls s' = r_calls s /\ grown (r_world s) (r_world s').
Definition kept_err (s s' : rt) : Prop :=
  r_mod s' = r_mod s /\ (exists l, r_calls s' = l ++ r_calls s) /\ grown (r_world s) (r_world s').
Definition keep {A} (m : M A) : Prop := forall s, wpq m s (fun _ s' => kept s s') (kept_err s).

Lemma grown_refl : forall w, grown w w.
Proof. intros. unfold grown. splits; auto; exists []; rewrite app_nil_r; reflexivity. Qed.
Lemma grown_trans : forall a b c, grown a b -> grown b c -> grown a c.
Proof.
  intros a b c (A & (l1 & B) & (l2 & C)) (A' & (l1' & B') & (l2' & C')). unfold grown. splits; [lia| |].
  - exists (l1 ++ l1'). rewrite B', B, app_assoc. reflexivity.
  - exists (l2 ++ l2'). rewrite C', C, app_assoc. reflexivity.
Qed.
Lemma kept_refl : forall s, kept s s.
Proof. intros. unfold kept. splits; auto. apply grown_refl. Qed.
Lemma kept_trans : forall a b c, kept a b -> kept b c -> kept a c.
Proof. intros a b c (A & B & C) (A' & B' & C'). unfold kept. splits; try congruence. eapply grown_trans; eauto. Qed.
Lemma kept_is_err : forall a b, kept a b -> kept_err a b.
Proof. intros a b (A & B & C). unfold kept_err. splits; auto. exists []. exact B. Qed.
Lemma kept_err_trans : forall a b c, kept a b -> kept_err b c -> kept_err a c.
Proof.
  intros a b c (A & B & C) (A' & (l & B') & C'). unfold kept_err. split; [congruence|]. split; [|eapply grown_trans; eauto].
  exists l. rewrite B', B. reflexivity.
Qed.

Lemma keep_bind : forall {A B} (m : M A) (k : A -> M B), keep m -> (forall a, keep (k a)) -> keep (bind m k).
Proof.
  intros A B m k Hm Hk s. apply wp_bind. eapply wp_mono; [apply Hm| |auto].
  cbv beta. intros a s1 K. eapply wp_mono; [apply Hk| |]; cbv beta; intros.
  - eapply kept_trans; eauto.
  - eapply kept_err_trans; eauto.
Qed.
Lemma keep_ret : forall {A} (a : A), keep (ret a).
Proof. intros A a s. apply kept_refl. Qed.
Lemma keep_fail : forall {A} e, keep (@fail A e).
Proof. intros A e s. apply kept_is_err, kept_refl. Qed.
Lemma keep_panic : forall {A} e, keep (@panic A e).
Proof. intros A e s. exact I. Qed.
Lemma keep_oof : forall {A}, keep (@oof A).
Proof. intros A s. exact I. Qed.
Lemma keep_gets : forall {A} (f : rt -> A), keep (gets f).
Proof. intros A f s. apply kept_refl. Qed.
Lemma keep_modify : forall f, (forall s, kept s (f s)) -> keep (modify f).
Proof. intros f H s. apply H. Qed.
Lemma keep_slot : forall i, keep (slot i).
Proof. intros i s. unfold wp, slot. destruct (nth_error _ _); [apply kept_refl|exact I]. Qed.
Lemma keep_pop : keep pop.
Proof. intros s. unfold wp, pop. destruct (rev _); [exact I|]. apply (kept_refl s). Qed.

Ltac ks := intros s; apply (kept_refl s).
Create HintDb keep.
#[export] Hint Resolve keep_ret keep_fail keep_panic keep_oof keep_gets keep_slot keep_pop : keep.

Ltac kp :=
  repeat (cbv beta zeta;
    match goal with
    | |- keep (bind _ _) => apply keep_bind; [|intros]
    | |- keep (match ?x with _ => _ end) => destruct x
    | |- keep (modify _) => apply keep_modify; ks
    | |- keep _ => solve [auto with keep nocore]
    end); auto with keep.

Lemma keep_push : forall v, keep (push v). Proof. intros. unfold push. kp. Qed.
Lemma keep_push_local : forall n i, keep (push_local n i). Proof. intros. unfold push_local. kp. Qed.
Lemma keep_push_current : forall n i, keep (push_current n i). Proof. intros. unfold push_current. kp. Qed.
Lemma keep_trunc_stack : forall n, keep (trunc_stack n). Proof. intros. unfold trunc_stack. kp. Qed.
Lemma keep_trunc_locals : forall n, keep (trunc_locals n). Proof. intros. unfold trunc_locals. kp. Qed.
Lemma keep_trunc_currents : forall n, keep (trunc_currents n). Proof. intros. unfold trunc_currents. kp. Qed.
Lemma keep_stack_len : keep stack_len. Proof. unfold stack_len. kp. Qed.
Lemma keep_local_len : keep local_len. Proof. unfold local_len. kp. Qed.
Lemma keep_current_len : keep current_len. Proof. unfold current_len. kp. Qed.
Lemma keep_getv : forall v, keep (getv v). Proof. intros. unfold getv. kp. Qed.
#[export] Hint Resolve keep_push keep_push_local keep_push_current keep_trunc_stack keep_trunc_locals keep_trunc_currents
  keep_stack_len keep_local_len keep_current_len keep_getv : keep.
Lemma keep_pread : forall p, keep (pread p).
Proof. intros p. unfold pread. kp. Qed.
Lemma keep_pwrite : forall p v, keep (pwrite p v).
Proof. intros p v. unfold pwrite. kp. Qed.
Lemma keep_deep : forall n v, keep (deep n v).
Proof. intros n v s. unfold wp, deep. destruct (deep_clone n (r_stack s) v); try exact I. apply (kept_refl s). Qed.
#[export] Hint Resolve keep_pread keep_pwrite keep_deep : keep.

Section Keep.
Context (E : env) (ev : expr -> side -> M res).
Hypothesis Hv : forall f, keep (e_void E f).
Hypothesis Hr : forall f, keep (e_ret E f).
Hypothesis Hev : forall e sd, keep (ev e sd).
Hint Resolve Hv Hr Hev : keep.

Lemma keep_vexpr : forall {R} e sd msg (leave : option value -> M R) (k : value -> M R),
  (forall x, keep (leave x)) -> (forall x, keep (k x)) -> keep (vexpr ev e sd msg leave k).
Proof. intros R e sd msg leave k H1 H2. unfold vexpr. kp. Qed.
Lemma keep_leave : forall x, keep (leave_res x). Proof. intros. unfold leave_res. kp. Qed.
Hint Resolve keep_leave : keep.
Ltac kv :=
  repeat (cbv beta zeta;
    match goal with
    | |- keep (bind _ _) => apply keep_bind; [|intros]
    | |- keep (vexpr _ _ _ _ _ _) => apply keep_vexpr; intros
    | |- keep (match ?x with _ => _ end) => destruct x
    | |- keep (modify _) => apply keep_modify; ks
    | |- keep _ => solve [auto with keep nocore]
    end); auto with keep.

Lemma keep_block_go : forall es l, keep (block_go ev es l).
Proof. induction es as [|e es IH]; intros l; cbn [block_go]; kv. Qed.
Hint Resolve keep_block_go : keep.
Lemma keep_block : forall es, keep (block ev es). Proof. intros. unfold block. kv. Qed.
Hint Resolve keep_block : keep.
Lemma keep_try_leave : forall m tr, keep (try_leave m tr). Proof. intros. unfold try_leave. kv. Qed.
Hint Resolve keep_try_leave : keep.
Lemma keep_try_fun : forall e sd, keep (try_fun ev e sd). Proof. intros. unfold try_fun. kv. Qed.
Lemma keep_try_expr : forall e, keep (try_expr ev e).
Proof.
  intros e s. pose proof (Hev e Right s) as H. unfold wp in *. unfold try_expr.
  destruct (ev e Right s) as [[[x|] fl] s'|msg s'| |]; auto.
  - destruct fl; exact H.
  - destruct fl; auto. apply kept_is_err. exact H.
  - cbn. destruct H as (A & (l & B) & C). unfold kept. cbn. splits; auto. rewrite B. apply trunc_top_app.
Qed.
Lemma keep_push_comps : forall inds v, keep (push_comps v inds).
Proof. induction inds as [|i inds IH]; intros v; cbn [push_comps]; kv. Qed.
Hint Resolve keep_push_comps : keep.
Lemma keep_swizzle : forall inds e, keep (swizzle ev inds e). Proof. intros. unfold swizzle. kv. Qed.
Lemma keep_link_go : forall es acc, keep (link_go ev es acc).
Proof. induction es as [|e es IH]; intros acc; cbn [link_go]; kv. Qed.
Hint Resolve keep_link_go : keep.
Lemma keep_link : forall es, keep (link ev es). Proof. intros. unfold link. kv. Qed.
Lemma keep_object : forall kvs acc, keep (object ev kvs acc).
Proof. induction kvs as [|[k e] kvs IH]; intros acc; cbn [object]; kv. Qed.
Lemma keep_array : forall es acc, keep (array ev es acc).
Proof. induction es as [|e es IH]; intros acc; cbn [array]; kv. Qed.
Lemma keep_array_fill : forall f n, keep (array_fill E ev f n). Proof. intros. unfold array_fill. kv. Qed.
Lemma keep_walk_index : forall lim i, keep (walk_index lim i). Proof. intros. unfold walk_index. kv. Qed.
Hint Resolve keep_walk_index : keep.
Lemma keep_walk : forall inds lim last p, keep (walk lim inds last p).
Proof. induction inds as [|i inds IH]; intros lim last p; cbn [walk]; kv. Qed.
Lemma keep_index_slot : forall i, keep (index_slot i). Proof. intros. unfold index_slot. kv. Qed.
Lemma keep_follow : forall l p, keep (follow l p). Proof. intros. unfold follow. kv. Qed.
Hint Resolve keep_walk keep_index_slot keep_follow : keep.
Lemma keep_item_lookup : forall p prop st j i l, keep (item_lookup p prop st j i l).
Proof. intros. unfold item_lookup. kv. Qed.
Hint Resolve keep_item_lookup : keep.
Lemma keep_push_ids : forall ids k, keep k -> keep (push_ids ev ids k).
Proof. induction ids as [|[|e|] ids IH]; intros k Hk; cbn [push_ids]; kv. Qed.
Lemma keep_lookup_ids : forall ids i p st j ins tids k, (forall q, keep (k q)) -> keep (lookup_ids ids i p st j ins tids k).
Proof. induction ids as [|x ids IH]; intros i p st j ins tids k Hk; cbn [lookup_ids]; kv. Qed.
Lemma keep_find_slot : forall n sid, keep (find_slot E n sid).
Proof.
  intros n sid s. unfold wp, find_slot. destruct (e_look E).
  - unfold find_by_name. destruct (r_calls s); [exact I|]. destruct (Nat.leb _ _); [|exact I].
    destruct (assoc _ _); [|destruct (String.eqb _ _); apply kept_is_err, (kept_refl s)].
    destruct (Nat.leb _ _); [|exact I]. destruct sid; [destruct (Nat.eqb _ _)|]; first [apply kept_is_err, (kept_refl s)|apply (kept_refl s)].
  - unfold find_by_slot. destruct (r_calls s); [exact I|]. destruct (Nat.leb _ _); [|exact I].
    destruct sid; [|exact I]. destruct (Nat.leb _ _); [apply (kept_refl s)|exact I].
  - destruct (r_calls s); [exact I|]. destruct (find_by_name n sid s); try exact I. destruct (find_by_slot sid s); try exact I. destruct (Nat.eqb _ _); [apply (kept_refl s)|exact I].
Qed.
Hint Resolve keep_find_slot : keep.
Lemma keep_item : forall it sd, keep (item_ E ev it sd).
Proof.
  intros [name sid cur tf ids tids] sd. unfold item_. apply keep_bind; [kv|intros]. apply keep_bind; [kv|intros].
  cbv zeta. destruct ids; [kv|]. apply keep_bind; [kv|intros]. apply keep_push_ids, keep_lookup_ids. intros q. kv.
Qed.
Hint Resolve keep_item : keep.
Lemma keep_assign : forall op l r, keep (assign E ev op l r).
Proof. intros op l r. unfold assign. kv. Qed.
Lemma keep_push_args : forall args k, keep k -> keep (push_args ev args k).
Proof. induction args as [|e args IH]; intros k Hk; cbn [push_args]; kv. Qed.
Lemma keep_lift : forall p, keep (lift p). Proof. intros [| |]; cbn [lift]; kv. Qed.
Hint Resolve keep_lift : keep.
Lemma keep_lazy_check : forall inv i x, keep (lazy_check inv i x).
Proof. intros. unfold lazy_check. kv. Qed.
Hint Resolve keep_lazy_check : keep.
Lemma keep_push_lazy : forall inv args i k, keep k -> keep (push_lazy ev inv i args k).
Proof. intros inv args. induction args as [|e args IH]; intros i k Hk; cbn [push_lazy]; kv. Qed.
Lemma keep_push_loaded : forall inv args i k, keep k -> keep (push_loaded ev inv i args k).
Proof. intros inv args. induction args as [|e args IH]; intros i k Hk; cbn [push_loaded]; kv. Qed.
Lemma keep_push_currents : forall names, keep (push_currents names).
Proof. induction names as [|c names IH]; cbn [push_currents]; kv. Qed.
Lemma keep_push_arg_locals : forall st names i, keep (push_arg_locals st i names).
Proof. intros st names. induction names as [|c names IH]; intros i; cbn [push_arg_locals]; kv. Qed.
Lemma keep_deep_all : forall n vs, keep (deep_all n vs).
Proof. intros n vs. induction vs as [|v vs IH]; cbn [deep_all]; kv. Qed.
Hint Resolve keep_push_currents keep_push_arg_locals keep_deep_all : keep.
Lemma send_all_length : forall chans msg qs, length (send_all chans msg qs) = length qs.
Proof.
  intros chans msg. unfold send_all. induction chans as [|c chans IH]; intros qs; cbn; [reflexivity|].
  rewrite IH. destruct (nth_error qs c); [apply list_set_length|reflexivity].
Qed.
Lemma keep_send_args : forall n fi st, keep (send_args n fi st).
Proof.
  intros n fi st s. unfold send_args. apply wp_bind, wp_gets, wp_bind, wp_gets. cbv zeta.
  destruct (map snd _) as [|c chans]; [apply wp_ret, kept_refl|].
  apply wp_bind, wp_gets, wp_bind. eapply wp_mono; [apply keep_deep_all| |auto]. cbv beta. intros msg s1 (A & B & C).
  apply wp_modify. unfold kept, grown in *. cbn [r_mod r_calls r_world set_world w_queues w_senders w_threads]. splits; auto.
  - rewrite send_all_length. lia.
  - exists []. rewrite app_nil_r. reflexivity.
  - exists []. rewrite app_nil_r. reflexivity.
Qed.
Hint Resolve keep_send_args : keep.
Lemma keep_body_flow : forall fl, keep (body_flow fl). Proof. intros [| |[|]|[|]]; cbn [body_flow]; kv. Qed.
Lemma keep_caller_source : keep (caller_source E).
Proof.
  intros s. unfold wp, caller_source. destruct (r_calls s); [exact I|].
  destruct (nth_error _ _); [|exact I]. destruct (_ <? _); [apply (kept_refl s)|exact I].
Qed.
Hint Resolve keep_body_flow keep_caller_source : keep.
Lemma keep_finish : forall src b x, keep src -> keep (finish src b x).
Proof. intros src b x H. unfold finish. destruct b, x as [v|]; try destruct v; kv. Qed.

(** Between [push_fn] and [pop_fn] the record is on top. *)
Definition inside {A} (c : call) (m : M A) : Prop := forall s cs, r_calls s = c :: cs ->
  wpq m s (fun _ s' => kept (set_calls cs s) s') (kept_err (set_calls cs s)).
Lemma inside_bind : forall {A B} c (m : M A) (k : A -> M B),
  keep m -> (forall a, inside c (k a)) -> inside c (bind m k).
Proof.
  intros A B c m k Hm Hk s cs Hc. apply wp_bind. eapply wp_mono; [apply Hm| |]; cbv beta.
  - intros a s1 (K1 & K2 & K3). eapply wp_mono; [apply Hk with (cs := cs); congruence| |]; cbv beta; intros.
    + destruct H as (A1 & A2 & A3). cbn in *. unfold kept. cbn. splits; try congruence. eapply grown_trans; eauto.
    + destruct H as (A1 & (l & A2) & A3). cbn in *. unfold kept_err. cbn. splits; try congruence; [eauto|].
      eapply grown_trans; eauto.
  - intros s1 (K1 & (l & K2) & K3). unfold kept_err. cbn. splits; auto. exists (l ++ [c]).
    rewrite K2, Hc, <- app_assoc. reflexivity.
Qed.
Lemma inside_pop : forall {A} c name (k : M A), keep k -> inside c (pop_fn name ;;; k).
Proof.
  intros A c name k Hk s cs Hc. apply wp_bind. unfold wp at 1, pop_fn. rewrite Hc.
  destruct (String.eqb (c_name c) name); [|exact I]. cbn.
  eapply wp_mono; [apply Hk| |]; cbv beta; intros; assumption.
Qed.
Lemma keep_push_fn : forall {A} c (k : M A), inside c k -> keep (push_fn c ;;; k).
Proof.
  intros A c k Hk s. apply wp_bind, wp_modify.
  eapply wp_mono; [apply Hk with (cs := r_calls s); reflexivity| |]; cbv beta; intros; assumption.
Qed.
Ltac ki := repeat (cbv beta zeta; first [apply inside_pop | apply inside_bind; [kv|intros]]).

Lemma keep_call_loaded : forall n args z name loader, keep (call_loaded E ev n args z name loader).
Proof.
  intros n args z name loader. unfold call_loaded. apply keep_bind; [apply keep_gets|intros top].
  cbv zeta. apply keep_bind; [apply keep_gets|intros md].
  destruct (nth_error (e_mods E) md) as [m|]; [|kv]. destruct (_ <? 0)%Z; [kv|].
  destruct (nth_error (m_funs m) _) as [f|]; [|kv].
  apply keep_bind; [kv|intros _]. do 3 (apply keep_bind; [kv|intros]).
  apply keep_push_loaded. do 2 (apply keep_bind; [kv|intros]).
  apply keep_push_fn. ki. apply keep_finish. kv.
Qed.
Hint Resolve keep_call_loaded : keep.
Lemma keep_call_internal : forall n f name args loader, keep (call_internal E ev n f name args loader).
Proof.
  intros n f name args loader. destruct f; cbn [call_internal]; kv.
  - apply keep_push_args. kv.
  - apply keep_push_args. kv.
  - apply keep_push_lazy. kv.
  - unfold call_binop. kv.
  - unfold call_unop. kv.
Qed.
Lemma keep_expression_module : forall e md, keep (expression_module ev e md).
Proof.
  intros e md s. unfold wp, expression_module. pose proof (Hev e Right (set_mod md s)) as H. unfold wp in H.
  destruct (ev e Right (set_mod md s)) as [a s'|m s'| |]; auto.
  - destruct H as (_ & B & C). unfold kept. cbn in *. splits; auto.
  - destruct H as (_ & B & C). unfold kept_err. cbn in *. splits; auto.
Qed.
Hint Resolve keep_expression_module : keep.
Lemma keep_call_closure : forall it args, keep (call_closure E ev it args).
Proof.
  intros it args. unfold call_closure. apply keep_bind; [kv|intros [[x|] fl]]; [|kv].
  destruct fl; try (kv; fail). apply keep_bind; [kv|intros v].
  destruct v; try (kv; fail). destruct c. destruct it. cbv zeta. destruct (Nat.eqb _ _); [|kv].
  do 4 (apply keep_bind; [kv|intros]). apply keep_push_loaded. apply keep_bind; [kv|intros].
  apply keep_push_fn. ki. apply keep_finish. kv.
Qed.
Lemma keep_in_expr : forall f, keep (in_expr E f).
Proof.
  intros f. destruct f; cbn [in_expr]; try (kv; fail). intros s.
  apply wp_bind, wp_gets, wp_bind, wp_gets. cbv zeta. destruct (nth_error _ _); [|exact I].
  destruct (_ && _)%bool; [|exact I]. apply wp_bind, wp_gets, wp_bind, wp_modify, wp_ret.
  unfold kept, grown. cbn. splits; auto.
  - rewrite app_length. lia.
  - eexists. reflexivity.
  - exists []. rewrite app_nil_r. reflexivity.
Qed.
Lemma keep_go_args : forall n args acc, keep (go_args ev n args acc).
Proof. intros n args. induction args as [|e args IH]; intros acc; cbn [go_args]; kv. Qed.
Lemma keep_go : forall n name args, keep (go_ E ev n name args).
Proof.
  intros n name args. unfold go_. apply keep_bind; [kv|intros cs]. apply keep_bind; [kv|intros md].
  destruct cs; [kv|]. destruct (nth_error _ _); [|kv]. apply keep_bind; [apply keep_go_args|intros [stk|x]]; [|kv].
  cbv zeta. intros s. apply wp_bind, wp_gets, wp_bind, wp_modify, wp_ret. unfold kept, grown. cbn. splits; auto.
  - exists []. rewrite app_nil_r. reflexivity.
  - eexists. reflexivity.
Qed.
Lemma keep_else_if : forall conds blocks eb, keep (else_if ev conds blocks eb).
Proof. induction conds as [|c conds IH]; intros blocks eb; cbn [else_if]; kv. Qed.
Hint Resolve keep_else_if : keep.
Lemma keep_if : forall c tb conds blocks eb, keep (if_expr ev c tb conds blocks eb).
Proof. intros. unfold if_expr. kv. Qed.
Lemma keep_push_comp_args : forall sd cap args k, keep k -> keep (push_comp_args ev sd cap args k).
Proof. intros sd cap args. induction args as [|e args IH]; intros k Hk; cbn [push_comp_args]; kv. Qed.
Lemma keep_arg_fail : forall {R} args i msg, keep (@arg_fail R args i msg). Proof. intros. unfold arg_fail. kv. Qed.
Hint Resolve keep_arg_fail : keep.
Lemma keep_pop_num : forall args i, keep (pop_num args i). Proof. intros. unfold pop_num. kv. Qed.
Lemma keep_pop_vec : forall args i, keep (pop_vec args i). Proof. intros. unfold pop_vec. kv. Qed.
Hint Resolve keep_pop_num keep_pop_vec : keep.
Lemma keep_vec4 : forall args sd, keep (vec4_ ev args sd).
Proof. intros. unfold vec4_. apply keep_bind; [kv|intros]. apply keep_push_comp_args. kv. Qed.
Lemma keep_mat4 : forall args sd, keep (mat4_ ev args sd).
Proof. intros. unfold mat4_. apply keep_push_comp_args. kv. Qed.

(** ** Loops *)
Lemma keep_loop : forall {A} n label st lc test (body : value -> A -> M (bstep A)) next a,
  keep test -> (forall v a, keep (body v a)) -> keep next -> keep (loop n label st lc test body next a).
Proof. intros A n. induction n as [|n IH]; intros label st lc test body next a H1 H2 H3; cbn [loop]; kv. Qed.
Lemma keep_count_test : forall st y, keep (count_test st y). Proof. intros. unfold count_test. kv. Qed.
Lemma keep_count_next : forall st, keep (count_next st). Proof. intros. unfold count_next. kv. Qed.
Lemma keep_recv : forall ch, keep (recv ch).
Proof.
  intros ch s. unfold wp, recv. destruct (nth_error _ _) as [[|m q]|]; try apply (kept_refl s).
  unfold kept, grown. cbn. splits; auto.
  - rewrite list_set_length. lia.
  - exists []. rewrite app_nil_r. reflexivity.
  - exists []. rewrite app_nil_r. reflexivity.
Qed.
Hint Resolve keep_count_test keep_count_next keep_recv : keep.
Lemma keep_in_next : forall ch st, keep (in_next ch st). Proof. intros. unfold in_next. kv. Qed.
Hint Resolve keep_in_next : keep.
Lemma keep_num_expr : forall {A} e (k : f64 -> M (lres A)), (forall x, keep (k x)) -> keep (num_expr ev e k).
Proof. intros. unfold num_expr. kv. Qed.
Lemma keep_for_n_core : forall {A} n label name start stop (body : nat -> value -> A -> M (bstep A)) a,
  (forall st v a, keep (body st v a)) -> keep (for_n_core ev n label name start stop body a).
Proof.
  intros A n label name start stop body a H. unfold for_n_core. do 2 (apply keep_bind; [kv|intros]). cbv zeta.
  destruct start; [apply keep_num_expr; intros|]; (apply keep_num_expr; intros y; do 5 (apply keep_bind; [kv|intros]);
    apply keep_bind; [apply keep_loop; kv|intros]; kv).
Qed.
Lemma keep_for_in_core : forall {A} n label name iter (body : nat -> value -> A -> M (bstep A)) a,
  (forall st v a, keep (body st v a)) -> keep (for_in_core ev n label name iter body a).
Proof.
  intros A n label name iter body a H. unfold for_in_core. do 2 (apply keep_bind; [kv|intros]).
  apply keep_vexpr; intros; [kv|]. apply keep_bind; [kv|intros v]. destruct v; try (kv; fail).
  apply keep_bind; [kv|intros [m|]]; [|kv]. do 5 (apply keep_bind; [kv|intros]).
  apply keep_bind; [apply keep_loop; kv|intros]. kv.
Qed.
Lemma keep_block_body : forall {A} b (some : A -> value -> M (bstep A)) none a,
  (forall a v, keep (some a v)) -> (forall a, keep (none a)) -> keep (block_body ev b some none a).
Proof. intros. unfold block_body. kv. Qed.
Lemma keep_num_step : forall f a x, keep (num_step f a x). Proof. intros. unfold num_step. kv. Qed.
Lemma keep_vec_step : forall f a x, keep (vec_step f a x). Proof. intros. unfold vec_step. kv. Qed.
Lemma keep_best_step : forall b ind a x, keep ind -> keep (best_step b ind a x). Proof. intros. unfold best_step. kv. Qed.
Lemma keep_find_step : forall b ind a x, keep ind -> keep (find_step b ind a x). Proof. intros. unfold find_step. kv. Qed.
Lemma keep_sift_step : forall a x, keep (sift_step a x). Proof. intros. unfold sift_step. kv. Qed.
Lemma keep_skip_none : forall {A} (a : A), keep (skip_none a). Proof. intros. unfold skip_none. kv. Qed.
Lemma keep_need_value : forall {A} (a : A), keep (need_value a). Proof. intros. unfold need_value. kv. Qed.
Hint Resolve keep_num_step keep_vec_step keep_best_step keep_find_step keep_sift_step keep_skip_none keep_need_value : keep.
Lemma keep_done : forall {A} fin (r : lres A), keep (done fin r). Proof. intros A fin [|]; cbn [done]; kv. Qed.
Lemma keep_done_in : forall {A} fin (r : option (lres A)), keep (done_in fin r).
Proof. intros A fin [r|]; cbn [done_in]; [apply keep_done|kv]. Qed.
Lemma keep_link_done : forall r, keep (link_done r). Proof. intros [a fl|x]; cbn [link_done]; kv. Qed.
Hint Resolve keep_done keep_done_in keep_link_done : keep.
Lemma keep_link_items : forall items acc, keep (link_items ev items acc).
Proof. induction items as [|e items IH]; intros acc; cbn [link_items]; kv. Qed.
Hint Resolve keep_link_items : keep.
Lemma keep_sub_link_n : forall d n label name start stop b a, keep (sub_link_n ev d n label name start stop b a).
Proof.
  induction d as [|d IH]; intros n label name start stop b a; cbn [sub_link_n]; apply keep_for_n_core; intros; kv.
Qed.
Lemma keep_sub_link_in : forall d n label name iter b a, keep (sub_link_in ev d n label name iter b a).
Proof.
  induction d as [|d IH]; intros n label name iter b a; cbn [sub_link_in];
    (apply keep_bind; [apply keep_for_in_core; intros; kv|intros; kv]).
Qed.
Hint Resolve keep_sub_link_n keep_sub_link_in : keep.
Lemma keep_for_n : forall n k label name start stop b, keep (for_n ev n k label name start stop b).
Proof.
  intros n k label name start stop b. destruct k; cbn [for_n]; (apply keep_bind; [|intros; kv]); try (kv; fail);
    apply keep_for_n_core; intros; apply keep_block_body; intros; kv.
Qed.
Lemma keep_for_in : forall n k label name iter b, keep (for_in ev n k label name iter b).
Proof.
  intros n k label name iter b. destruct k; cbn [for_in]; try (kv; fail); (apply keep_bind; [|intros; kv]); try (kv; fail);
    apply keep_for_in_core; intros; apply keep_block_body; intros; kv.
Qed.
Lemma keep_for_loop : forall n label st lc cond step_ b, keep (for_loop ev n label st lc cond step_ b).
Proof. induction n as [|n IH]; intros label st lc cond step_ b; cbn [for_loop]; kv. Qed.
Hint Resolve keep_for_loop : keep.
Lemma keep_for_expr : forall n label init cond step_ b, keep (for_expr ev n label init cond step_ b).
Proof. intros. unfold for_expr. kv. Qed.

(** ** Grab *)
Lemma keep_gret : forall {A} (a : A), keep (gret a). Proof. intros. unfold gret. kv. Qed.
Lemma keep_gbind : forall {A B} (m : M (gres A)) (k : A -> M (gres B)), keep m -> (forall a, keep (k a)) -> keep (gbind m k).
Proof. intros. unfold gbind. kv. Qed.
Lemma keep_gmap : forall {A B} (f : A -> M (gres B)) l, Forall (fun x => keep (f x)) l -> keep (gmap f l).
Proof.
  intros A B f l H. induction H as [|x l Hx Hl IH]; cbn; [apply keep_gret|].
  apply keep_gbind; [exact Hx|intros]. apply keep_gbind; [exact IH|intros]. apply keep_gret.
Qed.
Lemma keep_gopt : forall {A B} (f : A -> M (gres B)) o, (forall x, o = Some x -> keep (f x)) -> keep (gopt f o).
Proof. intros A B f [x|] H; cbn [gopt]; [|apply keep_gret]. apply keep_gbind; [auto|intros; apply keep_gret]. Qed.

Lemma keep_gmap_of : forall {A B} (P : A -> Prop) (f : A -> M (gres B)) l, Forall P l -> (forall x, P x -> keep (f x)) ->
  keep (gmap f l).
Proof. intros A B P f l H Hf. apply keep_gmap. eapply Forall_impl; [|exact H]. exact Hf. Qed.

Let Ge (e : expr) : Prop := forall n lv, keep (grab_expr ev n lv e).
Let Gi (it : item) : Prop := forall n lv, keep (grab_item ev n lv it).
Let Gx (i : idx) : Prop := forall n lv, keep (grab_idx ev n lv i).
Let Gc (c : closure) : Prop := forall n lv, keep (grab_closure ev n lv c).

Ltac kg := repeat first
  [ apply keep_gret
  | apply keep_gbind; [|intros]
  | match goal with
    | H : Ge ?e |- keep (grab_expr _ ?a ?b ?e) => exact (H a b)
    | H : Gi ?e |- keep (grab_item _ ?a ?b ?e) => exact (H a b)
    | H : Gx ?e |- keep (grab_idx _ ?a ?b ?e) => exact (H a b)
    | H : Gc ?e |- keep (grab_closure _ ?a ?b ?e) => exact (H a b)
    | H : Forall _ ?l |- keep (gmap _ ?l) => eapply (keep_gmap_of _ _ _ H); intros
    | H : opt_all _ ?o |- keep (gopt _ ?o) => apply keep_gopt; intros; subst; cbn in H
    | H : Ge ?e |- keep (_ ?n ?l ?e) => exact (H n l)
    | H : Gi ?e |- keep (_ ?n ?l ?e) => exact (H n l)
    | H : Gx ?e |- keep (_ ?n ?l ?e) => exact (H n l)
    | H : Gc ?e |- keep (_ ?n ?l ?e) => exact (H n l)
    end ].

Lemma keep_grab : (forall v : value, True) /\ (forall e, Ge e) /\ (forall it, Gi it) /\ (forall i, Gx i) /\ (forall c, Gc c).
Proof.
  apply syntax_ind; auto; intros;
    match goal with |- True => exact I | |- Ge _ => intros ng lvg; cbn [grab_expr grab_item grab_idx grab_closure]
    | |- Gi _ => intros ng lvg; cbn [grab_expr grab_item grab_idx grab_closure] | |- Gx _ => intros ng lvg; cbn [grab_expr grab_item grab_idx grab_closure]
    | |- Gc _ => intros ng lvg; cbn [grab_expr grab_item grab_idx grab_closure] end; kg.
  - destruct x. kg.
  - destruct (Nat.eqb _ _); [|kg]. apply keep_vexpr; intros; [kv|]. apply keep_bind; [kv|intros; kg].
Qed.
Lemma keep_closure : forall n c, keep (closure_ ev n c).
Proof. intros n [args cur body]. unfold closure_. pose proof (proj1 (proj2 keep_grab)) as G. unfold Ge in G. kv. Qed.
Lemma keep_expression : forall n e sd, keep (expression E ev n e sd).
Proof.
  intros n e sd. destruct e; cbn [expression]; try (solve [kv]).
  - apply keep_link.
  - apply keep_object.
  - apply keep_array.
  - apply keep_array_fill.
  - apply keep_go.
  - apply keep_call_internal.
  - apply keep_assign.
  - apply keep_vec4.
  - apply keep_mat4.
  - apply keep_for_expr.
  - apply keep_for_n.
  - apply keep_for_in.
  - apply keep_if.
  - apply keep_try_fun.
  - apply keep_swizzle.
  - apply keep_closure.
  - apply keep_call_closure.
  - apply keep_try_expr.
  - apply keep_in_expr.
Qed.
End Keep.

Lemma eval_keep : forall E, (forall f, keep (e_void E f)) -> (forall f, keep (e_ret E f)) ->
  forall n e sd, keep (eval E n e sd).
Proof.
  intros E Hv Hr n. induction n as [|n IH]; intros e sd; cbn [eval]; [intros s; exact I|].
  apply keep_expression; auto.
Qed.
