(** * Running with another lookup mode or with more fuel gives the same, unless the first run clashes or
      runs out of fuel. *)
From Coq Require Import String List ZArith Bool Arith Lia.
From Verif Require Import Float64 Syntax InterpModel SyntaxProofs.
Import ListNotations.
Local Open Scope string_scope.
Local Open Scope nat_scope.
Local Open Scope list_scope.

Definition with_look (l : lookup) (E : env) : env :=
  Env l (e_mods E) (e_void E) (e_ret E) (e_bin E) (e_un E) (e_lazy E) (e_alloc E) (e_frem E) (e_fpow E)
    (e_grem E) (e_gpow E) (e_matmul E).

Section Refine.
(** [cl]: may the first run clash? [fu]: may it have less fuel? *)
Context (cl fu : Prop).
Definition worse {A} (x y : outcome A) : Prop := (fu /\ x = OOF) \/ (cl /\ x = Panic clash) \/ x = y.
Definition le_fuel (n n' : nat) : Prop := n = n' \/ (fu /\ n <= n').
Lemma le_fuel_S : forall n n', le_fuel (S n) n' -> exists m, n' = S m /\ le_fuel n m.
Proof. intros n n' [<-|[F L]]; [exists n; split; [reflexivity|left; reflexivity]|]. destruct n' as [|m]; [lia|]. exists m. split; [reflexivity|right; split; [exact F|lia]]. Qed.
Lemma le_fuel_0 : forall n', le_fuel 0 n' -> n' = 0 \/ fu.
Proof. intros n' [<-|[F L]]; auto. Qed.
Definition ref {A} (m m' : M A) : Prop := forall s, worse (m s) (m' s).

Lemma ref_refl : forall {A} (m : M A), ref m m.
Proof. intros A m s. right. right. reflexivity. Qed.
Lemma ref_oof : forall {A} (m : M A), fu -> ref oof m.
Proof. intros A m F s. left. split; [exact F|reflexivity]. Qed.
Lemma ref_bind : forall {A B} (m m' : M A) (k k' : A -> M B), ref m m' -> (forall a, ref (k a) (k' a)) -> ref (bind m k) (bind m' k').
Proof.
  intros A B m m' k k' Hm Hk s. unfold bind. destruct (Hm s) as [[H0 H]|[[H0 H]|H]]; rewrite H; [left; auto|right; left; auto|].
  destruct (m' s); try (right; right; reflexivity). apply Hk.
Qed.

Create HintDb ref.
Hint Resolve ref_oof : ref.
Ltac rp :=
  repeat (cbv beta zeta;
    match goal with
    | |- ref ?m ?m => apply ref_refl
    | |- ref (bind _ _) (bind _ _) => apply ref_bind; [|intros]
    | |- ref (match ?x with _ => _ end) (match ?x with _ => _ end) => destruct x
    | |- ref _ _ => solve [auto with ref nocore]
    end); auto with ref.

(** ** Copies *)
Lemma deep_val_mono : forall via via' v, (forall i, via i = DOOF \/ via i = via' i) ->
  deep_val via v = DOOF \/ deep_val via v = deep_val via' v.
Proof.
  intros via via' v Hv. revert v.
  apply (v_ind (fun v => deep_val via v = DOOF \/ deep_val via v = deep_val via' v) (fun _ => True) (fun _ => True) (fun _ => True) (fun _ => True));
    try (intros; exact I); try (intros; right; reflexivity).
  - intros i. apply Hv.
  - intros l F. cbn [deep_val].
    assert (dmap_arr (deep_val via) l = inr DOOF \/ dmap_arr (deep_val via) l = dmap_arr (deep_val via') l) as [H|H]; [|rewrite H; auto|rewrite H; auto].
    induction F as [|x l Hx F IH]; [right; reflexivity|]. cbn [dmap_arr]. destruct Hx as [-> | ->]; [left; reflexivity|].
    destruct (deep_val via' x); [|right; reflexivity|right; reflexivity]. destruct IH as [-> | ->]; [left|right]; reflexivity.
  - intros l F. cbn [deep_val].
    assert (dmap_obj (deep_val via) l = inr DOOF \/ dmap_obj (deep_val via) l = dmap_obj (deep_val via') l) as [H|H]; [|rewrite H; auto|rewrite H; auto].
    induction F as [|[k x] l Hx F IH]; [right; reflexivity|]. cbn [dmap_obj]. cbn [snd] in Hx. destruct Hx as [-> | ->]; [left; reflexivity|].
    destruct (deep_val via' x); [|right; reflexivity|right; reflexivity]. destruct IH as [-> | ->]; [left|right]; reflexivity.
Qed.
Lemma deep_clone_mono : forall n n' st v, le_fuel n n' -> (fu /\ deep_clone n st v = DOOF) \/ deep_clone n st v = deep_clone n' st v.
Proof.
  intros n n' st v [<-|[F L]]; [right; reflexivity|]. enough (deep_clone n st v = DOOF \/ deep_clone n st v = deep_clone n' st v) as [H|H] by auto.
  clear F. revert n' st v L. induction n as [|n IH]; intros n' st v L; [destruct n'|destruct n' as [|n']; [lia|]]; cbn [deep_clone].
  - right. reflexivity.
  - apply deep_val_mono. auto.
  - apply deep_val_mono. intros i. destruct (nth_error st i); [apply IH; lia|auto].
Qed.
Lemma ref_deep : forall n n' v, le_fuel n n' -> ref (deep n v) (deep n' v).
Proof.
  intros n n' v L s. unfold deep. destruct (deep_clone_mono n n' (r_stack s) v L) as [[F ->] | ->]; [left; auto|right; right; reflexivity].
Qed.

Section Ev.
Context (l l' : lookup) (E0 : env) (ev ev' : expr -> side -> M res) (n n' : nat).
Let E := with_look l E0.
Let E' := with_look l' E0.
Hypothesis Hl : forall name sid, ref (find_slot E name sid) (find_slot E' name sid).
Hypothesis Hev : forall e sd, ref (ev e sd) (ev' e sd).
Hypothesis Hn : le_fuel n n'.
Hint Resolve Hl Hev : ref.

Lemma ref_vexpr : forall {R} e sd msg (leave leave' : option value -> M R) (k k' : value -> M R),
  (forall x, ref (leave x) (leave' x)) -> (forall x, ref (k x) (k' x)) -> ref (vexpr ev e sd msg leave k) (vexpr ev' e sd msg leave' k').
Proof. intros R e sd msg leave leave' k k' H1 H2. unfold vexpr. rp. Qed.
Ltac rv :=
  repeat (cbv beta zeta;
    match goal with
    | |- ref ?m ?m => apply ref_refl
    | |- ref (bind _ _) (bind _ _) => apply ref_bind; [|intros]
    | |- ref (vexpr _ _ _ _ _ _) (vexpr _ _ _ _ _ _) => apply ref_vexpr; intros
    | |- ref (match ?x with _ => _ end) (match ?x with _ => _ end) => destruct x
    | |- ref _ _ => solve [auto with ref nocore]
    end); auto with ref.

Lemma ref_deep_here : forall v, ref (deep n v) (deep n' v). Proof. intros. apply ref_deep. exact Hn. Qed.
Hint Resolve ref_deep_here : ref.
Lemma ref_block_go : forall es x, ref (block_go ev es x) (block_go ev' es x).
Proof. induction es as [|e es IH]; intros x; cbn [block_go]; rv. Qed.
Hint Resolve ref_block_go : ref.
Lemma ref_block : forall es, ref (block ev es) (block ev' es). Proof. intros. unfold block. rv. Qed.
Hint Resolve ref_block : ref.
Lemma ref_try_fun : forall e sd, ref (try_fun ev e sd) (try_fun ev' e sd). Proof. intros. unfold try_fun. rv. Qed.
Lemma ref_try_expr : forall e, ref (try_expr ev e) (try_expr ev' e).
Proof.
  intros e s. unfold try_expr. destruct (Hev e Right s) as [[H0 H]|[[H0 H]|H]]; rewrite H; [left; auto|right; left; auto|right; right; reflexivity].
Qed.
Lemma ref_swizzle : forall inds e, ref (swizzle ev inds e) (swizzle ev' inds e). Proof. intros. unfold swizzle. rv. Qed.
Lemma ref_link_go : forall es acc, ref (link_go ev es acc) (link_go ev' es acc).
Proof. induction es as [|e es IH]; intros acc; cbn [link_go]; rv. Qed.
Hint Resolve ref_link_go : ref.
Lemma ref_link : forall es, ref (link ev es) (link ev' es). Proof. intros. unfold link. rv. Qed.
Lemma ref_object : forall kvs acc, ref (object ev kvs acc) (object ev' kvs acc).
Proof. induction kvs as [|[k e] kvs IH]; intros acc; cbn [object]; rv. Qed.
Lemma ref_array : forall es acc, ref (array ev es acc) (array ev' es acc).
Proof. induction es as [|e es IH]; intros acc; cbn [array]; rv. Qed.
Lemma ref_array_fill : forall f m, ref (array_fill E ev f m) (array_fill E' ev' f m).
Proof. intros. unfold array_fill, E, E', with_look. cbn [e_alloc]. rv. Qed.
Lemma ref_push_ids : forall ids k k', ref k k' -> ref (push_ids ev ids k) (push_ids ev' ids k').
Proof. induction ids as [|[|e|] ids IH]; intros k k' Hk; cbn [push_ids]; rv. Qed.
Lemma ref_item : forall it sd, ref (item_ E ev it sd) (item_ E' ev' it sd).
Proof.
  intros [name sid cur tf ids tids] sd. unfold item_. apply ref_bind; [apply Hl|intros]. apply ref_bind; [rv|intros].
  cbv zeta. destruct ids; [rv|]. apply ref_bind; [rv|intros]. apply ref_push_ids. rv.
Qed.
Hint Resolve ref_item : ref.
Lemma ref_assign : forall op x y, ref (assign E ev op x y) (assign E' ev' op x y).
Proof.
  intros op x y. unfold assign. destruct op; try (apply ref_vexpr; intros; [rv|]; apply ref_vexpr; intros; [rv|];
    apply ref_bind; [rv|intros]; apply ref_bind; [rv|intros]; apply ref_bind; [rv|intros av];
    match goal with |- ref (match assign_val _ ?o ?a ?b with _ => _ end) _ => change (assign_val E o a b) with (assign_val E' o a b) end; rv).
  rv.
Qed.
Lemma ref_push_args : forall args k k', ref k k' -> ref (push_args ev args k) (push_args ev' args k').
Proof. induction args as [|e args IH]; intros k k' Hk; cbn [push_args]; rv. Qed.
Lemma ref_push_lazy : forall inv args i k k', ref k k' -> ref (push_lazy ev inv i args k) (push_lazy ev' inv i args k').
Proof. intros inv args. induction args as [|e args IH]; intros i k k' Hk; cbn [push_lazy]; rv. Qed.
Lemma ref_push_loaded : forall inv args i k k', ref k k' -> ref (push_loaded ev inv i args k) (push_loaded ev' inv i args k').
Proof. intros inv args. induction args as [|e args IH]; intros i k k' Hk; cbn [push_loaded]; rv. Qed.
Lemma ref_deep_all : forall vs, ref (deep_all n vs) (deep_all n' vs).
Proof. intros vs. induction vs as [|v vs IH]; cbn [deep_all]; rv. Qed.
Hint Resolve ref_deep_all : ref.
Lemma ref_send_args : forall fi st, ref (send_args n fi st) (send_args n' fi st).
Proof. intros. unfold send_args. rv. Qed.
Hint Resolve ref_send_args : ref.
Lemma ref_call_loaded : forall args z name loader, ref (call_loaded E ev n args z name loader) (call_loaded E' ev' n' args z name loader).
Proof.
  intros args z name loader. unfold call_loaded. apply ref_bind; [rv|intros top].
  cbv zeta. apply ref_bind; [rv|intros md]. unfold E at 1, E' at 1, with_look. cbn [e_mods].
  destruct (nth_error (e_mods E0) md) as [m|]; [|rv]. destruct (_ <? 0)%Z; [rv|].
  destruct (nth_error (m_funs m) _) as [f|]; [|rv].
  apply ref_bind; [rv|intros _]. do 3 (apply ref_bind; [rv|intros]).
  apply ref_push_loaded. change (caller_source E) with (caller_source E'). rv.
Qed.
Hint Resolve ref_call_loaded : ref.
Lemma ref_call_internal : forall f name args loader, ref (call_internal E ev n f name args loader) (call_internal E' ev' n' f name args loader).
Proof.
  intros f name args loader. destruct f; cbn [call_internal]; rv.
  - apply ref_push_args. apply ref_refl.
  - apply ref_push_args. apply ref_refl.
  - apply ref_push_lazy. apply ref_refl.
  - unfold call_binop, E, E', with_look. cbn [e_bin]. rv.
  - unfold call_unop, E, E', with_look. cbn [e_un]. rv.
Qed.
Lemma ref_expression_module : forall e md, ref (expression_module ev e md) (expression_module ev' e md).
Proof.
  intros e md s. unfold expression_module. destruct (Hev e Right (set_mod md s)) as [[H0 H]|[[H0 H]|H]]; rewrite H; [left; auto|right; left; auto|right; right; reflexivity].
Qed.
Hint Resolve ref_expression_module : ref.
Lemma ref_call_closure : forall it args, ref (call_closure E ev it args) (call_closure E' ev' it args).
Proof.
  intros it args. unfold call_closure. apply ref_bind; [rv|intros [[x|] fl]]; [|rv].
  destruct fl; try (rv; fail). apply ref_bind; [rv|intros v].
  destruct v; try (rv; fail). destruct c. destruct it. cbv zeta. destruct (Nat.eqb _ _); [|rv].
  do 4 (apply ref_bind; [rv|intros]). apply ref_push_loaded. rv.
Qed.
Lemma ref_go_args : forall args acc, ref (go_args ev n args acc) (go_args ev' n' args acc).
Proof. intros args. induction args as [|e args IH]; intros acc; cbn [go_args]; rv. Qed.
Hint Resolve ref_go_args : ref.
Lemma ref_go : forall name args, ref (go_ E ev n name args) (go_ E' ev' n' name args).
Proof. intros name args. unfold go_, E, E', with_look. cbn [e_mods]. rv. Qed.
Lemma ref_else_if : forall conds blocks eb, ref (else_if ev conds blocks eb) (else_if ev' conds blocks eb).
Proof. induction conds as [|c conds IH]; intros blocks eb; cbn [else_if]; rv. Qed.
Hint Resolve ref_else_if : ref.
Lemma ref_if : forall c tb conds blocks eb, ref (if_expr ev c tb conds blocks eb) (if_expr ev' c tb conds blocks eb).
Proof. intros. unfold if_expr. rv. Qed.
Lemma ref_push_comp_args : forall sd cap args k k', ref k k' -> ref (push_comp_args ev sd cap args k) (push_comp_args ev' sd cap args k').
Proof. intros sd cap args. induction args as [|e args IH]; intros k k' Hk; cbn [push_comp_args]; rv. Qed.
Lemma ref_vec4 : forall args sd, ref (vec4_ ev args sd) (vec4_ ev' args sd).
Proof. intros. unfold vec4_. apply ref_bind; [rv|intros]. apply ref_push_comp_args. apply ref_refl. Qed.
Lemma ref_mat4 : forall args sd, ref (mat4_ ev args sd) (mat4_ ev' args sd).
Proof. intros. unfold mat4_. apply ref_push_comp_args. apply ref_refl. Qed.

(** ** Loops *)
Lemma ref_loop : forall {A} k k' label st lc test (body body' : value -> A -> M (bstep A)) next a, le_fuel k k' ->
  (forall v a, ref (body v a) (body' v a)) -> ref (loop k label st lc test body next a) (loop k' label st lc test body' next a).
Proof.
  intros A k. induction k as [|k IH]; intros k' label st lc test body body' next a L H; [destruct (le_fuel_0 _ L) as [->|F]; [apply ref_refl|apply ref_oof, F]|].
  apply le_fuel_S in L. destruct L as [m [-> L]]. rename m into k'. pose proof (fun a => IH k' label st lc test body body' next a L H) as IH'. cbn [loop]. rv.
Qed.
Lemma ref_num_expr : forall {A} e (k k' : f64 -> M (lres A)), (forall x, ref (k x) (k' x)) -> ref (num_expr ev e k) (num_expr ev' e k').
Proof. intros. unfold num_expr. rv. Qed.
Lemma ref_for_n_core : forall {A} label name start stop (body body' : nat -> value -> A -> M (bstep A)) a,
  (forall st v a, ref (body st v a) (body' st v a)) -> ref (for_n_core ev n label name start stop body a) (for_n_core ev' n' label name start stop body' a).
Proof.
  intros A label name start stop body body' a H. unfold for_n_core. do 2 (apply ref_bind; [rv|intros]). cbv zeta.
  destruct start; [apply ref_num_expr; intros|]; (apply ref_num_expr; intros y; do 5 (apply ref_bind; [rv|intros]);
    apply ref_bind; [apply ref_loop; [exact Hn|auto]|intros]; rv).
Qed.
Lemma ref_for_in_core : forall {A} label name iter (body body' : nat -> value -> A -> M (bstep A)) a,
  (forall st v a, ref (body st v a) (body' st v a)) -> ref (for_in_core ev n label name iter body a) (for_in_core ev' n' label name iter body' a).
Proof.
  intros A label name iter body body' a H. unfold for_in_core. do 2 (apply ref_bind; [rv|intros]).
  apply ref_vexpr; intros; [rv|]. apply ref_bind; [rv|intros v]. destruct v; try (rv; fail).
  apply ref_bind; [rv|intros [m|]]; [|rv]. do 5 (apply ref_bind; [rv|intros]).
  apply ref_bind; [apply ref_loop; [exact Hn|auto]|intros]. rv.
Qed.
Lemma ref_block_body : forall {A} b (some : A -> value -> M (bstep A)) none a, ref (block_body ev b some none a) (block_body ev' b some none a).
Proof. intros. unfold block_body. rv. Qed.
Hint Resolve ref_block_body : ref.
Lemma ref_link_items : forall items acc, ref (link_items ev items acc) (link_items ev' items acc).
Proof. induction items as [|e items IH]; intros acc; cbn [link_items]; rv. Qed.
Hint Resolve ref_link_items : ref.
Lemma ref_sub_link_n : forall d d' label name start stop b a, le_fuel d d' ->
  ref (sub_link_n ev d n label name start stop b a) (sub_link_n ev' d' n' label name start stop b a).
Proof.
  induction d as [|d IH]; intros d' label name start stop b a L; [destruct (le_fuel_0 _ L) as [->|F]; [|destruct d']|apply le_fuel_S in L; destruct L as [m [-> L]]; rename m into d'];
    cbn [sub_link_n]; apply ref_for_n_core; intros; rv.
Qed.
Lemma ref_sub_link_in : forall d d' label name iter b a, le_fuel d d' ->
  ref (sub_link_in ev d n label name iter b a) (sub_link_in ev' d' n' label name iter b a).
Proof.
  induction d as [|d IH]; intros d' label name iter b a L; [destruct (le_fuel_0 _ L) as [->|F]; [|destruct d']|apply le_fuel_S in L; destruct L as [m [-> L]]; rename m into d'];
    cbn [sub_link_in]; (apply ref_bind; [apply ref_for_in_core; intros; rv|intros; rv]).
Qed.
Lemma ref_for_n : forall k label name start stop b, ref (for_n ev n k label name start stop b) (for_n ev' n' k label name start stop b).
Proof.
  intros k label name start stop b. destruct k; cbn [for_n]; (apply ref_bind; [|intros; apply ref_refl]);
    try (apply ref_sub_link_n; exact Hn); apply ref_for_n_core; intros; apply ref_block_body.
Qed.
Lemma ref_for_in : forall k label name iter b, ref (for_in ev n k label name iter b) (for_in ev' n' k label name iter b).
Proof.
  intros k label name iter b. destruct k; cbn [for_in]; try apply ref_refl; (apply ref_bind; [|intros; apply ref_refl]);
    try (apply ref_sub_link_in; exact Hn); apply ref_for_in_core; intros; apply ref_block_body.
Qed.
Lemma ref_for_loop : forall k k' label st lc cond step_ b, le_fuel k k' -> ref (for_loop ev k label st lc cond step_ b) (for_loop ev' k' label st lc cond step_ b).
Proof.
  induction k as [|k IH]; intros k' label st lc cond step_ b L; [destruct (le_fuel_0 _ L) as [->|F]; [apply ref_refl|apply ref_oof, F]|]. apply le_fuel_S in L. destruct L as [m [-> L]]. rename m into k'.
  pose proof (IH k' label st lc cond step_ b L) as IH'. cbn [for_loop]. rv.
Qed.
Lemma ref_for_expr : forall label init cond step_ b, ref (for_expr ev n label init cond step_ b) (for_expr ev' n' label init cond step_ b).
Proof. intros. unfold for_expr. pose proof (fun st lc => ref_for_loop n n' label st lc cond step_ b Hn) as H. rv. Qed.

(** ** Grab *)
Lemma ref_gbind : forall {A B} (m m' : M (gres A)) (k k' : A -> M (gres B)), ref m m' -> (forall a, ref (k a) (k' a)) -> ref (gbind m k) (gbind m' k').
Proof. intros. unfold gbind. rv. Qed.
Lemma ref_gmap_of : forall {A B} (P : A -> Prop) (f f' : A -> M (gres B)) l, Forall P l -> (forall x, P x -> ref (f x) (f' x)) -> ref (gmap f l) (gmap f' l).
Proof.
  intros A B P f f' l0 H Hf. induction H as [|x l0 Hx F IH]; cbn; [apply ref_refl|].
  apply ref_gbind; [auto|intros]. apply ref_gbind; [exact IH|intros]. apply ref_refl.
Qed.
Lemma ref_gopt : forall {A B} (f f' : A -> M (gres B)) o, (forall x, o = Some x -> ref (f x) (f' x)) -> ref (gopt f o) (gopt f' o).
Proof. intros A B f f' [x|] H; cbn [gopt]; [|apply ref_refl]. apply ref_gbind; [auto|intros; apply ref_refl]. Qed.

Let Ge (e : expr) : Prop := forall lv, ref (grab_expr ev n lv e) (grab_expr ev' n' lv e).
Let Gi (it : item) : Prop := forall lv, ref (grab_item ev n lv it) (grab_item ev' n' lv it).
Let Gx (i : idx) : Prop := forall lv, ref (grab_idx ev n lv i) (grab_idx ev' n' lv i).
Let Gc (c : closure) : Prop := forall lv, ref (grab_closure ev n lv c) (grab_closure ev' n' lv c).
Ltac kg := repeat first
  [ match goal with |- ref ?m ?m => apply ref_refl end
  | apply ref_gbind; [|intros]
  | match goal with
    | H : Forall _ ?l |- ref (gmap _ ?l) _ => eapply (ref_gmap_of _ _ _ _ H); intros
    | H : opt_all _ ?o |- ref (gopt _ ?o) _ => apply ref_gopt; intros; subst; cbn in H
    | H : Ge ?e |- ref (_ ?l ?e) _ => exact (H l)
    | H : Gi ?e |- ref (_ ?l ?e) _ => exact (H l)
    | H : Gx ?e |- ref (_ ?l ?e) _ => exact (H l)
    | H : Gc ?e |- ref (_ ?l ?e) _ => exact (H l)
    end ].
Lemma ref_grab : (forall v : value, True) /\ (forall e, Ge e) /\ (forall it, Gi it) /\ (forall i, Gx i) /\ (forall c, Gc c).
Proof.
  apply syntax_ind; auto; intros;
    match goal with |- True => exact I | |- Ge _ => intros lvg; cbn [grab_expr grab_item grab_idx grab_closure]
    | |- Gi _ => intros lvg; cbn [grab_expr grab_item grab_idx grab_closure] | |- Gx _ => intros lvg; cbn [grab_expr grab_item grab_idx grab_closure]
    | |- Gc _ => intros lvg; cbn [grab_expr grab_item grab_idx grab_closure] end; kg.
  - destruct x. kg.
  - destruct (Nat.eqb _ _); [|kg]. apply ref_vexpr; intros; [rv|]. apply ref_bind; [rv|intros; kg].
Qed.
Lemma ref_closure : forall c, ref (closure_ ev n c) (closure_ ev' n' c).
Proof. intros [args cur body]. unfold closure_. pose proof (proj1 (proj2 ref_grab)) as G. unfold Ge in G. rv. Qed.
Lemma ref_expression : forall e sd, ref (expression E ev n e sd) (expression E' ev' n' e sd).
Proof.
  intros e sd. destruct e; cbn [expression]; try (solve [rv]).
  - apply ref_link.
  - apply ref_object.
  - apply ref_array.
  - apply ref_array_fill.
  - apply ref_go.
  - apply ref_call_internal.
  - apply ref_assign.
  - apply ref_vec4.
  - apply ref_mat4.
  - apply ref_for_expr.
  - apply ref_for_n.
  - apply ref_for_in.
  - apply ref_if.
  - apply ref_try_fun.
  - apply ref_swizzle.
  - apply ref_closure.
  - apply ref_call_closure.
  - apply ref_try_expr.
  - change (in_expr E f) with (in_expr E' f). apply ref_refl.
Qed.
End Ev.

Lemma ref_eval : forall l l' E0, (forall name sid, ref (find_slot (with_look l E0) name sid) (find_slot (with_look l' E0) name sid)) ->
  forall n n' e sd, le_fuel n n' -> ref (eval (with_look l E0) n e sd) (eval (with_look l' E0) n' e sd).
Proof.
  intros l l' E0 H n. induction n as [|n IH]; intros n' e sd L; [destruct (le_fuel_0 _ L) as [->|F]; [apply ref_refl|apply ref_oof, F]|].
  apply le_fuel_S in L. destruct L as [m [-> L]]. cbn [eval]. apply ref_expression; [exact H| |exact L]. intros. apply IH. exact L.
Qed.
Lemma ref_entry : forall l l' E0, (forall name sid, ref (find_slot (with_look l E0) name sid) (find_slot (with_look l' E0) name sid)) ->
  forall n n' f name args loader, le_fuel n n' ->
  ref (call_internal (with_look l E0) (eval (with_look l E0) n) n f name args loader) (call_internal (with_look l' E0) (eval (with_look l' E0) n') n' f name args loader).
Proof. intros l l' E0 H n n' f name args loader L. apply ref_call_internal; [|exact L]. intros. apply ref_eval; auto. Qed.
Lemma ref_call : forall l l' E0, (forall name sid, ref (find_slot (with_look l E0) name sid) (find_slot (with_look l' E0) name sid)) ->
  forall n n' f name args md, le_fuel n n' -> ref (call_ (with_look l E0) n f name args md) (call_ (with_look l' E0) n' f name args md).
Proof.
  intros l l' E0 H n n' f name args md L s. unfold call_. cbv zeta.
  destruct (ref_entry l l' E0 H n n' f name args true L (set_mod md s)) as [[F ->]|[[F ->]| ->]]; [left; auto|right; left; auto|right; right; reflexivity].
Qed.
Lemma ref_run : forall l l' E0, (forall name sid, ref (find_slot (with_look l E0) name sid) (find_slot (with_look l' E0) name sid)) ->
  forall n n' md, le_fuel n n' -> ref (run (with_look l E0) n md) (run (with_look l' E0) n' md).
Proof.
  intros l l' E0 H n n' md L s. unfold run. change (e_mods (with_look l E0)) with (e_mods E0). change (e_mods (with_look l' E0)) with (e_mods E0).
  destruct (nth_error (e_mods E0) md) as [m|]; [|right; right; reflexivity]. destruct (find_function m "main" 0); try (right; right; reflexivity).
  destruct (nth_error (m_funs m) _) as [f|]; [|right; right; reflexivity]. destruct (fn_args f); [|right; right; reflexivity].
  destruct (ref_entry l l' E0 H n n' (FLoaded rel) "main" [] false L (set_mod md s)) as [[F ->]|[[F ->]| ->]]; [left; auto|right; left; auto|right; right; reflexivity].
Qed.
Lemma ref_call_str : forall l l' E0, (forall name sid, ref (find_slot (with_look l E0) name sid) (find_slot (with_look l' E0) name sid)) ->
  forall n n' name args md, le_fuel n n' -> ref (call_str (with_look l E0) n name args md) (call_str (with_look l' E0) n' name args md).
Proof.
  intros l l' E0 H n n' name args md L s. unfold call_str. change (e_mods (with_look l E0)) with (e_mods E0). change (e_mods (with_look l' E0)) with (e_mods E0).
  destruct (nth_error (e_mods E0) md) as [m|]; [|right; right; reflexivity]. destruct (find_function m name 0) as [|i|g|g|g|g|g]; try (right; right; reflexivity).
  apply (ref_bind _ _ _ _ (ref_call l l' E0 H n n' (FLoaded i) name (map EVar args) md L)). intros. apply ref_refl.
Qed.
Lemma ref_call_str_ret : forall l l' E0, (forall name sid, ref (find_slot (with_look l E0) name sid) (find_slot (with_look l' E0) name sid)) ->
  forall n n' name args md, le_fuel n n' -> ref (call_str_ret (with_look l E0) n name args md) (call_str_ret (with_look l' E0) n' name args md).
Proof.
  intros l l' E0 H n n' name args md L s. unfold call_str_ret. change (e_mods (with_look l E0)) with (e_mods E0). change (e_mods (with_look l' E0)) with (e_mods E0).
  destruct (nth_error (e_mods E0) md) as [m|]; [|right; right; reflexivity]. destruct (find_function m name 0) as [|i|g|g|g|g|g] eqn:F; try (right; right; reflexivity);
    match goal with |- context [call_ _ _ ?c _ _ _] => apply (ref_bind _ _ _ _ (ref_call l l' E0 H n n' c name (map EVar args) md L)) end; intros; apply ref_refl.
Qed.
Lemma ref_thread_run : forall l l' E0, (forall name sid, ref (find_slot (with_look l E0) name sid) (find_slot (with_look l' E0) name sid)) ->
  forall n n' sp, le_fuel n n' -> ref (thread_run (with_look l E0) n sp) (thread_run (with_look l' E0) n' sp).
Proof.
  intros l l' E0 H n n' sp L. unfold thread_run. apply ref_bind; [apply ref_entry; auto|intros]. apply ref_bind; [apply ref_refl|intros]. apply ref_deep, L.
Qed.
End Refine.

(** The checked lookup finds what each of the other two finds. *)
Lemma ref_checked : forall fu l E0 name sid, ref True fu (find_slot (with_look Checked E0) name sid) (find_slot (with_look l E0) name sid).
Proof.
  intros fu l E0 name sid s. unfold find_slot. cbn [with_look e_look]. destruct l; [| |right; right; reflexivity].
  - destruct (r_calls s) eqn:R; [right; right; unfold find_by_name; rewrite R; reflexivity|].
    destruct (find_by_name name sid s) as [i s1| | |] eqn:F; try (right; left; auto; fail).
    destruct (find_by_slot sid s) as [j s2| | |]; try (right; left; auto; fail). destruct (Nat.eqb i j); [|right; left; auto].
    right. right. unfold find_by_name in F. rewrite R in F. destruct (Nat.leb _ _); [|discriminate].
    destruct (assoc _ _); [|destruct (String.eqb _ _); discriminate]. destruct (Nat.leb _ _); [|discriminate].
    destruct sid; [destruct (Nat.eqb _ _)|]; congruence.
  - destruct (r_calls s) eqn:R; [right; right; unfold find_by_slot; rewrite R; reflexivity|].
    destruct (find_by_name name sid s) as [i s1| | |] eqn:F; try (right; left; auto; fail).
    destruct (find_by_slot sid s) as [j s2| | |] eqn:G; try (right; left; auto; fail). destruct (Nat.eqb_spec i j) as [->|]; [|right; left; auto].
    right. right. unfold find_by_slot in G. rewrite R in G. destruct (Nat.leb _ _); [|discriminate].
    destruct sid; [|discriminate]. destruct (Nat.leb _ _); congruence.
Qed.
Lemma with_look_same : forall E, with_look (e_look E) E = E.
Proof. intros []. reflexivity. Qed.

(** More fuel gives the same result. *)
Theorem eval_more : forall E n n' e sd s, n <= n' -> eval E n e sd s = OOF \/ eval E n' e sd s = eval E n e sd s.
Proof.
  intros E n n' e sd s L. pose proof (ref_eval False True (e_look E) (e_look E) E (fun _ _ => ref_refl _ _ _) n n' e sd (or_intror (conj I L)) s) as H.
  rewrite with_look_same in H. destruct H as [[_ H]|[[[] _]|H]]; auto.
Qed.
(** A run that does not clash under the checked lookup is the same under every lookup. *)
Theorem eval_look : forall l E n e sd s, eval (with_look Checked E) n e sd s <> Panic clash ->
  eval (with_look l E) n e sd s = eval (with_look Checked E) n e sd s.
Proof.
  intros l E n e sd s H. destruct (ref_eval True False Checked l E (ref_checked False l E) n n e sd (or_introl eq_refl) s) as [[[] _]|[[_ C]|C]]; [contradiction|auto].
Qed.
