(** * C10 to C14: loops. *)
From Coq Require Import String List ZArith Bool Arith Lia Floats.SpecFloat.
From Verif Require Import Float64 FloatProofs Syntax InterpModel WfSpec BalanceBase BalanceLoops ControlSpec LoopSpec Samples P_Control LoopProofs.
Import ListNotations.
Local Open Scope string_scope.
Local Open Scope nat_scope.
Local Open Scope list_scope.

(** ** All counting loops *)

Lemma gn_some : forall p t, gave_num p t -> p_val p <> None.
Proof. intros p t H. inversion H; subst. discriminate. Qed.
Lemma gb_some : forall p t, gave_bool p t -> p_val p <> None.
Proof. intros p t H. inversion H; subst. discriminate. Qed.
Lemma gv_some : forall p t, gave_vec p t -> p_val p <> None.
Proof. intros p t H. inversion H; subst. discriminate. Qed.
Lemma gr_some : forall p t, gave_raw p t -> p_val p <> None.
Proof. intros p t H. inversion H; subst. discriminate. Qed.
Lemma ga_some : forall p t, gave_any p t -> p_val p <> None.
Proof. intros p t H. exact H. Qed.
Lemma fold_map : forall {A B C} (f : A -> B -> A) (h : C -> B) l a,
  fold_left (fun a t => f a (h t)) l a = fold_left f (map h l) a.
Proof. induction l; simpl; auto. Qed.
Lemma fold_snoc : forall {B} (l a : list B), fold_left (fun a t => a ++ [t]) l a = a ++ l.
Proof. induction l as [|x l IH]; intros a; simpl; [rewrite app_nil_r; auto|]. rewrite IH, <- app_assoc. reflexivity. Qed.

Lemma hit_iff : forall want v sec, hit want (VBool v sec) <-> v = want.
Proof. intros want v sec. split; [intros (s & H); inversion H; auto|intros ->; exists sec; auto]. Qed.

(** The passes of a counting loop of kind [k] with body [b] at heights [st], [lc] up to [z]. *)
Definition passes (E : env) (n : nat) (k : loopk) (label : option string) (b : list expr) (st lc : nat) (z : f64) :=
  iterates (runs (eval E (S n) (EBlock b) Right)) (halt_of k) label
    (count_more st z) (count_over st z) (count_pos st) (count_next_pass st lc).
(** The same for a loop over channel [ch]. *)
Definition receives (E : env) (n : nat) (k : loopk) (label : option string) (b : list expr) (st lc ch : nat) :=
  iterates (runs (eval E (S n) (EBlock b) Right)) (halt_of k) label
    (fun _ => True) (fun _ => False) (in_pos st) (in_next_pass st lc ch).

(** Whatever a counting loop returns is what the passes it ran give, and nothing else changes. *)
Theorem loop_passes : forall E n k label name start stop b sd s r fl s',
  k <> KLink ->
  eval E (S n) (EForN k label name start stop b) sd s = Ok (r, fl) s' -> fl <> FReturn ->
  exists x z s1 log s2,
    range (fun e => eval E n e Right) start stop s x z s1 /\
    passes E n k label b (S (length (r_stack s1))) (S (length (r_locals s1))) z
      (started name (VF64 x None) s1) log fl s2 /\
    loop_value false k log r /\ s' = back_to s s2.
Proof.
  intros E n k label name start stop b sd s r fl s' Hk H Hfl.
  change (for_n (eval E n) n k label name start stop b s = Ok (r, fl) s') in H.
  destruct k; [| | | | | | | |congruence| |]; unfold for_n in H.
  - apply (kind_count_sound true gave_any (fun a t a' => a' = a) never ga_some _ for_f) in H; auto.
    destruct H as (x & z & s1 & log & s2 & l & a' & H1 & H2 & H3 & H4 & H5 & H6).
    exists x, z, s1, log, s2. splits; auto. rewrite H5. constructor.
  - apply (kind_count_sound false gave_num _ never gn_some _ (num_f false fadd)) in H; auto.
    destruct H as (x & z & s1 & log & s2 & l & a' & H1 & H2 & H3 & H4 & H5 & H6).
    exists x, z, s1, log, s2. splits; auto. rewrite H5. apply chain_fold in H4. rewrite fold_map in H4. subst a'.
    apply (Lv_sum false log l H3).
  - apply (kind_count_sound false gave_num _ never gn_some _ (num_f false fmul)) in H; auto.
    destruct H as (x & z & s1 & log & s2 & l & a' & H1 & H2 & H3 & H4 & H5 & H6).
    exists x, z, s1, log, s2. splits; auto. rewrite H5. apply chain_fold in H4. rewrite fold_map in H4. subst a'.
    apply (Lv_prod false log l H3).
  - apply (kind_count_sound false gave_num _ never gn_some _ (best_f (fun m x => flt x m))) in H; auto.
    destruct H as (x & z & s1 & log & s2 & l & [m sec] & H1 & H2 & H3 & H4 & H5 & H6).
    exists x, z, s1, log, s2. splits; auto. rewrite H5. apply (Lv_min false log l m sec H3). apply min_chain. exact H4.
  - apply (kind_count_sound false gave_num _ never gn_some _ (best_f (fun m x => flt m x))) in H; auto.
    destruct H as (x & z & s1 & log & s2 & l & [m sec] & H1 & H2 & H3 & H4 & H5 & H6).
    exists x, z, s1, log, s2. splits; auto. rewrite H5. apply (Lv_max false log l m sec H3). apply max_chain. exact H4.
  - apply (kind_count_sound false gave_raw _ never gr_some _ sift_f) in H; auto.
    destruct H as (x & z & s1 & log & s2 & l & a' & H1 & H2 & H3 & H4 & H5 & H6).
    exists x, z, s1, log, s2. splits; auto. rewrite H5. apply chain_fold in H4. rewrite fold_snoc in H4. subst a'. apply (Lv_sift false log l H3).
  - apply (kind_count_sound false gave_bool _ (hit true) gb_some _ (find_f true)) in H; auto.
    destruct H as (x & z & s1 & log & s2 & l & [m sec] & H1 & H2 & H3 & H4 & H5 & H6).
    exists x, z, s1, log, s2. splits; auto. rewrite H5. apply (Lv_any false log l m sec H3). apply find_chain; auto.
    eapply (halted _ _ _ _ _ _ _ _ _ _ _ true l (hit_iff true) H2 H3).
  - apply (kind_count_sound false gave_bool _ (hit false) gb_some _ (find_f false)) in H; auto.
    destruct H as (x & z & s1 & log & s2 & l & [m sec] & H1 & H2 & H3 & H4 & H5 & H6).
    exists x, z, s1, log, s2. splits; auto. rewrite H5. apply (Lv_all false log l m sec H3). apply find_chain; auto.
    eapply (halted _ _ _ _ _ _ _ _ _ _ _ false l (hit_iff false) H2 H3).
  - apply (kind_count_sound false gave_vec _ never gv_some _ (vec_f gadd)) in H; auto.
    destruct H as (x & z & s1 & log & s2 & l & a' & H1 & H2 & H3 & H4 & H5 & H6).
    exists x, z, s1, log, s2. splits; auto. rewrite H5. apply chain_fold in H4. subst a'. apply (Lv_sumv false log l H3).
  - apply (kind_count_sound false gave_vec _ never gv_some _ (vec_f gmul)) in H; auto.
    destruct H as (x & z & s1 & log & s2 & l & a' & H1 & H2 & H3 & H4 & H5 & H6).
    exists x, z, s1, log, s2. splits; auto. rewrite H5. apply chain_fold in H4. subst a'. apply (Lv_prodv false log l H3).
Qed.
Print Assumptions loop_passes.

(** The same for loops over a channel; if nothing can be received there is no value at all. *)
Theorem loop_receives : forall E n k label name iter b sd s r fl s',
  k <> KLink ->
  eval E (S n) (EForIn k label name iter b) sd s = Ok (r, fl) s' -> fl <> FReturn ->
  (exists x ch, eval E n iter Right s = Ok (Some x, FContinue) s' /\ denotes s' x (VIn ch) /\
     empty_queue ch s' /\ r = None /\ fl = FContinue) \/
  exists x s0 ch m s1 log s2,
    eval E n iter Right s = Ok (Some x, FContinue) s0 /\ denotes s0 x (VIn ch) /\ taken ch s0 m s1 /\
    receives E n k label b (S (length (r_stack s1))) (S (length (r_locals s1))) ch (started name m s1) log fl s2 /\
    loop_value true k log r /\ s' = back_to s s2.
Proof.
  intros E n k label name iter b sd s r fl s' Hk H Hfl.
  change (for_in (eval E n) n k label name iter b s = Ok (r, fl) s') in H.
  destruct k; [| | | | | | | |congruence|discriminate|discriminate]; unfold for_in in H.
  - apply (kind_in_sound true gave_any (fun a t a' => a' = a) never ga_some _ for_f) in H; auto.
    destruct H as [H|(x & s0 & ch & m0 & s1 & log & s2 & l & a' & H1 & H7 & H8 & H2 & H3 & H4 & H5 & H6)]; [left; exact H|right].
    exists x, s0, ch, m0, s1, log, s2. splits; auto. rewrite H5. constructor.
  - apply (kind_in_sound true gave_num _ never gn_some _ (num_f true fadd)) in H; auto.
    destruct H as [H|(x & s0 & ch & m0 & s1 & log & s2 & l & a' & H1 & H7 & H8 & H2 & H3 & H4 & H5 & H6)]; [left; exact H|right].
    exists x, s0, ch, m0, s1, log, s2. splits; auto. rewrite H5. apply chain_fold in H4. rewrite fold_map in H4. subst a'.
    apply (Lv_sum true log l H3).
  - apply (kind_in_sound true gave_num _ never gn_some _ (num_f true fmul)) in H; auto.
    destruct H as [H|(x & s0 & ch & m0 & s1 & log & s2 & l & a' & H1 & H7 & H8 & H2 & H3 & H4 & H5 & H6)]; [left; exact H|right].
    exists x, s0, ch, m0, s1, log, s2. splits; auto. rewrite H5. apply chain_fold in H4. rewrite fold_map in H4. subst a'.
    apply (Lv_prod true log l H3).
  - apply (kind_in_sound false gave_num _ never gn_some _ (best_f (fun m x => flt x m))) in H; auto.
    destruct H as [H|(x & s0 & ch & m0 & s1 & log & s2 & l & [m sec] & H1 & H7 & H8 & H2 & H3 & H4 & H5 & H6)]; [left; exact H|right].
    exists x, s0, ch, m0, s1, log, s2. splits; auto. rewrite H5. apply (Lv_min true log l m sec H3). apply min_chain. exact H4.
  - apply (kind_in_sound false gave_num _ never gn_some _ (best_f (fun m x => flt m x))) in H; auto.
    destruct H as [H|(x & s0 & ch & m0 & s1 & log & s2 & l & [m sec] & H1 & H7 & H8 & H2 & H3 & H4 & H5 & H6)]; [left; exact H|right].
    exists x, s0, ch, m0, s1, log, s2. splits; auto. rewrite H5. apply (Lv_max true log l m sec H3). apply max_chain. exact H4.
  - apply (kind_in_sound false gave_raw _ never gr_some _ sift_f) in H; auto.
    destruct H as [H|(x & s0 & ch & m0 & s1 & log & s2 & l & a' & H1 & H7 & H8 & H2 & H3 & H4 & H5 & H6)]; [left; exact H|right].
    exists x, s0, ch, m0, s1, log, s2. splits; auto. rewrite H5. apply chain_fold in H4. rewrite fold_snoc in H4. subst a'. apply (Lv_sift true log l H3).
  - apply (kind_in_sound false gave_bool _ (hit true) gb_some _ (find_f true)) in H; auto.
    destruct H as [H|(x & s0 & ch & m0 & s1 & log & s2 & l & [m sec] & H1 & H7 & H8 & H2 & H3 & H4 & H5 & H6)]; [left; exact H|right].
    exists x, s0, ch, m0, s1, log, s2. splits; auto. rewrite H5. apply (Lv_any true log l m sec H3). apply find_chain; auto.
    eapply (halted _ _ _ _ _ _ _ _ _ _ _ true l (hit_iff true) H2 H3).
  - apply (kind_in_sound false gave_bool _ (hit false) gb_some _ (find_f false)) in H; auto.
    destruct H as [H|(x & s0 & ch & m0 & s1 & log & s2 & l & [m sec] & H1 & H7 & H8 & H2 & H3 & H4 & H5 & H6)]; [left; exact H|right].
    exists x, s0, ch, m0, s1, log, s2. splits; auto. rewrite H5. apply (Lv_all true log l m sec H3). apply find_chain; auto.
    eapply (halted _ _ _ _ _ _ _ _ _ _ _ false l (hit_iff false) H2 H3).
Qed.
Print Assumptions loop_receives.

(** ** Every such list of passes is run

    If the passes give values of the right type, the loop succeeds (given enough fuel). *)
Definition typed (skip : bool) (k : loopk) (log : list pass) : Prop :=
  match k with
  | KFor => True
  | KSum | KProd => exists l, gives skip gave_num log l
  | KMin | KMax => exists l, gives false gave_num log l
  | KAny | KAll => exists l, gives false gave_bool log l
  | KSift => exists l, gives false gave_raw log l
  | KSumVec4 | KProdVec4 => exists l, gives false gave_vec log l
  | KLink => False
  end.

Lemma chain_f : forall {A B} (f : A -> B -> A) l a, chain (fun a t a' => a' = f a t) a l (fold_left f l a).
Proof. intros. apply chain_fold. reflexivity. Qed.
Lemma gives_any : forall log, exists l, gives true gave_any log l.
Proof.
  intros log. induction log as [|p log (l & IH)]; [exists []; constructor|]. unfold gives in *. simpl. unfold counted at 1.
  destruct (p_flow p), (p_val p) eqn:V; eauto. exists (tt :: l). constructor; auto. unfold gave_any. congruence.
Qed.
Lemma chain_any : forall {A B} (l : list B) (a : A), chain (fun a _ a' => a' = a) a l a.
Proof. induction l; intros; econstructor; eauto. Qed.
Lemma chain_best : forall better l a, Forall (fun e => fst (fst e) <> None) l -> exists a', chain (Rbest better) a l a'.
Proof.
  intros better l a H. revert a. induction H as [|[[i y] sc] l Hi H IH]; intros a; [eexists; constructor|].
  simpl in Hi. destruct i as [i|]; [|congruence].
  destruct (fis_nan (fst a) || better (fst a) y) eqn:Q.
  - destruct (IH (y, add_ind sc i)) as (a' & C). exists a'. econstructor; eauto. unfold Rbest, number. simpl. rewrite Q. eauto.
  - destruct (IH a) as (a' & C). exists a'. econstructor; eauto. unfold Rbest, number. simpl. rewrite Q. auto.
Qed.
Lemma chain_find : forall want l a, Forall (fun e => fst (fst e) <> None) l -> exists a', chain (Rfind want) a l a'.
Proof.
  intros want l a H. revert a. induction H as [|[[i y] sc] l Hi H IH]; intros a; [eexists; constructor|].
  simpl in Hi. destruct i as [i|]; [|congruence].
  destruct (Bool.eqb y want) eqn:Q.
  - destruct (IH (want, add_ind sc i)) as (a' & C). exists a'. econstructor; eauto. unfold Rfind. simpl. rewrite Q. eauto.
  - destruct (IH a) as (a' & C). exists a'. econstructor; eauto. unfold Rfind. simpl. rewrite Q. auto.
Qed.
Lemma pos_num : forall log l, Forall (fun p => p_ind p <> None) log -> gives false gave_num log l ->
  Forall (fun e => fst (fst e) <> None) l.
Proof.
  unfold gives. induction log as [|p log IH]; intros l HP H; inversion HP; subst; simpl in H.
  - inversion H; subst. constructor.
  - destruct (counted false p); auto. inversion H as [|p0 e0 ps0 es0 G0 F0]; subst. constructor; auto. inversion G0; subst. auto.
Qed.
Lemma pos_bool : forall log l, Forall (fun p => p_ind p <> None) log -> gives false gave_bool log l ->
  Forall (fun e => fst (fst e) <> None) l.
Proof.
  unfold gives. induction log as [|p log IH]; intros l HP H; inversion HP; subst; simpl in H.
  - inversion H; subst. constructor.
  - destruct (counted false p); auto. inversion H as [|p0 e0 ps0 es0 G0 F0]; subst. constructor; auto. inversion G0; subst. auto.
Qed.
Lemma count_positions : forall E n k label b st lc z s log fl s', passes E n k label b st lc z s log fl s' ->
  Forall (fun p => p_ind p <> None) log.
Proof.
  intros E n k label b st lc z s log fl s' H. unfold passes in H.
  assert (forall s s1, count_more st z s -> count_pos st s s1 <> None) as HP.
  { intros s0 s1 (x & C & _). unfold count_pos. rewrite C. discriminate. }
  induction H; repeat (constructor; eauto).
Qed.

Theorem loop_passes_run : forall E n k label name start stop b sd s x z s1 log fl s2,
  range (fun e => eval E n e Right) start stop s x z s1 ->
  passes E n k label b (S (length (r_stack s1))) (S (length (r_locals s1))) z
    (started name (VF64 x None) s1) log fl s2 ->
  typed false k log -> length log < n ->
  exists r, eval E (S n) (EForN k label name start stop b) sd s = Ok (r, fl) (back_to s s2).
Proof.
  intros E n k label name start stop b sd s x z s1 log fl s2 Hr Hi Ht Hl. pose proof (count_positions _ _ _ _ _ _ _ _ _ _ _ _ Hi) as HP.
  change (exists r, for_n (eval E n) n k label name start stop b s = Ok (r, fl) (back_to s s2)).
  destruct k; unfold for_n; simpl in Ht; [| | | | | | | |contradiction| |]; try destruct Ht as (l & Hg).
  - destruct (gives_any log) as (l & Hg). eexists.
    exact (kind_count_complete true gave_any (fun a _ a' => a' = a) never ga_some _ for_f E n label name b tt (fun _ => None) start stop s x z s1 log fl s2 l _ Hr Hi Hg (chain_any l tt) Hl).
  - eexists.
    exact (kind_count_complete false gave_num (fun a t a' => a' = fadd a (number t)) never gn_some _ (num_f false fadd) E n label name b f0 fin_num start stop s x z s1 log fl s2 l _ Hr Hi Hg (chain_f (fun a t => fadd a (number t)) l f0) Hl).
  - eexists.
    exact (kind_count_complete false gave_num (fun a t a' => a' = fmul a (number t)) never gn_some _ (num_f false fmul) E n label name b f1 fin_num start stop s x z s1 log fl s2 l _ Hr Hi Hg (chain_f (fun a t => fmul a (number t)) l f1) Hl).
  - destruct (chain_best (fun m x => flt x m) l (fnan, None) (pos_num _ _ HP Hg)) as (a' & Hc). eexists.
    exact (kind_count_complete false gave_num (Rbest (fun m x => flt x m)) never gn_some _ (best_f (fun m x => flt x m)) E n label name b (fnan, None) fin_best start stop s x z s1 log fl s2 l _ Hr Hi Hg Hc Hl).
  - destruct (chain_best (fun m x => flt m x) l (fnan, None) (pos_num _ _ HP Hg)) as (a' & Hc). eexists.
    exact (kind_count_complete false gave_num (Rbest (fun m x => flt m x)) never gn_some _ (best_f (fun m x => flt m x)) E n label name b (fnan, None) fin_best start stop s x z s1 log fl s2 l _ Hr Hi Hg Hc Hl).
  - eexists.
    exact (kind_count_complete false gave_raw (fun a t a' => a' = a ++ [t]) never gr_some _ sift_f E n label name b [] (fun a => Some (VArray a)) start stop s x z s1 log fl s2 l _ Hr Hi Hg (chain_f (fun a t => a ++ [t]) l []) Hl).
  - destruct (chain_find true l (false, None) (pos_bool _ _ HP Hg)) as (a' & Hc). eexists.
    exact (kind_count_complete false gave_bool (Rfind true) (hit true) gb_some _ (find_f true) E n label name b (false, None) fin_find start stop s x z s1 log fl s2 l _ Hr Hi Hg Hc Hl).
  - destruct (chain_find false l (true, None) (pos_bool _ _ HP Hg)) as (a' & Hc). eexists.
    exact (kind_count_complete false gave_bool (Rfind false) (hit false) gb_some _ (find_f false) E n label name b (true, None) fin_find start stop s x z s1 log fl s2 l _ Hr Hi Hg Hc Hl).
  - eexists.
    exact (kind_count_complete false gave_vec (fun a t a' => a' = vmap2 gadd a t) never gv_some _ (vec_f gadd) E n label name b (splat (S754_zero false)) (fun a => Some (VVec4 a)) start stop s x z s1 log fl s2 l _ Hr Hi Hg (chain_f (vmap2 gadd) l (splat (S754_zero false))) Hl).
  - eexists.
    exact (kind_count_complete false gave_vec (fun a t a' => a' = vmap2 gmul a t) never gv_some _ (vec_f gmul) E n label name b (splat (g_of_Z 1)) (fun a => Some (VVec4 a)) start stop s x z s1 log fl s2 l _ Hr Hi Hg (chain_f (vmap2 gmul) l (splat (g_of_Z 1))) Hl).
Qed.
Print Assumptions loop_passes_run.

Theorem loop_receives_run : forall E n k label name iter b sd s x s0 ch m s1 log fl s2,
  eval E n iter Right s = Ok (Some x, FContinue) s0 -> denotes s0 x (VIn ch) -> taken ch s0 m s1 ->
  receives E n k label b (S (length (r_stack s1))) (S (length (r_locals s1))) ch (started name m s1) log fl s2 ->
  typed true k log -> Forall (fun p => p_ind p <> None) log -> k <> KSumVec4 -> k <> KProdVec4 -> length log < n ->
  exists r, eval E (S n) (EForIn k label name iter b) sd s = Ok (r, fl) (back_to s s2).
Proof.
  intros E n k label name iter b sd s x s0 ch m s1 log fl s2 Hx Hd Htk Hi Ht HP Hk1 Hk2 Hl.
  change (exists r, for_in (eval E n) n k label name iter b s = Ok (r, fl) (back_to s s2)).
  destruct k; unfold for_in; simpl in Ht; [| | | | | | | |contradiction|congruence|congruence]; try destruct Ht as (l & Hg).
  - destruct (gives_any log) as (l & Hg). eexists.
    exact (kind_in_complete true gave_any (fun a _ a' => a' = a) never ga_some _ for_f E n label name b tt (fun _ => None) iter s x s0 ch m s1 log fl s2 l _ Hx Hd Htk Hi Hg (chain_any l tt) Hl).
  - eexists.
    exact (kind_in_complete true gave_num (fun a t a' => a' = fadd a (number t)) never gn_some _ (num_f true fadd) E n label name b f0 fin_num iter s x s0 ch m s1 log fl s2 l _ Hx Hd Htk Hi Hg (chain_f (fun a t => fadd a (number t)) l f0) Hl).
  - eexists.
    exact (kind_in_complete true gave_num (fun a t a' => a' = fmul a (number t)) never gn_some _ (num_f true fmul) E n label name b f1 fin_num iter s x s0 ch m s1 log fl s2 l _ Hx Hd Htk Hi Hg (chain_f (fun a t => fmul a (number t)) l f1) Hl).
  - destruct (chain_best (fun m x => flt x m) l (fnan, None) (pos_num _ _ HP Hg)) as (a' & Hc). eexists.
    exact (kind_in_complete false gave_num (Rbest (fun m x => flt x m)) never gn_some _ (best_f (fun m x => flt x m)) E n label name b (fnan, None) fin_best iter s x s0 ch m s1 log fl s2 l _ Hx Hd Htk Hi Hg Hc Hl).
  - destruct (chain_best (fun m x => flt m x) l (fnan, None) (pos_num _ _ HP Hg)) as (a' & Hc). eexists.
    exact (kind_in_complete false gave_num (Rbest (fun m x => flt m x)) never gn_some _ (best_f (fun m x => flt m x)) E n label name b (fnan, None) fin_best iter s x s0 ch m s1 log fl s2 l _ Hx Hd Htk Hi Hg Hc Hl).
  - eexists.
    exact (kind_in_complete false gave_raw (fun a t a' => a' = a ++ [t]) never gr_some _ sift_f E n label name b [] (fun a => Some (VArray a)) iter s x s0 ch m s1 log fl s2 l _ Hx Hd Htk Hi Hg (chain_f (fun a t => a ++ [t]) l []) Hl).
  - destruct (chain_find true l (false, None) (pos_bool _ _ HP Hg)) as (a' & Hc). eexists.
    exact (kind_in_complete false gave_bool (Rfind true) (hit true) gb_some _ (find_f true) E n label name b (false, None) fin_find iter s x s0 ch m s1 log fl s2 l _ Hx Hd Htk Hi Hg Hc Hl).
  - destruct (chain_find false l (true, None) (pos_bool _ _ HP Hg)) as (a' & Hc). eexists.
    exact (kind_in_complete false gave_bool (Rfind false) (hit false) gb_some _ (find_f false) E n label name b (true, None) fin_find iter s x s0 ch m s1 log fl s2 l _ Hx Hd Htk Hi Hg Hc Hl).
Qed.
Print Assumptions loop_receives_run.

(** ** C10 *)

(** The body did not assign the loop variable. *)
Definition keeps (st : nat) (log : list pass) : Prop :=
  Forall (fun p => p_ind p = option_map (fun x => VF64 x None) (counter st (p_after p))) log.
Definition indices (l : list f64) : list (option value) := map (fun x => Some (VF64 x None)) l.

Lemma counter_next : forall st lc s s2 x, 0 < st -> counter st s = Some x -> count_next_pass st lc s (Some s2) ->
  counter st s2 = Some (fadd x f1).
Proof.
  intros st lc s s2 x Hst C (y & sec & N & Hs). inversion Hs; subst. unfold counter in *. rewrite N in C. inversion C; subst.
  simpl. assert (st - 1 < length (r_stack s)) by (apply nth_error_Some; congruence).
  assert (forall (l : list value) i v, i < length l -> nth_error (list_set i v l) i = Some v) as HL.
  { clear. induction l as [|w l IH]; intros [|i] v H; simpl in *; try lia; auto. apply IH. lia. }
  assert (forall (l : list value) i k, i < k -> nth_error (firstn k l) i = nth_error l i) as HF.
  { clear. induction l as [|w l IH]; intros i k H; [rewrite firstn_nil; auto|]. destruct k; [lia|]. destruct i; simpl; auto. apply IH. lia. }
  rewrite HF by lia. rewrite HL by lia. reflexivity.
Qed.

(** The passes see [x], [x + 1], ... in this order, all below the end; if no pass broke the loop,
    exactly the numbers below the end. *)
Theorem C10_order_partial : forall E n k label b st lc z s log fl s' x,
  0 < st -> passes E n k label b st lc z s log fl s' -> counter st s = Some x -> keeps st log ->
  exists l, map p_ind log = indices l /\ counts_upto z x l /\
    (halt_of k = halt_of KFor ->
     Forall (fun p => p_flow p = FContinue \/ (acts_on label (p_flow p) /\ exists l, p_flow p = FContinueLoop l)) log ->
     counts z x l).
Proof.
  intros E n k label b st lc z s log fl s' x Hst H. unfold passes in H. revert x.
  assert (forall s0 s1 x, counter st s0 = Some x -> count_pos st s0 s1 = Some (VF64 x None)) as HP.
  { intros s0 s1 x C. unfold count_pos. rewrite C. reflexivity. }
  assert (forall s0 x, counter st s0 = Some x -> count_more st z s0 -> flt x z = true) as HM.
  { intros s0 x C (y & C2 & F). congruence. }
  assert (forall s0 s1 x, counter st s0 = Some x -> count_pos st s0 s1 = option_map (fun x => VF64 x None) (counter st s1) -> counter st s1 = Some x) as HK.
  { intros s0 s1 x C K. rewrite (HP _ _ _ C) in K. destruct (counter st s1); inversion K. reflexivity. }
  induction H; intros x C K; try (inversion K; subst; simpl in *).
  - exists []. split; auto. split; [constructor|]. intros _ _. constructor. destruct H as (y & C2 & F). congruence.
  - destruct (IHiterates (fadd x f1)) as (l & I1 & I2 & I3); auto.
    { eapply (counter_next st lc s1); eauto. }
    exists (x :: l). unfold indices in *. simpl. rewrite I1, (HP _ _ _ C). split; auto. split; [constructor; eauto|].
    intros Hk HF. inversion HF; subst. constructor; eauto.
  - destruct H2 as (? & ? & _ & ?). discriminate.
  - exists [x]. unfold indices. simpl. rewrite (HP _ _ _ C). split; auto. split; [constructor; [eauto|constructor]|].
    intros Hk. exfalso. rewrite Hk in H1. destruct H1 as (w & _ & []).
  - destruct (IHiterates (fadd x f1)) as (l' & I1 & I2 & I3); auto.
    { eapply (counter_next st lc s1); eauto. }
    exists (x :: l'). unfold indices in *. simpl. rewrite I1, (HP _ _ _ C). split; auto. split; [constructor; eauto|].
    intros Hk HF. inversion HF; subst. constructor; eauto.
  - destruct H2 as (? & ? & _ & ?). discriminate.
  - exists [x]. unfold indices. simpl. rewrite (HP _ _ _ C). split; auto. split; [constructor; [eauto|constructor]|].
    intros Hk HF. inversion HF as [|p0 ps0 [F0|[_ (l0 & F0)]] _]; discriminate.
  - exists [x]. unfold indices. simpl. rewrite (HP _ _ _ C). split; auto. split; [constructor; [eauto|constructor]|].
    intros Hk HF. inversion HF as [|p0 ps0 [F0|[A0 _]] _]; subst; simpl in *; congruence.
Qed.
Print Assumptions C10_order_partial.

(** Integers up to 2^53: exactly the integers from [a] to [b - 1]. *)
Fixpoint up (a : Z) (k : nat) : list f64 := match k with O => [] | S k => f_of_Z a :: up (a + 1) k end.
Theorem C10_integers : forall a b l, (- 2 ^ 53 <= a <= 2 ^ 53)%Z -> (- 2 ^ 53 <= b <= 2 ^ 53)%Z ->
  (counts (f_of_Z b) (f_of_Z a) l <-> l = up a (Z.to_nat (b - a))).
Proof.
  intros a b l Ha Hb. remember (Z.to_nat (b - a)) as k eqn:Hk. revert a l Ha Hk. induction k as [|k IH]; intros a l Ha Hk.
  - assert (flt (f_of_Z a) (f_of_Z b) = false) as F by (rewrite flt_int by auto; apply Z.ltb_ge; lia).
    split; intros H; [inversion H; subst; auto; congruence|subst; constructor; auto].
  - assert (flt (f_of_Z a) (f_of_Z b) = true) as F by (rewrite flt_int by auto; apply Z.ltb_lt; lia).
    assert (fadd (f_of_Z a) f1 = f_of_Z (a + 1)) as A by (apply fadd_int; unfold small_int; lia).
    specialize (IH (a + 1)%Z). split; intros H.
    + inversion H; subst; [congruence|]. rewrite A in *. simpl. f_equal. apply IH; auto; lia.
    + subst. simpl. constructor; auto. rewrite A. apply IH; auto; lia.
Qed.
Print Assumptions C10_integers.
Lemma up_length : forall k a, length (up a k) = k.
Proof. induction k; simpl; auto. Qed.

(** And it does terminate: if from every state of an invariant [P] the body succeeds, keeps the
    loop variable and [P], then the loop runs to its end in [b - a] passes. *)
Theorem C10_terminates : forall E n k label bd st lc (P : rt -> Prop) a b,
  0 < st -> (- 2 ^ 53 <= a <= 2 ^ 53)%Z -> (- 2 ^ 53 <= b <= 2 ^ 53)%Z -> halt_of k = halt_of KFor ->
  (forall s x, P s -> counter st s = Some x -> exists r s1,
     eval E (S n) (EBlock bd) Right s = Ok (r, FContinue) s1 /\ counter st s1 = Some x /\
     (forall s2, count_next_pass st lc s1 (Some s2) -> P s2)) ->
  forall s, P s -> counter st s = Some (f_of_Z a) ->
  exists log s', passes E n k label bd st lc (f_of_Z b) s log FContinue s' /\
    length log = Z.to_nat (b - a) /\ map p_ind log = indices (up a (Z.to_nat (b - a))).
Proof.
  intros E n k label bd st lc P a b Hst Ha Hb Hk HB s. remember (Z.to_nat (b - a)) as m eqn:Hm. revert a s Ha Hm.
  induction m as [|m IH]; intros a s Ha Hm HPs C.
  - exists [], s. split; auto. apply It_over. exists (f_of_Z a). split; auto. rewrite flt_int by auto. apply Z.ltb_ge. lia.
  - destruct (HB s (f_of_Z a) HPs C) as (r & s1 & Hr & C1 & HP1).
    assert (exists y sec, nth_error (r_stack s1) (st - 1) = Some (VF64 y sec)) as (y & sec & Hy).
    { unfold counter in C1. destruct (nth_error (r_stack s1) (st - 1)) as [[]|]; try discriminate. eauto. }
    set (s2 := RT (r_mod s1) (firstn st (list_set (st - 1) (VF64 (fadd y f1) sec) (r_stack s1)))
            (r_calls s1) (skipn (length (r_locals s1) - lc) (r_locals s1)) (r_currents s1) (r_world s1)).
    assert (count_next_pass st lc s1 (Some s2)) as Hn by (exists y, sec; auto).
    assert (fadd (f_of_Z a) f1 = f_of_Z (a + 1)) as A by (apply fadd_int; unfold small_int; lia).
    destruct (IH (a + 1)%Z s2) as (log & s' & I1 & I2 & I3); try lia; auto.
    { rewrite <- A. eapply counter_next; eauto. }
    exists (Pass (count_pos st s s1) r FContinue s1 :: log), s'. split; [|split].
    + eapply It_next; eauto.
      * exists (f_of_Z a). split; auto. rewrite flt_int by auto. apply Z.ltb_lt. lia.
      * intros v _ (w & _ & D). rewrite Hk in D. exact D.
    + simpl. auto.
    + simpl. unfold indices in *. rewrite I3. unfold count_pos. rewrite C. reflexivity.
Qed.
Print Assumptions C10_terminates.

(** Beyond 2^53 the loop variable stops moving: no list of numbers is ever complete. *)
Theorem C10_stuck : forall l, ~ counts (f_of_Z (2 ^ 53 + 2)) (f_of_Z (2 ^ 53)) l.
Proof.
  induction l as [|x l IH]; intros H; inversion H; subst.
  - vm_compute in H0. discriminate.
  - apply IH. replace (fadd (f_of_Z (2 ^ 53)) f1) with (f_of_Z (2 ^ 53)) in H4 by (vm_compute; reflexivity). exact H4.
Qed.
Print Assumptions C10_stuck.

(** ** C11 *)

(** The value of a sum or product loop is the left fold of the numbers its completed passes gave,
    in order; passes ended by [continue] and the one ended by [break] add nothing; afterwards the
    values and locals declared inside are gone. *)
Theorem C11_fold : forall E n k label name start stop b sd s r fl s',
  eval E (S n) (EForN k label name start stop b) sd s = Ok (r, fl) s' -> fl <> FReturn ->
  k = KSum \/ k = KProd ->
  exists x z s1 log s2 l,
    range (fun e => eval E n e Right) start stop s x z s1 /\
    passes E n k label b (S (length (r_stack s1))) (S (length (r_locals s1))) z
      (started name (VF64 x None) s1) log fl s2 /\
    Forall2 gave_num (filter (fun p => match p_flow p with FContinue => true | _ => false end) log) l /\
    r = Some (VF64 (match k with KSum => fold_left fadd (map number l) (f_of_Z 0)
                    | _ => fold_left fmul (map number l) (f_of_Z 1) end) None) /\
    s' = back_to s s2.
Proof.
  intros E n k label name start stop b sd s r fl s' H Hf Hk.
  assert (forall log l, gives false gave_num log l ->
    Forall2 gave_num (filter (fun p => match p_flow p with FContinue => true | _ => false end) log) l) as HG.
  { unfold gives. intros log l G. erewrite filter_ext; [exact G|]. intros p. unfold counted. simpl. destruct (p_flow p), (p_val p); auto. }
  destruct (loop_passes E n k label name start stop b sd s r fl s') as (x & z & s1 & log & s2 & H1 & H2 & H3 & H4); auto.
  { destruct Hk; subst; discriminate. }
  destruct Hk; subst k; inversion H3; subst; exists x, z, s1, log, s2, l; splits; auto.
Qed.
Print Assumptions C11_fold.
Theorem C11_fold_vec4 : forall E n k label name start stop b sd s r fl s',
  eval E (S n) (EForN k label name start stop b) sd s = Ok (r, fl) s' -> fl <> FReturn ->
  k = KSumVec4 \/ k = KProdVec4 ->
  exists x z s1 log s2 l,
    range (fun e => eval E n e Right) start stop s x z s1 /\
    passes E n k label b (S (length (r_stack s1))) (S (length (r_locals s1))) z
      (started name (VF64 x None) s1) log fl s2 /\
    Forall2 gave_vec (filter (fun p => match p_flow p with FContinue => true | _ => false end) log) l /\
    r = Some (VVec4 (match k with
                     | KSumVec4 => fold_left (vmap2 gadd) l (V4 (g_of_Z 0) (g_of_Z 0) (g_of_Z 0) (g_of_Z 0))
                     | _ => fold_left (vmap2 gmul) l (V4 (g_of_Z 1) (g_of_Z 1) (g_of_Z 1) (g_of_Z 1)) end)) /\
    s' = back_to s s2.
Proof.
  intros E n k label name start stop b sd s r fl s' H Hf Hk.
  assert (forall log l, gives false gave_vec log l ->
    Forall2 gave_vec (filter (fun p => match p_flow p with FContinue => true | _ => false end) log) l) as HG.
  { unfold gives. intros log l G. erewrite filter_ext; [exact G|]. intros p. unfold counted. simpl. destruct (p_flow p), (p_val p); auto. }
  destruct (loop_passes E n k label name start stop b sd s r fl s') as (x & z & s1 & log & s2 & H1 & H2 & H3 & H4); auto.
  { destruct Hk; subst; discriminate. }
  destruct Hk; subst k; inversion H3; subst; exists x, z, s1, log, s2, l; splits; auto.
Qed.
Print Assumptions C11_fold_vec4.

(** ** C12 *)

(** NaN exactly if no number was given; otherwise the extremum of the numbers, and the secret
    starts with the secret of the first pass that gave it and ends with that pass. *)
Theorem C12_extremum : forall E n k label name start stop b sd s r fl s',
  eval E (S n) (EForN k label name start stop b) sd s = Ok (r, fl) s' -> fl <> FReturn ->
  k = KMin \/ k = KMax ->
  let before := fun a b => match k with KMin => flt a b | _ => flt b a end in
  exists x z s1 log s2 l m sec,
    range (fun e => eval E n e Right) start stop s x z s1 /\
    passes E n k label b (S (length (r_stack s1))) (S (length (r_locals s1))) z
      (started name (VF64 x None) s1) log fl s2 /\
    gives false gave_num log l /\ r = Some (VF64 m sec) /\
    (fis_nan m = true <-> Forall (fun e => fis_nan (number e) = true) l) /\
    (fis_nan m = false ->
       (forall e, In e l -> before (number e) m = false) /\
       exists l1 i sc l2, l = l1 ++ (Some i, m, sc) :: l2 /\ sec = path sc i /\
         (forall e, In e l1 -> fis_nan (number e) = false -> before m (number e) = true)).
Proof.
  intros E n k label name start stop b sd s r fl s' H Hf Hk before.
  assert (forall bf l m sec, best bf l m sec ->
    (fis_nan m = true <-> Forall (fun e => fis_nan (number e) = true) l) /\
    (fis_nan m = false ->
       (forall e, In e l -> bf (number e) m = false) /\
       exists l1 i sc l2, l = l1 ++ (Some i, m, sc) :: l2 /\ sec = path sc i /\
         (forall e, In e l1 -> fis_nan (number e) = false -> bf m (number e) = true))) as HB.
  { intros bf l m sec HBst. unfold best in HBst. destruct (forallb _ l) eqn:F.
    - destruct HBst as [-> _]. split; [|discriminate]. split; auto. intros _. apply Forall_forall. rewrite forallb_forall in F. auto.
    - destruct HBst as (l1 & i & sc & l2 & -> & N & -> & B1 & B2). split.
      + split; [congruence|]. intros C. rewrite Forall_forall in C. 
        specialize (C (Some i, m, sc)). unfold number in C at 1. simpl in C. rewrite C in N; [discriminate|].
        apply in_or_app. right. left. reflexivity.
      + intros _. split; auto. exists l1, i, sc, l2. auto. }
  destruct (loop_passes E n k label name start stop b sd s r fl s') as (x & z & s1 & log & s2 & H1 & H2 & H3 & H4); auto.
  { destruct Hk; subst; discriminate. }
  destruct Hk; subst k; inversion H3; subst; exists x, z, s1, log, s2, l, m, sec; splits; auto; try apply (HB _ _ _ _ H5).
Qed.
Print Assumptions C12_extremum.

(** ** C13 *)

(** [any] is true iff some pass gave true, and then the secret is that of the first such pass
    followed by the pass itself; dually for [all]. *)
Theorem C13_quantifies : forall E n k label name start stop b sd s r fl s',
  eval E (S n) (EForN k label name start stop b) sd s = Ok (r, fl) s' -> fl <> FReturn ->
  k = KAny \/ k = KAll ->
  let want := match k with KAny => true | _ => false end in
  exists x z s1 log s2 l v sec,
    range (fun e => eval E n e Right) start stop s x z s1 /\
    passes E n k label b (S (length (r_stack s1))) (S (length (r_locals s1))) z
      (started name (VF64 x None) s1) log fl s2 /\
    gives false gave_bool log l /\ r = Some (VBool v sec) /\
    (v = want <-> exists e, In e l /\ snd (fst e) = want) /\
    (v <> want -> sec = None) /\
    (v = want -> exists l1 i sc l2, l = l1 ++ (Some i, want, sc) :: l2 /\ sec = path sc i /\
       forall e, In e l1 -> snd (fst e) <> want).
Proof.
  intros E n k label name start stop b sd s r fl s' H Hf Hk want.
  assert (forall w l v sec, first_hit w l v sec ->
    (v = w <-> exists e, In e l /\ snd (fst e) = w) /\ (v <> w -> sec = None) /\
    (v = w -> exists l1 i sc l2, l = l1 ++ (Some i, w, sc) :: l2 /\ sec = path sc i /\
       forall e, In e l1 -> snd (fst e) <> w)) as HB.
  { intros w l v sec HH. unfold first_hit in HH. destruct (forallb _ l) eqn:F.
    - destruct HH as [-> ->]. rewrite forallb_forall in F. split; [|split; auto].
      + split; [destruct w; discriminate|]. intros (e & He & Q). specialize (F _ He). rewrite Q in F. destruct w; discriminate.
      + destruct w; discriminate.
    - destruct HH as (-> & l1 & i & sc & l2 & -> & -> & B1). split; [|split; [congruence|]].
      + split; auto. intros _. exists (Some i, w, sc). split; auto. apply in_or_app. right. left. reflexivity.
      + intros _. exists l1, i, sc, l2. split; auto. split; auto. intros e He. rewrite (B1 _ He). destruct w; discriminate. }
  destruct (loop_passes E n k label name start stop b sd s r fl s') as (x & z & s1 & log & s2 & H1 & H2 & H3 & H4); auto.
  { destruct Hk; subst; discriminate. }
  destruct Hk; subst k; inversion H3; subst; exists x, z, s1, log, s2, l, r0, sec; splits; auto; apply (HB _ _ _ _ H5).
Qed.
Print Assumptions C13_quantifies.

(** ** C14 *)

Theorem C14_sift : forall E n label name start stop b sd s r fl s',
  eval E (S n) (EForN KSift label name start stop b) sd s = Ok (r, fl) s' -> fl <> FReturn ->
  exists x z s1 log s2 l,
    range (fun e => eval E n e Right) start stop s x z s1 /\
    passes E n KSift label b (S (length (r_stack s1))) (S (length (r_locals s1))) z
      (started name (VF64 x None) s1) log fl s2 /\
    map p_val (filter (fun p => match p_flow p with FContinue => true | _ => false end) log) = map Some l /\
    r = Some (VArray l) /\ s' = back_to s s2.
Proof.
  intros E n label name start stop b sd s r fl s' H Hf.
  assert (forall log l, gives false gave_raw log l ->
    map p_val (filter (fun p => match p_flow p with FContinue => true | _ => false end) log) = map Some l) as HG.
  { unfold gives. intros log l G. erewrite filter_ext with (g := counted false).
    - induction G; simpl; auto. inversion H0; subst. simpl. congruence.
    - intros p. unfold counted. simpl. destruct (p_flow p), (p_val p); auto. }
  destruct (loop_passes E n KSift label name start stop b sd s r fl s') as (x & z & s1 & log & s2 & H1 & H2 & H3 & H4); auto.
  { discriminate. }
  inversion H3; subst; exists x, z, s1, log, s2, l; splits; auto.
Qed.
Print Assumptions C14_sift.

(** Link loops. *)
Lemma elems_push : forall a v a', link_push a v = Some a' -> exists l, elems v = Some l /\ a' = a ++ l.
Proof. intros a v a' H. destruct v; try discriminate; inversion H; subst; eexists; split; try reflexivity. Qed.

Section Links.
Context (E : env) (n : nat).
Let run := fun e => eval E n e Right.
(** What a step of a link loop does, whatever was collected before. *)
Definition adds (P : rt -> res -> rt -> Prop) (a : list lelem) (s : rt) (b : bstep (list lelem)) (s' : rt) : Prop :=
  match b with
  | BNext a' => exists l, a' = a ++ l /\ P s (Some (VLink l), FContinue) s'
  | BStop _ => False
  | BRet _ => True
  | BBreak lb a' => exists l, a' = a ++ l /\ P s (Some (VLink l), FBreak lb) s'
  | BCont lb a' => exists l, a' = a ++ l /\ P s (Some (VLink l), FContinueLoop lb) s'
  end.

Lemma items_adds : forall items a s b s', link_items (eval E n) items a s = Ok b s' ->
  adds (fun s r s1 => exists l fl, r = (Some (VLink l), fl) /\ items_run run items s l fl s1) a s b s'.
Proof.
  induction items as [|e items IH]; intros a s b s' H; cbn [link_items] in H.
  - apply ret_ok in H. destruct H as [-> ->]. exists []. rewrite app_nil_r. split; auto. exists [], FContinue. split; auto. constructor.
  - apply bind_ok in H. destruct H as ([x fl] & s1 & H1 & H2). destruct fl.
    + destruct x as [x|].
      * apply bind_ok in H2. destruct H2 as (v & s2 & H2 & H3). apply getv_iff in H2. destruct H2 as [-> D].
        destruct (link_push a v) as [a1|] eqn:LP; [|apply fail_ok in H3; contradiction].
        apply elems_push in LP. destruct LP as (l & El & ->). apply IH in H3. unfold adds in *.
        destruct b as [a2|a2|x2|lb a2|lb a2]; auto; destruct H3 as (l2 & -> & l3 & fl3 & Q & R); inversion Q; subst;
          exists (l ++ l3); (split; [rewrite app_assoc; auto|]); eexists _, _; (split; [reflexivity|]); eapply Ir_value; eauto.
      * apply IH in H2. unfold adds in *.
        destruct b as [a2|a2|x2|lb a2|lb a2]; auto; destruct H2 as (l2 & -> & l3 & fl3 & Q & R); inversion Q; subst;
          exists l3; (split; [auto|]); eexists _, _; (split; [reflexivity|]); eapply Ir_none; eauto.
    + assert (b = BRet x) as -> by (destruct x; apply ret_ok in H2; tauto). exact I.
    + assert (b = BBreak l a /\ s' = s1) as [-> ->] by (destruct x; apply ret_ok in H2; tauto).
      exists []. rewrite app_nil_r. split; auto. exists [], (FBreak l). split; auto. eapply Ir_leave; eauto; discriminate.
    + assert (b = BCont l a /\ s' = s1) as [-> ->] by (destruct x; apply ret_ok in H2; tauto).
      exists []. rewrite app_nil_r. split; auto. exists [], (FContinueLoop l). split; auto. eapply Ir_leave; eauto; discriminate.
Qed.

Section Loop.
Context (P : rt -> res -> rt -> Prop) (label : option string) (st lc : nat)
  (test : M (option value)) (next : M bool) (bf : value -> list lelem -> M (bstep (list lelem)))
  (more over : rt -> Prop) (pos : rt -> rt -> option value) (nextp : rt -> option rt -> Prop).
Context
  (Hmore : forall s ind s', test s = Ok (Some ind) s' -> s' = s /\ more s)
  (Hover : forall s s', test s = Ok None s' -> s' = s /\ over s)
  (Hnext : forall s s', next s = Ok true s' -> nextp s (Some (tr st lc s')))
  (Hlast : forall s s', next s = Ok false s' -> s' = s /\ nextp s None)
  (Hbf : forall ind a s b s', bf ind a s = Ok b s' -> adds P a s b s').

Lemma link_loop_sound : forall m a s a' fl s',
  loop m label st lc test bf next a s = Ok (LDone a' fl) s' ->
  exists log, iterates P (fun _ => False) label more over pos nextp s log fl s' /\ a' = a ++ link_of log.
Proof.
  assert (forall s v, ~ halts (fun _ => False) s v) as NH by (intros s v (w & _ & [])).
  induction m as [|m IH]; intros a s a' fl s' H; [discriminate|]. cbn [loop] in H.
  apply bind_ok in H. destruct H as ([ind|] & s0 & Ht & H).
  2: { apply ret_ok in H. destruct H as [H ->]. inversion H; subst. destruct (Hover _ _ Ht) as [-> Ho].
       exists []. split; [constructor; auto|]. unfold link_of. simpl. rewrite app_nil_r. auto. }
  destruct (Hmore _ _ _ Ht) as [-> Hm]. apply bind_ok in H. destruct H as (b & s1 & Hb & H).
  apply Hbf in Hb. destruct b as [a1|a1|x|lb a1|lb a1]; simpl in Hb.
  - destruct Hb as (l & -> & HP). apply bind_ok in H. destruct H as ([|] & s2 & Hn & H).
    + rewrite trunc_ok in H. destruct (IH _ _ _ _ _ H) as (log & Hi & ->).
      exists (Pass (pos s s1) (Some (VLink l)) FContinue s1 :: log). split; [eapply It_next; eauto|].
      unfold link_of. simpl. rewrite app_assoc. auto.
    + apply ret_ok in H. destruct H as [H ->]. inversion H; subst. destruct (Hlast _ _ Hn) as [-> Hl].
      exists [Pass (pos s s1) (Some (VLink l)) FContinue s1]. split; [eapply It_last; eauto|].
      unfold link_of. simpl. rewrite app_nil_r. auto.
  - contradiction.
  - apply ret_ok in H. destruct H; discriminate.
  - destruct Hb as (l & -> & HP). apply ret_ok in H. destruct H as [H ->]. inversion H; subst. clear H.
    exists [Pass (pos s s1) (Some (VLink l)) (FBreak lb) s1]. split; [|unfold link_of; simpl; rewrite app_nil_r; auto].
    destruct (concerns label lb) eqn:C.
    + eapply It_break; eauto. apply concerns_break; auto.
    + eapply It_outer; eauto; try discriminate. intros D. apply concerns_break in D. congruence.
  - destruct Hb as (l & -> & HP). destruct (concerns label lb) eqn:C.
    + apply concerns_cont in C. apply bind_ok in H. destruct H as ([|] & s2 & Hn & H).
      * rewrite trunc_ok in H. destruct (IH _ _ _ _ _ H) as (log & Hi & ->).
        exists (Pass (pos s s1) (Some (VLink l)) (FContinueLoop lb) s1 :: log). split; [eapply It_continue; eauto|].
        unfold link_of. simpl. rewrite app_assoc. auto.
      * apply ret_ok in H. destruct H as [H ->]. inversion H; subst. destruct (Hlast _ _ Hn) as [-> Hl].
        exists [Pass (pos s s1) (Some (VLink l)) (FContinueLoop lb) s1]. split; [eapply It_continue_last; eauto|].
        unfold link_of. simpl. rewrite app_nil_r. auto.
    + apply ret_ok in H. destruct H as [H ->]. inversion H; subst. clear H.
      exists [Pass (pos s s1) (Some (VLink l)) (FContinueLoop lb) s1]. split; [|unfold link_of; simpl; rewrite app_nil_r; auto].
      eapply It_outer; eauto; try discriminate. intros D. apply concerns_cont in D. congruence.
Qed.
End Loop.

Lemma core_n_sound : forall (P : rt -> res -> rt -> Prop) label name start stop (bf : nat -> value -> list lelem -> M (bstep (list lelem))) a s a' fl s',
  (forall st ind a s b s', bf st ind a s = Ok b s' -> adds P a s b s') ->
  for_n_core (eval E n) n label name start stop bf a s = Ok (LDone a' fl) s' ->
  exists x z s1 log s2, range run start stop s x z s1 /\
    iterates P (fun _ => False) label (count_more (S (length (r_stack s1))) z) (count_over (S (length (r_stack s1))) z)
      (count_pos (S (length (r_stack s1)))) (count_next_pass (S (length (r_stack s1))) (S (length (r_locals s1))))
      (started name (VF64 x None) s1) log fl s2 /\ s' = back_to s s2 /\ a' = a ++ link_of log.
Proof.
  intros P label name start stop bf a s a' fl s' Hbf H. unfold for_n_core in H.
  assert (forall x s0,
    num_expr (eval E n) stop (fun y => i <- stack_len ;; push_local name i ;;; push (vf64 x) ;;;
      st <- stack_len ;; lc <- local_len ;;
      r <- loop n label st lc (count_test st y) (bf st) (count_next st) a ;;
      match r with
      | LDone a fl => trunc_stack (length (r_stack s)) ;;; trunc_locals (length (r_locals s)) ;;; ret (LDone a fl)
      | LRet x => ret (LRet x)
      end) s0 = Ok (LDone a' fl) s' ->
    exists z s1 log s2, gives_num run stop s0 z s1 /\
      iterates P (fun _ => False) label (count_more (S (length (r_stack s1))) z) (count_over (S (length (r_stack s1))) z)
      (count_pos (S (length (r_stack s1)))) (count_next_pass (S (length (r_stack s1))) (S (length (r_locals s1))))
      (started name (VF64 x None) s1) log fl s2 /\ s' = back_to s s2 /\ a' = a ++ link_of log) as HG.
  { intros x s0 H0. apply num_expr_ok in H0. destruct H0 as (z & s1 & Hz & H0). exists z, s1.
    unfold bind, stack_len, local_len, gets, push_local, push, modify in H0. simpl in H0.
    rewrite app_length in H0. simpl in H0. rewrite Nat.add_1_r in H0.
    match type of H0 with match ?L with _ => _ end = _ => destruct L as [[a1 f1|x1] s2|e2 s2|w|] eqn:EL; try discriminate end.
    inversion H0; subst. change (loop n label (S (length (r_stack s1))) (S (length (r_locals s1)))
      (count_test (S (length (r_stack s1))) z) (bf (S (length (r_stack s1)))) (count_next (S (length (r_stack s1)))) a (started name (VF64 x None) s1) = Ok (LDone a' fl) s2) in EL.
    eapply (link_loop_sound P) with (more := count_more (S (length (r_stack s1))) z) (over := count_over (S (length (r_stack s1))) z)
      (pos := count_pos (S (length (r_stack s1)))) (nextp := count_next_pass (S (length (r_stack s1))) (S (length (r_locals s1)))) in EL.
    - destruct EL as (log & Hi & ->). exists log, s2. splits; auto.
    - apply count_more_ok.
    - apply count_over_ok.
    - apply count_next_ok.
    - apply count_last_ok.
    - apply Hbf. }
  unfold bind at 1 2, stack_len at 1, local_len at 1, gets at 1 2 in H.
  destruct start as [e|].
  - apply num_expr_ok in H. destruct H as (x & s0 & Hx & H). apply HG in H. destruct H as (z & s1 & log & s2 & H1 & H2 & H3 & H4).
    exists x, z, s1, log, s2. splits; auto. exists s0. auto.
  - apply HG in H. destruct H as (z & s1 & log & s2 & H1 & H2 & H3 & H4). exists (f_of_Z 0), z, s1, log, s2. splits; auto. split; auto.
Qed.

Lemma core_in_sound : forall (P : rt -> res -> rt -> Prop) label name iter (bf : nat -> value -> list lelem -> M (bstep (list lelem))) a s r s',
  (forall st ind a s b s', bf st ind a s = Ok b s' -> adds P a s b s') ->
  for_in_core (eval E n) n label name iter bf a s = Ok r s' ->
  (exists x, r = Some (LRet x)) \/
  exists x s0 ch, run iter s = Ok (Some x, FContinue) s0 /\ denotes s0 x (VIn ch) /\
    ((empty_queue ch s0 /\ r = None /\ s' = s0) \/
     exists m s1 log fl s2, taken ch s0 m s1 /\ r = Some (LDone (a ++ link_of log) fl) /\
       iterates P (fun _ => False) label (fun _ => True) (fun _ => False) (in_pos (S (length (r_stack s1))))
         (in_next_pass (S (length (r_stack s1))) (S (length (r_locals s1))) ch) (started name m s1) log fl s2 /\
       s' = back_to s s2).
Proof.
  intros P label name iter bf a s r s' Hbf H. unfold for_in_core in H.
  unfold bind at 1 2, stack_len at 1, local_len at 1, gets at 1 2 in H. unfold vexpr in H.
  apply bind_ok in H. destruct H as ([x xf] & s0 & H1 & H).
  destruct x as [x|], xf; try (apply fail_ok in H; contradiction); try (apply ret_ok in H; destruct H; left; eauto; fail).
  apply bind_ok in H. destruct H as (v & s3 & H2 & H). apply getv_iff in H2. destruct H2 as [-> D].
  destruct v; try (apply fail_ok in H; contradiction).
  apply bind_ok in H. destruct H as ([m|] & s1 & H2 & H).
  2: { apply recv_none in H2. apply ret_ok in H. destruct H2 as [-> H2], H as [-> ->]. right. exists x, s0, ch. splits; auto. }
  apply recv_some in H2.
  unfold bind, stack_len, local_len, gets, push_local, push, modify in H. simpl in H.
  rewrite app_length in H. simpl in H. rewrite Nat.add_1_r in H.
  match type of H with match ?L with _ => _ end = _ => destruct L as [[a1 f1|x1] s2|e2 s2|w|] eqn:EL; try discriminate end.
  2: { inversion H; subst. left. eauto. }
  inversion H; subst. right. exists x, s0, ch. splits; auto. right. exists m, s1.
  eapply (link_loop_sound P) with (more := fun _ => True) (over := fun _ => False)
    (pos := in_pos (S (length (r_stack s1)))) (nextp := in_next_pass (S (length (r_stack s1))) (S (length (r_locals s1))) ch) in EL.
  - destruct EL as (log & Hi & ->). exists log, f1, s2. splits; auto.
  - intros q ind q' Hq. apply ret_ok in Hq. destruct Hq; auto.
  - intros q q' Hq. apply ret_ok in Hq. destruct Hq; discriminate.
  - apply in_next_ok.
  - apply in_last_ok.
  - apply Hbf.
Qed.

Definition first_pass (b : list expr) : rt -> res -> rt -> Prop :=
  match b with e2 :: _ => link_pass run e2 | [] => fun _ _ _ => False end.

Lemma sub_link_n_sound : forall d label name start stop b a s a' fl s',
  sub_link_n (eval E n) d n label name start stop b a s = Ok (LDone a' fl) s' ->
  exists l, a' = a ++ l /\ link_pass run (EForN KLink label name start stop b) s (Some (VLink l), fl) s'.
Proof.
  induction d as [|d IH]; intros label name start stop b a s a' fl s' H; cbn [sub_link_n] in H;
    apply (core_n_sound (first_pass b)) in H.
  1, 3: destruct H as (x & z & s1 & log & s2 & H1 & H2 & H3 & ->); exists (link_of log); split; auto;
    exists x, z, s1, log, fl, s2; splits; auto.
  all: clear H; intros st ind a0 s0 b0 s0' H; destruct b as [|e b]; [discriminate|]; destruct e; try discriminate.
  1, 3: apply items_adds in H; exact H.
  all: destruct k; try discriminate.
  apply bind_ok in H. destruct H as (r & s1 & H & H2). apply ret_ok in H2. destruct H2 as [-> ->].
  destruct r as [a1 f1|x1]; [|exact I]. apply IH in H. destruct H as (l & -> & HP).
  destruct f1; simpl; auto; exists l; split; auto.
Qed.
Lemma sub_link_in_sound : forall d label name iter b a s a' fl s',
  sub_link_in (eval E n) d n label name iter b a s = Ok (LDone a' fl) s' ->
  exists l, a' = a ++ l /\ link_pass run (EForIn KLink label name iter b) s (Some (VLink l), fl) s'.
Proof.
  induction d as [|d IH]; intros label name iter b a s a' fl s' H; cbn [sub_link_in] in H;
    apply bind_ok in H; destruct H as (r & s1 & H & H0);
    apply (core_in_sound (first_pass b)) in H.
  1, 3: destruct H as [(x & ->)|(x & s0 & ch & H1 & H2 & [(H3 & -> & ->)|(m & s3 & log & f & s2 & H3 & -> & H4 & ->)])];
    apply ret_ok in H0; destruct H0 as [H0 ->]; try discriminate; inversion H0; subst;
    [exists []; rewrite app_nil_r; split; auto; exists x, s0, ch; splits; auto
    |exists (link_of log); split; auto; exists x, s0, ch; splits; auto; right; exists m, s3, log, f, s2; splits; auto].
  all: clear H; intros st ind a0 s0 b0 s0' H; destruct b as [|e b]; [discriminate|]; destruct e; try discriminate.
  1, 3: apply items_adds in H; exact H.
  all: destruct k; try discriminate.
  apply bind_ok in H. destruct H as (r1 & s2 & H & H2). apply ret_ok in H2. destruct H2 as [-> ->].
  destruct r1 as [a1 f1|x1]; [|exact I]. apply IH in H. destruct H as (l & -> & HP).
  destruct f1; simpl; auto; exists l; split; auto.
Qed.
End Links.

(** A link loop gives the concatenation, in order, of what its passes gave; a [break] or
    [continue] meant for an outer loop leaves it without a value. *)
Theorem C14_link : forall E n label name start stop b sd s r fl s',
  eval E (S n) (EForN KLink label name start stop b) sd s = Ok (r, fl) s' -> fl <> FReturn ->
  exists l, link_pass (fun e => eval E n e Right) (EForN KLink label name start stop b) s (Some (VLink l), fl) s' /\
    r = match fl with FContinue => Some (VLink l) | _ => None end.
Proof.
  intros E n label name start stop b sd s r fl s' H Hf. cbn [eval expression for_loop for_n] in H.
  apply bind_ok in H. destruct H as (q & s1 & H & H2). destruct q as [a f|x].
  - apply sub_link_n_sound in H. destruct H as (l & -> & HP). exists l.
    destruct f; apply ret_ok in H2; destruct H2 as [H2 ->]; inversion H2; subst; auto.
  - apply ret_ok in H2. destruct H2 as [H2 ->]. inversion H2; subst. contradiction.
Qed.
Print Assumptions C14_link.
Theorem C14_link_in : forall E n label name iter b sd s r fl s',
  eval E (S n) (EForIn KLink label name iter b) sd s = Ok (r, fl) s' -> fl <> FReturn ->
  exists l, link_pass (fun e => eval E n e Right) (EForIn KLink label name iter b) s (Some (VLink l), fl) s' /\
    r = match fl with FContinue => Some (VLink l) | _ => None end.
Proof.
  intros E n label name iter b sd s r fl s' H Hf. cbn [eval expression for_loop for_in] in H.
  apply bind_ok in H. destruct H as (q & s1 & H & H2). destruct q as [a f|x].
  - apply sub_link_in_sound in H. destruct H as (l & -> & HP). exists l.
    destruct f; apply ret_ok in H2; destruct H2 as [H2 ->]; inversion H2; subst; auto.
  - apply ret_ok in H2. destruct H2 as [H2 ->]. inversion H2; subst. contradiction.
Qed.
Print Assumptions C14_link_in.

(** ** C15: what the loop does *)

(** Whatever the loop: a pass ended by a [break] that concerns the loop is the last one and the
    program goes on after the loop; after a [continue] that concerns it the loop goes on with the
    next pass, if there is one; one that does not concern it ends the loop and goes on outwards. And nothing
    else leaves the loop. *)
Theorem C15_passes : forall body halt label more over pos next s log fl s',
  iterates body halt label more over pos next s log fl s' ->
  (forall l1 p l2, log = l1 ++ p :: l2 ->
     match p_flow p with
     | FBreak l => (acts_on label (FBreak l) -> l2 = [] /\ fl = FContinue /\ s' = p_after p) /\
                   (~ acts_on label (FBreak l) -> l2 = [] /\ fl = FBreak l /\ s' = p_after p)
     | FContinueLoop l =>
         (acts_on label (FContinueLoop l) ->
            (l2 = [] /\ fl = FContinue /\ s' = p_after p /\ next (p_after p) None) \/
            exists s2, next (p_after p) (Some s2) /\ iterates body halt label more over pos next s2 l2 fl s') /\
         (~ acts_on label (FContinueLoop l) -> l2 = [] /\ fl = FContinueLoop l /\ s' = p_after p)
     | FContinue => True
     | FReturn => False
     end) /\
  (fl <> FContinue -> ~ acts_on label fl /\ exists l1 p, log = l1 ++ [p] /\ p_flow p = fl).
Proof.
  intros body halt label more over pos next s log fl s' H.
  assert (forall (x : pass) l1 p l2, [x] = l1 ++ p :: l2 -> p = x /\ l2 = []) as H1.
  { intros x [|y l1] p l2 Q; inversion Q; subst; auto. destruct l1; discriminate. }
  induction H; (split; [intros l1 p l2 Q|intros Hf]); try congruence.
  - destruct l1; discriminate.
  - destruct l1 as [|y l1]; inversion Q; subst; [exact I|]. apply (proj1 IHiterates l1 p l2). reflexivity.
  - destruct (proj2 IHiterates Hf) as (A & l1 & p & -> & P). split; auto. eexists (_ :: l1), p. split; [reflexivity|auto].
  - apply H1 in Q. destruct Q as [-> ->]. exact I.
  - apply H1 in Q. destruct Q as [-> ->]. exact I.
  - destruct l1 as [|y l1]; inversion Q; subst; [|apply (proj1 IHiterates l1 p l2); reflexivity].
    simpl. split; [|tauto]. intros _. right. exists s2. auto.
  - destruct (proj2 IHiterates Hf) as (A & l1 & p & -> & P). split; auto. eexists (_ :: l1), p. split; [reflexivity|auto].
  - apply H1 in Q. destruct Q as [-> ->]. simpl. split; [|tauto]. auto.
  - apply H1 in Q. destruct Q as [-> ->]. simpl. split; [|tauto]. auto.
  - apply H1 in Q. destruct Q as [-> ->]. simpl. destruct fl; try congruence; split; tauto.
  - split; auto. exists [], (Pass (pos s s1) r fl s1). auto.
Qed.
Print Assumptions C15_passes.

(** The C-style loop. *)
Lemma for_loop_sound : forall E n label st lc cond step b m s fl s',
  for_loop (eval E n) m label st lc cond step b s = Ok (LDone tt fl) s' ->
  exists log, cfor (fun e => eval E n e Right) (eval E (S n) (EBlock b) Right) label st lc cond step s log fl s'.
Proof.
  intros E n label st lc cond step b. induction m as [|m IH]; intros s fl s' H; [discriminate|].
  cbn [for_loop] in H. unfold vexpr in H. apply bind_ok in H. destruct H as ([x xf] & s1 & H1 & H).
  destruct x as [x|], xf; try (apply fail_ok in H; contradiction); try (apply ret_ok in H; destruct H; discriminate).
  destruct x; try (apply fail_ok in H; contradiction). destruct b0.
  2: { apply ret_ok in H. destruct H as [H ->]. inversion H; subst. exists []. econstructor; eauto. }
  apply bind_ok in H. destruct H as ([y yf] & s2 & H2 & H).
  assert (forall k, (r <- eval E n step Right ;;
    match r with
    | (None, FContinue) => k
    | (x, FReturn) => ret (LRet x)
    | _ => fail "expected nothing from for step"
    end) s2 = Ok (LDone tt fl) s' -> exists s3, eval E n step Right s2 = Ok (None, FContinue) s3 /\ k s3 = Ok (LDone tt fl) s') as HS.
  { intros k Hk. apply bind_ok in Hk. destruct Hk as ([z zf] & s3 & H3 & Hk).
    destruct z as [z|], zf; try (apply fail_ok in Hk; contradiction); try (apply ret_ok in Hk; destruct Hk; discriminate).
    eauto. }
  destruct yf.
  - assert (exists s3, eval E n step Right s2 = Ok (None, FContinue) s3 /\
      (trunc_stack st ;;; trunc_locals lc ;;; for_loop (eval E n) m label st lc cond step b) s3 = Ok (LDone tt fl) s') as (s3 & H3 & H4)
      by (destruct y; apply HS; exact H).
    apply IH in H4. destruct H4 as (log & H4). exists (FContinue :: log). eapply Cf_next; eauto.
  - destruct y; apply ret_ok in H; destruct H; discriminate.
  - assert (fl = (if concerns label l then FContinue else FBreak l) /\ s' = s2) as [-> ->]
      by (destruct y; apply ret_ok in H; destruct H as [H ->]; inversion H; auto).
    exists [FBreak l]. destruct (concerns label l) eqn:C.
    + eapply Cf_break; eauto. apply concerns_break. auto.
    + eapply Cf_outer; eauto; try discriminate. intros D. apply concerns_break in D. congruence.
  - destruct (concerns label l) eqn:C.
    + assert (exists s3, eval E n step Right s2 = Ok (None, FContinue) s3 /\
        for_loop (eval E n) m label st lc cond step b s3 = Ok (LDone tt fl) s') as (s3 & H3 & H4)
        by (destruct y; apply HS; exact H).
      apply IH in H4. destruct H4 as (log & H4). exists (FContinueLoop l :: log). eapply Cf_continue; eauto.
      apply concerns_cont. auto.
    + assert (fl = FContinueLoop l /\ s' = s2) as [-> ->]
        by (destruct y; apply ret_ok in H; destruct H as [H ->]; inversion H; auto).
      exists [FContinueLoop l]. eapply Cf_outer; eauto; try discriminate. intros D. apply concerns_cont in D. congruence.
Qed.
Theorem C15_cfor : forall E n label init cond step b sd s r fl s',
  eval E (S n) (EFor label init cond step b) sd s = Ok (r, fl) s' -> fl <> FReturn ->
  r = None /\ exists s1 log s2,
    eval E n init Right s = Ok (None, FContinue) s1 /\
    cfor (fun e => eval E n e Right) (eval E (S n) (EBlock b) Right)
      label (length (r_stack s1)) (length (r_locals s1)) cond step s1 log fl s2 /\ s' = back_to s s2.
Proof.
  intros E n label init cond step b sd s r fl s' H Hf. cbn [eval expression] in H. unfold for_expr in H.
  unfold bind at 1 2, stack_len at 1, local_len at 1, gets at 1 2 in H.
  apply bind_ok in H. destruct H as ([x xf] & s1 & H1 & H).
  destruct x as [x|], xf; try (apply fail_ok in H; contradiction);
    try (apply ret_ok in H; destruct H as [H ->]; inversion H; subst; congruence).
  unfold bind at 1 2, stack_len at 1, local_len at 1, gets at 1 2 in H.
  apply bind_ok in H. destruct H as ([[] f|x] & s2 & H2 & H).
  2: { apply ret_ok in H. destruct H as [H ->]. inversion H; subst. congruence. }
  inversion H; subst. apply for_loop_sound in H2. destruct H2 as (log & H2). split; auto. exists s1, log, s2. auto.
Qed.
Print Assumptions C15_cfor.

(** One that leaves the body of a function is an error at the call. *)
Theorem C15_call_error : forall E n i f fi m name vs sd s x fl s2,
  Z.of_nat fi = (i + Z.of_nat (top_of s))%Z ->
  nth_error (e_mods E) (r_mod s) = Some m -> nth_error (m_funs m) fi = Some f ->
  fn_lazy f = [] -> fn_currents f = [] -> w_senders (r_world s) = [] ->
  fl <> FContinue -> fl <> FReturn ->
  eval E (S (S n)) (EBlock (fn_block f)) Right (entered f name fi vs s) = Ok (x, fl) s2 ->
  exists e, eval E (S (S n)) (ECall (FLoaded i) name (map EVar vs)) sd s = Err e s2.
Proof.
  intros E n i f fi m name vs sd s x fl s2 Hfi Em Ef HL HC HW H1 H2 Hb.
  change (eval E (S (S n)) (ECall (FLoaded i) name (map EVar vs)) sd) with
    (call_loaded E (eval E (S n)) (S n) (map EVar vs) i name false).
  rewrite (call_loaded_values E n i f fi name vs s m Hfi Em Ef HL HC HW).
  change (eval E (S (S n)) (EBlock (fn_block f)) Right) with (block (eval E (S n)) (fn_block f)) in Hb.
  unfold bind at 1. rewrite Hb. cbn [snd fst]. destruct fl as [| |[l|]|[l|]]; try congruence; eexists; reflexivity.
Qed.
Print Assumptions C15_call_error.

(** ** Examples and counterexamples *)

Definition i_ : expr := add_ (loc "i" 1) (num 0).
Definition when (c : expr) (b : list expr) : expr := EIf c b [] [] None.

(** An empty body meets the hypotheses of [C10_terminates]. *)
Example C10_example : forall E st lc s, 0 < st -> counter st s = Some (f_of_Z 3) ->
  exists log s', passes E 0 KFor None [] st lc (f_of_Z 7) s log FContinue s' /\ length log = 4.
Proof.
  intros E st lc s Hst C.
  destruct (C10_terminates E 0 KFor None [] st lc (fun _ => True) 3 7) with (s := s) as (log & s' & H1 & H2 & _); auto; try lia.
  - intros s1 x _ C1. exists None, s1. split; [|auto]. cbn. destruct s1. cbn. unfold bind. cbn. rewrite !firstn_all, Nat.sub_diag. cbn. rewrite Nat.sub_diag. reflexivity.
  - exists log, s'. auto.
Qed.

(** sum i 5 { if i < 2 { continue }; i + 0 } *)
Example C11_example :
  exists s', eval (env_ []) 20 (EForN KSum None "i" None (num 5)
    [when (less_ (loc "i" 1) (num 2)) [EContinue None]; i_]) Right top = Ok (Some (vf64 (f_of_Z 9)), FContinue) s'.
Proof. eexists. vm_compute. reflexivity. Qed.

(** min i 4 { if 1 < i { 3 } else { 5 } }: 3, first at 2 *)
Example C12_example :
  exists s', eval (env_ []) 20 (EForN KMin None "i" None (num 4)
    [EIf (less_ (num 1) (loc "i" 1)) [num 3] [] [] (Some [num 5])]) Right top =
    Ok (Some (VF64 (f_of_Z 3) (Some [vf64 (f_of_Z 2)])), FContinue) s'.
Proof. eexists. vm_compute. reflexivity. Qed.
Example C12_example_nan :
  exists s', eval (env_ []) 20 (EForN KMax None "i" None (num 4) [EVar (vf64 fnan)]) Right top =
    Ok (Some (VF64 fnan (Some [vf64 (f_of_Z 3)])), FContinue) s'.
Proof. eexists. vm_compute. reflexivity. Qed.

(** any i 4 { any j 2 { 1 < i } }: the witnesses of both loops *)
Example C13_example :
  exists s', eval (env_ []) 20 (EForN KAny None "i" None (num 4)
    [EForN KAny None "j" None (num 2) [less_ (num 1) (loc "i" 2)]]) Right top =
    Ok (Some (VBool true (Some [vf64 (f_of_Z 0); vf64 (f_of_Z 2)])), FContinue) s'.
Proof. eexists. vm_compute. reflexivity. Qed.
Example C13_example_all :
  exists s', eval (env_ []) 20 (EForN KAll None "i" None (num 4) [less_ (loc "i" 1) (num 3)]) Right top =
    Ok (Some (VBool false (Some [vf64 (f_of_Z 3)])), FContinue) s'.
Proof. eexists. vm_compute. reflexivity. Qed.

Example C14_example_sift :
  exists s', eval (env_ []) 20 (EForN KSift None "i" None (num 4)
    [when (less_ (loc "i" 1) (num 2)) [EContinue None]; i_]) Right top =
    Ok (Some (VArray [vf64 (f_of_Z 2); vf64 (f_of_Z 3)]), FContinue) s'.
Proof. eexists. vm_compute. reflexivity. Qed.
Example C14_example_link :
  exists s', eval (env_ []) 20 (EForN KLink None "i" None (num 2)
    [EForN KLink None "j" None (num 2) [ELink [EVar (VStr "a"); loc "i" 2]]]) Right top =
    Ok (Some (VLink [LStr "a"; LF64 (f_of_Z 0); LStr "a"; LF64 (f_of_Z 0);
                     LStr "a"; LF64 (f_of_Z 1); LStr "a"; LF64 (f_of_Z 1)]), FContinue) s'.
Proof. eexists. vm_compute. reflexivity. Qed.
(** link i 3 { "a" if 0 < i { continue } "b" }: the iterations ended by [continue] are not skipped,
    what they gave before it stays. *)
Theorem C14_link_continue_refuted :
  exists s', eval (env_ []) 20 (EForN KLink None "i" None (num 3)
    [ELink [EVar (VStr "a"); when (less_ (num 0) (loc "i" 1)) [EContinue None]; EVar (VStr "b")]]) Right top =
    Ok (Some (VLink [LStr "a"; LStr "b"; LStr "a"; LStr "a"]), FContinue) s'.
Proof. eexists. vm_compute. reflexivity. Qed.
(** sift i 2 { i }: what is collected is not the value of the body but a reference to the slot of
    the loop variable, which is gone after the loop. *)
Theorem C14_sift_reference_refuted :
  exists s', eval (env_ []) 20 (EForN KSift None "i" None (num 2) [loc "i" 1]) Right top =
    Ok (Some (VArray [VRef 0; VRef 0]), FContinue) s' /\ r_stack s' = [].
Proof. eexists. vm_compute. split; reflexivity. Qed.
(** sum i in c { .. } over an empty channel gives no value, where the sum over an empty range is 0. *)
Theorem C11_empty_channel_refuted :
  exists s', eval (env_ []) 20 (EForIn KSum None "i" (EVar (VIn 0)) [i_]) Right
    (RT 0 [] [Call "main" 0 0 0 0] [] [] (World [[]] [] [])) = Ok (None, FContinue) s'.
Proof. eexists. vm_compute. reflexivity. Qed.

(** for i := 0; i < 3; i = i + 1 { if i < 2 { continue }; break }: left with i = 2. *)
Example C15_example_cfor :
  exists s', eval (env_ []) 20 (EBlock [decl "r" false (num 0);
    EFor None (decl "i" false (num 0)) (less_ (loc "i" 1) (num 3))
      (EAssign OpSet (loc "i" 1) (add_ (loc "i" 1) (num 1)))
      [EAssign OpSet (loc "r" 2) (add_ (loc "i" 1) (num 0)); when (less_ (loc "i" 1) (num 2)) [EContinue None]; EBreak None];
    add_ (loc "r" 1) (num 0)]) Right top = Ok (Some (vf64 (f_of_Z 2)), FContinue) s'.
Proof. eexists. vm_compute. reflexivity. Qed.
Example C15_example_error :
  let f := Func "f" ["x"] [] [] [EForN KFor None "j" None (num 2) [EBreak (Some "zz")]] false in
  exists x s', eval (env_ [f]) 20 (EBlock (fn_block f)) Right (entered f "f" 0 [VStr "v"] top) = Ok (x, FBreak (Some "zz")) s'.
Proof. eexists. eexists. vm_compute. reflexivity. Qed.

(** Missing in C10_order_partial: a body that assigns to the loop variable moves the counter.
    sum i 3 { i = 5; 1 } makes one pass instead of three. *)
Theorem C10_assign_refuted :
  exists s', eval (env_ []) 20 (EForN KSum None "i" None (num 3)
    [EAssign OpSet (loc "i" 1) (num 5); num 1]) Right top = Ok (Some (vf64 (f_of_Z 1)), FContinue) s'.
Proof. eexists. vm_compute. reflexivity. Qed.
