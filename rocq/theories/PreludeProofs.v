(** * Lemmas for P_Prelude.v: the functions of the library against their declared types. *)
From Coq Require Import String List ZArith Bool Arith Lia Floats.SpecFloat.
From Verif Require Import Float64 Syntax InterpModel StdModel ColorModel TypeModel LifetimeModel TypecheckModel PreludeModel PreludeSpec.
Import ListNotations.
Local Open Scope string_scope.
Local Open Scope nat_scope.
Local Open Scope list_scope.

Lemma sound_ind2 : forall n (P : value -> Prop),
  (forall i, i < n -> P (VRef i)) ->
  (forall v, sound n v -> (forall i, v <> VRef i) -> (forall l, v <> VArray l) -> (forall l, v <> VObject l) -> (forall r p, v <> VUnsafeRef r p) -> P v) ->
  (forall l, Forall (sound n) l -> Forall P l -> P (VArray l)) ->
  (forall l, Forall (fun kv => sound n (snd kv)) l -> Forall (fun kv => P (snd kv)) l -> P (VObject l)) ->
  forall v, sound n v -> P v.
Proof.
  intros n P HR HO HA HJ.
  fix IH 2. intros v H.
  assert (forall l, Forall (sound n) l -> Forall P l) as FA.
  { fix IHl 2. intros l F. destruct F as [|x l Hx F]; constructor; [exact (IH x Hx)|exact (IHl l F)]. }
  assert (forall l : list (string * value), Forall (fun kv => sound n (snd kv)) l -> Forall (fun kv => P (snd kv)) l) as FO.
  { fix IHl 2. intros l F. destruct F as [|x l Hx F]; constructor; [exact (IH _ Hx)|exact (IHl l F)]. }
  destruct H as [i Hi| |b sec Hs|x sec Hs| | | |l Hl|l Hl| | | |v Hv|v Hv|v t Hv| | |].
  1: exact (HR i Hi).
  7: exact (HA l Hl (FA l Hl)).
  7: exact (HJ l Hl (FO l Hl)).
  all: apply HO; [constructor; assumption|discriminate|discriminate|discriminate|discriminate].
Qed.

(** ** Deep copies *)
Lemma deep_val_via : forall n stk v, deep_clone n stk v = deep_val (fun i => match n with O => DOOF | S n => match nth_error stk i with Some w => deep_clone n stk w | None => DPanic end end) v.
Proof. destruct n; reflexivity. Qed.
Definition dgood {A} (P : A -> Prop) (x : A + dres) : Prop :=
  match x with inl l => P l | inr DOOF => True | inr _ => False end.
Definition dsound (n : nat) (x : dres) : Prop := match x with DOk w => sound n w | DPanic => False | DOOF => True end.
Lemma dmap_arr_sound : forall n f l, Forall (fun v => dsound n (f v)) l -> dgood (Forall (sound n)) (dmap_arr f l).
Proof.
  intros n f l H. induction H as [|x l Hx H IH]; simpl; [constructor|].
  destruct (f x); try exact Hx.
  destruct (dmap_arr f l) as [l'|d]; [constructor; assumption|exact IH].
Qed.
Lemma dmap_obj_sound : forall n f l, Forall (fun kv : string * value => dsound n (f (snd kv))) l -> dgood (Forall (fun kv => sound n (snd kv))) (dmap_obj f l).
Proof.
  intros n f l H. induction H as [|[k x] l Hx H IH]; simpl in *; [constructor|].
  destruct (f x); try exact Hx.
  destruct (dmap_obj f l) as [l'|d]; [constructor; assumption|exact IH].
Qed.
Lemma deep_val_sound : forall n via, (forall i, i < n -> dsound n (via i)) -> forall v, sound n v -> dsound n (deep_val via v).
Proof.
  intros n via H. apply sound_ind2.
  - exact H.
  - intros v Hv A B C D. destruct v; try exact Hv; solve [edestruct A; reflexivity|edestruct D; reflexivity|edestruct B; reflexivity|edestruct C; reflexivity].
  - intros l _ Hl. simpl. apply dmap_arr_sound in Hl. destruct (dmap_arr _ l) as [l'|[| |]]; try exact Hl; [constructor; exact Hl|contradiction].
  - intros l _ Hl. simpl. apply dmap_obj_sound in Hl. destruct (dmap_obj _ l) as [l'|[| |]]; try exact Hl; [constructor; exact Hl|contradiction].
Qed.
Lemma deep_sound : forall n m stk, Forall (sound m) stk -> m <= length stk -> forall v, sound m v -> dsound m (deep_clone n stk v).
Proof.
  intros n m stk HS Hm. induction n as [|n IHn]; intros v Hv; rewrite deep_val_via; apply deep_val_sound; auto; intros i Hi.
  - exact I.
  - destruct (nth_error stk i) as [w|] eqn:E.
    + apply IHn. rewrite Forall_forall in HS. apply HS. eapply nth_error_In; eauto.
    + apply nth_error_None in E. lia.
Qed.

(** ** Stacks *)
Lemma set_stack_id : forall s l, r_stack s = l -> set_stack l s = s.
Proof. intros [] l <-. reflexivity. Qed.
Lemma snoc2 : forall {A} (l : list A) a b r, l ++ a :: b :: r = (l ++ [a]) ++ b :: r.
Proof. intros. rewrite <- app_assoc. reflexivity. Qed.
Lemma pop_snoc : forall l v s, pop (set_stack (l ++ [v]) s) = Ok v (set_stack l s).
Proof. intros. unfold pop. simpl. rewrite rev_app_distr, removelast_last. reflexivity. Qed.
Definition prefix {A} (l m : list A) : Prop := exists r, m = l ++ r.
Lemma prefix_refl : forall {A} (l : list A), prefix l l.
Proof. intros. exists []. rewrite app_nil_r. reflexivity. Qed.
Lemma prefix_snoc : forall {A} (l m : list A) x, prefix l m -> prefix l (m ++ [x]).
Proof. intros A l m x [r ->]. exists (r ++ [x]). rewrite app_assoc. reflexivity. Qed.
Lemma prefix_nth : forall {A} (l m : list A) i x, prefix l m -> nth_error l i = Some x -> nth_error m i = Some x.
Proof. intros A l m i x [r ->] H. rewrite nth_error_app1; auto. apply nth_error_Some. congruence. Qed.
Lemma prefix_le : forall {A} (l m : list A), prefix l m -> length l <= length m.
Proof. intros A l m [r ->]. rewrite app_length. lia. Qed.

Section Calls.
Variables (S : option (list value) -> Prop) (stk : list value).
Hypothesis HS : Forall (sound (length stk)) stk.
Hypothesis HSome : forall l, S (Some l).

Notation ok := (fits S stk).

Lemma slot_sound : forall i w, nth_error stk i = Some w -> sound (length stk) w.
Proof. intros i w E. rewrite Forall_forall in HS. apply HS. eapply nth_error_In; eauto. Qed.

(** [get] of an argument *)
Definition direct (t : ty) : Prop := match t with TAny | TAdHoc _ _ => False | _ => True end.
Lemma getv_ok : forall l s v t, prefix stk l -> ok v t ->
  exists w, getv v (set_stack l s) = Ok w (set_stack l s) /\ ok w t /\ (direct t -> ~ a_reference w).
Proof.
  intros l s v t Hp [H1 H2]. destruct v as [i| | | | | | | | | | | | | | | | | | ]; simpl.
  2-19: eexists; split; [reflexivity|]; split; [split; assumption|]; intros _ [j E]; discriminate.
  inversion H1 as [j Hj| | | | | | | | | | | | | | | | |]; subst.
  destruct (nth_error stk i) as [w|] eqn:E; [|apply nth_error_None in E; lia].
  exists w. unfold slot. simpl. rewrite (prefix_nth _ _ _ _ Hp E). split; [reflexivity|].
  pose proof (slot_sound _ _ E) as Hw. clear H1 l s Hp.
  remember (VRef i) as v eqn:Ev. revert Ev. clear HS.
  induction H2 as [j w' t H3 H4 H5 IH| | | | | | | | | | | | | | | | | |name t v H3 IH]; intros Ev; try discriminate.
  - injection Ev as ->. rewrite E in H3. injection H3 as <-. split; [split; assumption|auto].
  - split; [split; [exact Hw|constructor]|intros D; contradiction].
  - destruct (IH Ev) as [[IH1 IH2] _]. split; [split; [exact Hw|constructor; exact IH2]|intros D; contradiction].
Qed.

(** *** Evaluation of the functions, as equations *)
Lemma e_pop : forall {B} (k : value -> M B) l v s, bind pop k (set_stack (l ++ [v]) s) = k v (set_stack l s).
Proof. intros. unfold bind. rewrite pop_snoc. reflexivity. Qed.
Lemma e_pop' : forall {B} (k : value -> M B) l l' v s, bind pop k (set_stack (l ++ [v]) (set_stack l' s)) = k v (set_stack l s).
Proof. intros. unfold bind. rewrite pop_snoc. reflexivity. Qed.
Lemma e_assoc : forall {A B C} (m : M A) (f : A -> M B) (k : B -> M C) s, bind (bind m f) k s = bind m (fun x => bind (f x) k) s.
Proof. intros. unfold bind. destruct (m s); reflexivity. Qed.
Lemma e_ret : forall {A B} (a : A) (k : A -> M B) s, bind (ret a) k s = k a s.
Proof. reflexivity. Qed.
Lemma e_getv : forall l s v t, prefix stk l -> ok v t ->
  exists w, (forall B (k : value -> M B), bind (getv v) k (set_stack l s) = k w (set_stack l s)) /\ ok w t /\ (direct t -> ~ a_reference w).
Proof.
  intros l s v t Hp H. destruct (getv_ok l s v t Hp H) as (w & E & H1). exists w. split; [|exact H1].
  intros B k. unfold bind. rewrite E. reflexivity.
Qed.
Lemma e_arg : forall {A} (f : value -> option A) t, direct t -> (forall w, typed S stk t w -> ~ a_reference w -> exists a, f w = Some a) ->
  forall l s v, prefix stk l -> ok v t -> exists a : A, forall B (k : A -> M B), bind (arg f) k (set_stack (l ++ [v]) s) = k a (set_stack l s).
Proof.
  intros A f t Hd Hf l s v Hp H. destruct (e_getv l s v t Hp H) as (w & E & [H1 H2] & H3).
  destruct (Hf w H2 (H3 Hd)) as [a Ha]. exists a. intros B k. unfold arg. rewrite e_assoc, e_pop, e_assoc, E, Ha. reflexivity.
Qed.
Lemma e_expect : forall {A} (f : value -> option A) t, direct t -> (forall w, typed S stk t w -> ~ a_reference w -> exists a, f w = Some a) ->
  forall l s v, prefix stk l -> ok v t -> exists a : A, forall B (k : A -> M B), bind (arg_expect f) k (set_stack (l ++ [v]) s) = k a (set_stack l s).
Proof.
  intros A f t Hd Hf l s v Hp H. destruct (e_getv l s v t Hp H) as (w & E & [H1 H2] & H3).
  destruct (Hf w H2 (H3 Hd)) as [a Ha]. exists a. intros B k. unfold arg_expect. rewrite e_assoc, e_pop, e_assoc, E, Ha. reflexivity.
Qed.
Ltac shape := let w := fresh in let H := fresh in let N := fresh in intros w H N; inversion H; subst; simpl; eauto; exfalso; apply N; eexists; reflexivity.
Lemma is_f64 : forall w, typed S stk TF64 w -> ~ a_reference w -> exists a, as_f64 w = Some a. Proof. shape. Qed.
Lemma is_vec4 : forall w, typed S stk TVec4 w -> ~ a_reference w -> exists a, as_vec4 w = Some a. Proof. shape. Qed.
Lemma is_mat4 : forall w, typed S stk TMat4 w -> ~ a_reference w -> exists a, as_mat4 w = Some a. Proof. shape. Qed.
Lemma is_str : forall w, typed S stk TStr w -> ~ a_reference w -> exists a, as_str w = Some a. Proof. shape. Qed.
Lemma is_link : forall w, typed S stk TLink w -> ~ a_reference w -> exists a, as_link w = Some a. Proof. shape. Qed.
Definition a_f64 := @e_arg _ as_f64 TF64 I is_f64.
Definition a_vec4 := @e_arg _ as_vec4 TVec4 I is_vec4.
Definition a_mat4 := @e_arg _ as_mat4 TMat4 I is_mat4.
Definition a_str := @e_arg _ as_str TStr I is_str.
Definition a_link := @e_arg _ as_link TLink I is_link.
Definition x_f64 := @e_expect _ as_f64 TF64 I is_f64.
Definition x_vec4 := @e_expect _ as_vec4 TVec4 I is_vec4.
Definition x_mat4 := @e_expect _ as_mat4 TMat4 I is_mat4.

Lemma kept_refl : forall l : list value, kept l l.
Proof. split; auto. Qed.
Lemma answers_gives : forall {A} s (good : A -> Prop) (o : outcome A), answers stk s good o -> gives stk s (fun stk' v => stk' = stk /\ good v) o.
Proof. intros A s good o (a & -> & H). simpl. exists stk. split; [reflexivity|]. split; [apply kept_refl|]. split; [exact HS|]. split; [reflexivity|exact H]. Qed.

Lemma best_of_ok : forall better l s best, Forall (sound (length stk)) l ->
  exists y, forall B (k : f64 -> M B), bind (best_of better l best) k (set_stack stk s) = k y (set_stack stk s).
Proof.
  intros better l s best H. revert best. induction H as [|v l Hv H IH]; intros best.
  - exists best. reflexivity.
  - assert (ok v TAny) as Hv' by (split; [exact Hv|constructor]).
    destruct (e_getv stk s v TAny (prefix_refl _) Hv') as (w & E & _).
    destruct (IH (match w with VF64 y _ => if better y best || fis_nan best then y else best | _ => best end)) as [y Hy].
    exists y. intros B k. simpl. rewrite e_assoc, E. apply Hy.
Qed.
End Calls.

(** ** Operators *)
Ltac is_plain H := let A := fresh in let B := fresh in destruct H as [[A B] H]; inversion B; subst; clear B; try (exfalso; apply H; eexists; reflexivity).
Lemma sound_vbool : forall n b, sound n (vbool b).
Proof. intros. constructor. discriminate. Qed.
Lemma sound_vf64 : forall n b, sound n (vf64 b).
Proof. intros. constructor. discriminate. Qed.
Lemma sec_bool : forall n b sec c, sound n (VBool b sec) -> sound n (VBool c sec).
Proof. intros n b sec c H. inversion H; subst. constructor. assumption. Qed.
Lemma sec_f64 : forall n b sec c, sound n (VF64 b sec) -> sound n (VF64 c sec).
Proof. intros n b sec c H. inversion H; subst. constructor. assumption. Qed.
Lemma sec_f64_bool : forall n b sec c, sound n (VF64 b sec) -> sound n (VBool c sec).
Proof. intros n b sec c H. inversion H; subst. constructor. assumption. Qed.
Ltac sounds := first [ assumption | apply sound_vbool | apply sound_vf64 | eapply sec_bool; eassumption | eapply sec_f64; eassumption
  | eapply sec_f64_bool; eassumption | constructor; fail | constructor; assumption ].

Definition yes_or_no (n : nat) (p : pres) : Prop :=
  match p with POk (VBool b sec) => sound n (VBool b sec) | PErr _ => True | _ => False end.
Lemma equal_sound : forall n a b, sound n a -> yes_or_no n (equal a b).
Proof.
  intros n a. induction a; intros other Hs; simpl; try exact I; destruct other; simpl; try exact I; try (sounds; fail); try apply sound_vbool.
  apply IHa. inversion Hs; assumption.
Qed.
Lemma negated_sound : forall n p, yes_or_no n p -> yes_or_no n (negated p).
Proof. intros n [[]| |]; simpl; auto. apply sec_bool. Qed.
Lemma less_sound : forall n a b, sound n a -> yes_or_no n (less a b).
Proof. intros n [] [] H; simpl; try exact I; try apply sound_vbool. sounds. Qed.
Lemma less_or_equal_sound : forall n a b, sound n a -> yes_or_no n (less_or_equal a b).
Proof. intros n [] [] H; simpl; try exact I; try apply sound_vbool. sounds. Qed.
Lemma yes_or_no_bool : forall S stk p, yes_or_no (length stk) p -> may_compute (fun v => fits S stk v TBool) p.
Proof. intros S stk [[]| |]; simpl; auto; try contradiction. intros H. split; [exact H|constructor]. Qed.

Lemma plain_adhoc : forall S stk v name t, plain S stk v (TAdHoc name t) -> plain S stk v t.
Proof.
  intros S stk v name t [[H1 H2] H3]. split; [|exact H3]. split; [exact H1|].
  inversion H2; subst; [exfalso; apply H3; eexists; reflexivity|assumption].
Qed.

Section Ops.
Variables (S : option (list value) -> Prop) (stk : list value) (O : math) (L : libm) (n : nat).

Definition options (sg : sig) : Prop := sargs sg = [TOption TAny; TOption TAny].

Ltac operators He Hf Hsg Hargs :=
  unfold signatures in Hsg; simpl in He;
  repeat (destruct He as [<- | He]; [simpl in Hf; try discriminate Hf|]); try contradiction He;
  injection Hf as <-; simpl in Hsg;
  repeat (destruct Hsg as [<- | Hsg]; [simpl in Hargs; simpl sret|]); try contradiction Hsg.
Ltac args2 Hargs := 
  let Ha := fresh "Ha" in let Hb := fresh "Hb" in let R := fresh in let R' := fresh in
  inversion Hargs as [|? ? ? ? Ha R]; subst; inversion R as [|? ? ? ? Hb R']; subst; clear Hargs R R';
  try apply plain_adhoc in Ha; try apply plain_adhoc in Hb.
Ltac fit := split; [sounds|repeat (constructor; auto; fail || (constructor; constructor; auto; fail)); repeat constructor; assumption].

Lemma bin_computes : forall e f sg a b, In e (std O L n) -> e_impl e = IBin f -> In sg (p_ext (e_decl e)) -> ~ options sg ->
  Forall2 (plain S stk) [a; b] (sargs sg) -> computes (fun v => fits S stk v (sret sg)) (f a b).
Proof.
  intros e f sg a b He Hf Hsg Ho Hargs.
  operators He Hf Hsg Hargs; args2 Hargs; try (exfalso; apply Ho; reflexivity); is_plain Ha; is_plain Hb.
  all: eexists; split; [reflexivity|split; [sounds|]].
  all: repeat constructor; try assumption.
Qed.
Lemma bin_may : forall e f sg a b, In e (std O L n) -> e_impl e = IBin f -> In sg (signatures (e_decl e)) ->
  Forall2 (plain S stk) [a; b] (sargs sg) -> may_compute (fun v => fits S stk v (sret sg)) (f a b).
Proof.
  intros e f sg a b He Hf [<- | Hsg] Hargs.
  - simpl in He; repeat (destruct He as [<- | He]; [simpl in Hf; try discriminate Hf|]); try contradiction He;
      injection Hf as <-; simpl in Hargs; simpl sret; args2 Hargs; destruct Ha as [[Ha _] _]; destruct Hb as [[Hb _] _].
    1-6: apply yes_or_no_bool; repeat apply negated_sound; first [apply less_sound | apply less_or_equal_sound | apply equal_sound]; assumption.
    all: destruct a, b; try exact I; simpl; (split; [sounds|]); first [apply Ty_any|apply Ty_f64].
  - assert (options sg \/ ~ options sg) as [Ho|Ho].
    { unfold options. destruct sg as [? l ?]; simpl. destruct l as [|[] [|[] []]]; try (right; discriminate); destruct t, t0; try (right; discriminate). left; reflexivity. }
    + unfold options in Ho. operators He Hf Hsg Hargs; try discriminate Ho; args2 Hargs; destruct Ha as [[Ha _] _];
        apply yes_or_no_bool; repeat apply negated_sound; apply equal_sound; assumption.
    + destruct (bin_computes e f sg a b He Hf Hsg Ho Hargs) as (v & -> & H). exact H.
Qed.
Ltac args1 Hargs := 
  let Ha := fresh "Ha" in let R := fresh in
  inversion Hargs as [|? ? ? ? Ha R]; subst; inversion R; subst; clear Hargs R.
(** the functions of one value: every signature but the most general one *)
Lemma un_computes : forall e f sg a, In e (std O L n) -> e_impl e = IUn f -> In sg (signatures (e_decl e)) -> sargs sg <> [TAny] ->
  Forall2 (plain S stk) [a] (sargs sg) -> computes (fun v => fits S stk v (sret sg)) (f a).
Proof.
  intros e f sg a He Hf Hsg Ho Hargs.
  operators He Hf Hsg Hargs; try (exfalso; apply Ho; reflexivity); args1 Hargs; is_plain Ha.
  all: eexists; split; [reflexivity|split; [sounds|]].
  all: repeat constructor; try assumption.
Qed.
Lemma un_may : forall e f sg a, In e (std O L n) -> e_impl e = IUn f -> In sg (signatures (e_decl e)) ->
  Forall2 (plain S stk) [a] (sargs sg) -> may_compute (fun v => fits S stk v (sret sg)) (f a).
Proof.
  intros e f sg a He Hf Hsg Hargs.
  assert (sargs sg = [TAny] \/ sargs sg <> [TAny]) as [Ho|Ho].
  { destruct sg as [? l ?]; simpl. destruct l as [|[] []]; try (right; discriminate). left; reflexivity. }
  - operators He Hf Hsg Hargs; try discriminate Ho; args1 Hargs; destruct Ha as [[Ha _] _]; destruct a; try exact I; split; try sounds; constructor.
  - destruct (un_computes e f sg a He Hf Hsg Ho Hargs) as (v & -> & H). exact H.
Qed.
End Ops.
