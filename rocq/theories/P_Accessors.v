(** * C59: indexing a vector or a matrix agrees with the named functions. *)
From Coq Require Import String List ZArith Bool Arith Lia Floats.SpecFloat.
From Verif Require Import Float64 Syntax InterpModel StdModel TypeModel PreludeModel PreludeSpec PreludeProofs P_Prelude.
Import ListNotations.
Local Open Scope string_scope.
Local Open Scope nat_scope.
Local Open Scope list_scope.

(** The function of the library with this name gives this value on these arguments, in every state, and takes them away. *)
Definition library (O : math) (L : libm) (n : nat) (name : string) (f : M value) : Prop :=
  exists d, In (Entry name (IRet f) d) (std O L n).
Definition stands (stk : list value) (v w : value) : Prop :=
  (v = w /\ ~ a_reference v) \/ exists i, v = VRef i /\ nth_error stk i = Some w.
Definition gives_on (O : math) (L : libm) (n : nat) (name : string) (ws : list value) (r : value) : Prop :=
  forall f, library O L n name f -> forall stk vs s, Forall2 (stands stk) vs ws -> r_stack s = stk ++ vs -> f s = Ok r (set_stack stk s).
Definition errs_on (O : math) (L : libm) (n : nat) (name : string) (ws : list value) : Prop :=
  forall f, library O L n name f -> forall stk vs s, Forall2 (stands stk) vs ws -> r_stack s = stk ++ vs -> exists m s', f s = Err m s'.

Lemma library_is : forall O L n name f e, library O L n name f -> In e (std O L n) -> e_name e = name -> e_impl e = IRet f.
Proof.
  intros O L n name f e [d Hd] He Hn. pose proof (names_distinct O L n) as D.
  revert Hd He D. generalize (std O L n) as l. induction l as [|x l IH]; intros Hd He D; [contradiction|].
  simpl in D. inversion D as [|? ? D1 D2]; subst. destruct Hd as [Hd|Hd], He as [He|He]; auto.
  - rewrite <- He, Hd. reflexivity.
  - exfalso. apply D1. rewrite Hd. simpl. apply in_map. exact He.
  - exfalso. subst. apply D1. apply (in_map e_name) in Hd. exact Hd.
Qed.
Lemma stands_getv : forall stk l s v w, prefix stk l -> stands stk v w -> forall B (k : value -> M B), bind (getv v) k (set_stack l s) = k w (set_stack l s).
Proof.
  intros stk l s v w Hp [[-> H]|(i & -> & H)] B k.
  - destruct w; try reflexivity. exfalso. apply H. eexists. reflexivity.
  - simpl. unfold bind, slot. simpl. rewrite (prefix_nth _ _ _ _ Hp H). reflexivity.
Qed.
Lemma arg_stands : forall {A} (f : value -> option A) stk l s v w a, prefix stk l -> stands stk v w -> f w = Some a ->
  forall B (k : A -> M B), bind (arg f) k (set_stack (l ++ [v]) s) = k a (set_stack l s).
Proof. intros A f stk l s v w a Hp Hw Ha B k. unfold arg. rewrite e_assoc, e_pop, e_assoc, (stands_getv _ _ _ _ _ Hp Hw), Ha. reflexivity. Qed.
Lemma expect_stands : forall {A} (f : value -> option A) stk l s v w a, prefix stk l -> stands stk v w -> f w = Some a ->
  forall B (k : A -> M B), bind (arg_expect f) k (set_stack (l ++ [v]) s) = k a (set_stack l s).
Proof. intros A f stk l s v w a Hp Hw Ha B k. unfold arg_expect. rewrite e_assoc, e_pop, e_assoc, (stands_getv _ _ _ _ _ Hp Hw), Ha. reflexivity. Qed.

Section Accessors.
Variables (O : math) (L : libm) (n : nat).
Ltac one_arg Hv Hr := inversion Hv as [|x ? ? ? V1 R1]; subst; inversion R1; subst; rewrite <- (set_stack_id _ _ Hr).
Ltac two_args Hv Hr := inversion Hv as [|x ? ? ? V1 R1]; subst; inversion R1 as [|x0 ? ? ? V2 R2]; subst; inversion R2; subst; rewrite snoc2 in Hr;
  rewrite <- (set_stack_id _ _ Hr).

(** The numbers of a vector and the rows of a matrix. *)
Lemma component_gives : forall name f v, In (Entry name (IRet (component f)) (nl [TVec4] TF64)) (std O L n) ->
  gives_on O L n name [VVec4 v] (vf64 (f64_of_f32 (f v))).
Proof.
  intros name f v K g Hg stk vs s Hv Hr. pose proof (library_is O L n _ _ _ Hg K eq_refl) as E. injection E as <-.
  one_arg Hv Hr. unfold component. rewrite (arg_stands as_vec4 stk stk s x (VVec4 v) v (prefix_refl _) V1 eq_refl). reflexivity.
Qed.
Lemma row_gives : forall name f m, In (Entry name (IRet (row_ f)) (nl [TMat4] TVec4)) (std O L n) ->
  gives_on O L n name [VMat4 m] (VVec4 (row f m)).
Proof.
  intros name f v K g Hg stk vs s Hv Hr. pose proof (library_is O L n _ _ _ Hg K eq_refl) as E. injection E as <-.
  one_arg Hv Hr. unfold row_. rewrite (arg_stands as_mat4 stk stk s x (VMat4 v) v (prefix_refl _) V1 eq_refl). reflexivity.
Qed.
Lemma col_gives : forall name f m, In (Entry name (IRet (col_ f)) (nl [TMat4] TVec4)) (std O L n) ->
  gives_on O L n name [VMat4 m] (VVec4 (f m)).
Proof.
  intros name f v K g Hg stk vs s Hv Hr. pose proof (library_is O L n _ _ _ Hg K eq_refl) as E. injection E as <-.
  one_arg Hv Hr. unfold col_. rewrite (arg_stands as_mat4 stk stk s x (VMat4 v) v (prefix_refl _) V1 eq_refl). reflexivity.
Qed.
Lemma indexed_gives : forall name A (f : value -> option A) k d w a p sec, In (Entry name (IRet (indexed f k)) d) (std O L n) ->
  f w = Some a -> (f64_to_usize p < 4)%Z -> gives_on O L n name [w; VF64 p sec] (k a (Z.to_nat (f64_to_usize p))).
Proof.
  intros name A f k d w a p sec K Ha Hp g Hg stk vs s Hv Hr. pose proof (library_is O L n _ _ _ Hg K eq_refl) as E. injection E as <-.
  two_args Hv Hr. unfold indexed. rewrite (expect_stands as_f64 stk (stk ++ [x]) s x0 (VF64 p sec) p (prefix_snoc _ _ _ (prefix_refl _)) V2 eq_refl).
  destruct (Z.leb_spec 4 (f64_to_usize p)); [lia|].
  rewrite (expect_stands f stk stk s x w a (prefix_refl _) V1 Ha). reflexivity.
Qed.
Lemma indexed_errs : forall name A (f : value -> option A) k d w p sec, In (Entry name (IRet (indexed f k)) d) (std O L n) ->
  (4 <= f64_to_usize p)%Z -> errs_on O L n name [w; VF64 p sec].
Proof.
  intros name A f k d w p sec K Hp g Hg stk vs s Hv Hr. pose proof (library_is O L n _ _ _ Hg K eq_refl) as E. injection E as <-.
  two_args Hv Hr. unfold indexed. rewrite (expect_stands as_f64 stk (stk ++ [x]) s x0 (VF64 p sec) p (prefix_snoc _ _ _ (prefix_refl _)) V2 eq_refl).
  destruct (Z.leb_spec 4 (f64_to_usize p)); [|lia]. eexists _, _. reflexivity.
Qed.

(** The functions by position. *)
Definition at4 {A} (i : Z) (a b c d : A) : A := if (i =? 0)%Z then a else if (i =? 1)%Z then b else if (i =? 2)%Z then c else d.
Lemma below4 : forall p, (f64_to_usize p < 4)%Z -> f64_to_usize p = 0%Z \/ f64_to_usize p = 1%Z \/ f64_to_usize p = 2%Z \/ f64_to_usize p = 3%Z.
Proof. intros p H. pose proof (PreludeCalls.usize_pos p). lia. Qed.

(** [s(v, i)] is [x(v)], [y(v)], [z(v)] or [w(v)]. *)
Theorem C59_component : forall v p sec, (f64_to_usize p < 4)%Z -> exists r,
  gives_on O L n "s" [VVec4 v; VF64 p sec] r /\ gives_on O L n (at4 (f64_to_usize p) "x" "y" "z" "w") [VVec4 v] r.
Proof.
  intros v p sec H. eexists. split; [eapply indexed_gives; [simpl; do 42 right; left; reflexivity|reflexivity|exact H]|].
  destruct (below4 p H) as [-> |[-> |[-> | ->]]]; simpl; apply component_gives; simpl; tauto.
Qed.
(** [rv(m, i)] is [rx(m)], [ry(m)], [rz(m)] or [rw(m)]. *)
Theorem C59_row : forall m p sec, (f64_to_usize p < 4)%Z -> exists r,
  gives_on O L n "rv" [VMat4 m; VF64 p sec] r /\ gives_on O L n (at4 (f64_to_usize p) "rx" "ry" "rz" "rw") [VMat4 m] r.
Proof.
  intros v p sec H. eexists. split; [eapply indexed_gives; [simpl; do 41 right; left; reflexivity|reflexivity|exact H]|].
  destruct (below4 p H) as [-> |[-> |[-> | ->]]]; simpl; apply row_gives; simpl; tauto.
Qed.
(** Indices from 4 on are errors. *)
Theorem C59_bounds : forall v m p sec, (4 <= f64_to_usize p)%Z ->
  errs_on O L n "s" [VVec4 v; VF64 p sec] /\ errs_on O L n "rv" [VMat4 m; VF64 p sec] /\ errs_on O L n "cv" [VMat4 m; VF64 p sec].
Proof.
  intros v m p sec H. split; [|split]; eapply indexed_errs; try exact H; simpl.
  - do 42 right. left. reflexivity.
  - do 41 right. left. reflexivity.
  - do 39 right. left. reflexivity.
Qed.
(** The number in row i and column j is the same seen from both. *)
Theorem C59_rows_columns : forall m i j, (0 <= i < 4)%Z -> (0 <= j < 4)%Z -> exists r c,
  gives_on O L n (at4 i "rx" "ry" "rz" "rw") [VMat4 m] (VVec4 r) /\ gives_on O L n (at4 j "cx" "cy" "cz" "cw") [VMat4 m] (VVec4 c) /\
  at4 j (vx r) (vy r) (vz r) (vw r) = at4 i (vx c) (vy c) (vz c) (vw c).
Proof.
  intros m i j Hi Hj. exists (row (fun c => at4 i (vx c) (vy c) (vz c) (vw c)) m), (at4 j (mx m) (my m) (mz m) (mw m)).
  assert (i = 0 \/ i = 1 \/ i = 2 \/ i = 3)%Z as [-> |[-> |[-> | ->]]] by lia;
    assert (j = 0 \/ j = 1 \/ j = 2 \/ j = 3)%Z as [-> |[-> |[-> | ->]]] by lia; simpl;
    (split; [apply (row_gives _ vx) || apply (row_gives _ vy) || apply (row_gives _ vz) || apply (row_gives _ vw); simpl; tauto|
     split; [apply (col_gives _ mx) || apply (col_gives _ my) || apply (col_gives _ mz) || apply (col_gives _ mw); simpl; tauto|reflexivity]]).
Qed.
(** But [cv(m, i)] is none of the columns: it is the whole matrix. *)
Theorem C59_column_refuted : forall m p sec, (f64_to_usize p < 4)%Z -> gives_on O L n "cv" [VMat4 m; VF64 p sec] (VMat4 m) /\
  exists c, gives_on O L n (at4 (f64_to_usize p) "cx" "cy" "cz" "cw") [VMat4 m] (VVec4 c).
Proof.
  intros m p sec H. split; [exact (indexed_gives "cv" _ as_mat4 (fun m _ => VMat4 m) _ (VMat4 m) m p sec ltac:(simpl; do 39 right; left; reflexivity) eq_refl H)|].
  exists (at4 (f64_to_usize p) (mx m) (my m) (mz m) (mw m)). destruct (below4 p H) as [-> |[-> |[-> | ->]]]; simpl; apply col_gives; simpl; tauto.
Qed.
End Accessors.
Print Assumptions C59_component.
Print Assumptions C59_row.
Print Assumptions C59_bounds.
Print Assumptions C59_rows_columns.
Print Assumptions C59_column_refuted.

Definition a_row : mat4 := M4 (V4 g1 f0 f0 f0) (V4 f0 g1 g1 f0) (V4 f0 f0 g1 f0) (V4 f0 g1 f0 g1).
Example C59_example : rv (rt_of [VMat4 a_row; VRef 0; vf64 f1]) = Ok (VVec4 (V4 f0 g1 f0 g1)) (rt_of [VMat4 a_row]) /\
  row_ vy (rt_of [VMat4 a_row; VRef 0]) = Ok (VVec4 (V4 f0 g1 f0 g1)) (rt_of [VMat4 a_row]) /\ library O0 L0 0 "rv" rv /\ (f64_to_usize f1 < 4)%Z.
Proof. split; [reflexivity|]. split; [reflexivity|]. split; [exists (nl [TMat4; TF64] TVec4); simpl; tauto|reflexivity]. Qed.
