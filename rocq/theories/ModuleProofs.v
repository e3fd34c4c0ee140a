(** * Lemmas about function lookup and loading. *)
From Coq Require Import String Ascii List Bool Arith ZArith Lia.
From Verif Require Import TypeModel ModuleModel ModuleSpec.
Import ListNotations.
Local Open Scope string_scope.
Local Open Scope nat_scope.
Local Open Scope list_scope.

(** ** Lists with positions *)

Lemma enum_app : forall {A} (l1 l2 : list A) k, enum k (l1 ++ l2) = enum k l1 ++ enum (k + length l1) l2.
Proof.
  intros A l1. induction l1 as [|x l1 IH]; intros l2 k; cbn.
  - rewrite Nat.add_0_r. reflexivity.
  - rewrite IH. replace (S k + length l1) with (k + S (length l1)) by lia. reflexivity.
Qed.
Lemma back_snoc : forall {A} (l : list A) x, back (l ++ [x]) = (length l, x) :: back l.
Proof. intros. unfold back. rewrite enum_app, rev_app_distr. reflexivity. Qed.
Lemma enum_nth : forall {A} (l : list A) k i x, nth_error l i = Some x -> In (k + i, x) (enum k l).
Proof.
  intros A l. induction l as [|y l IH]; intros k [|i] x H; cbn in *; try discriminate.
  - injection H as ->. left. f_equal. lia.
  - right. replace (k + S i) with (S k + i) by lia. apply IH. exact H.
Qed.
Lemma in_enum : forall {A} (l : list A) k i x, In (i, x) (enum k l) -> k <= i /\ nth_error l (i - k) = Some x.
Proof.
  intros A l. induction l as [|y l IH]; intros k i x H; cbn in H; [contradiction|].
  destruct H as [E|H].
  - injection E as -> ->. rewrite Nat.sub_diag. split; [lia|reflexivity].
  - destruct (IH _ _ _ H) as [L N]. split; [lia|].
    replace (i - k) with (S (i - S k)) by lia. exact N.
Qed.
Lemma nth_enum : forall {A} (l : list A) k i, nth_error (enum k l) i = option_map (fun x => (k + i, x)) (nth_error l i).
Proof.
  intros A l. induction l as [|y l IH]; intros k [|i]; cbn; try reflexivity.
  - repeat f_equal. lia.
  - rewrite IH. destruct (nth_error l i); cbn; [|reflexivity]. repeat f_equal. lia.
Qed.
Lemma in_back : forall {A} (l : list A) i x, In (i, x) (back l) -> nth_error l i = Some x.
Proof.
  intros A l i x H. unfold back in H. apply in_rev in H. apply in_enum in H. destruct H as [_ H].
  rewrite Nat.sub_0_r in H. exact H.
Qed.

Lemma find_back : forall {A} (nm : A -> string) name (l : list A),
  match find (fun p => String.eqb (nm (snd p)) name) (back l) with
  | Some (i, x) => last_named nm name l i /\ nth_error l i = Some x
  | None => none_named nm name l
  end.
Proof.
  intros A nm name l. induction l as [|x l IH] using rev_ind.
  - cbn. intros j y H. destruct j; discriminate.
  - rewrite back_snoc. cbn [find snd]. destruct (String.eqb_spec (nm x) name) as [E|E].
    + assert (nth_error (l ++ [x]) (length l) = Some x) as N by (rewrite nth_error_app2, Nat.sub_diag by lia; reflexivity).
      split; [split; [exists x; auto|]|exact N].
      intros j y L H. exfalso. assert (j < length (l ++ [x])) by (apply nth_error_Some; congruence).
      rewrite app_length in H0. cbn in H0. lia.
    + destruct (find _ _) as [[i y]|].
      * destruct IH as [[[z [N Ez]] L] N'].
        assert (i < length l) by (apply nth_error_Some; congruence).
        split; [split|].
        -- exists z. rewrite nth_error_app1 by lia. auto.
        -- intros j w Lj H'. destruct (Nat.lt_ge_cases j (length l)) as [B|B].
           ++ rewrite nth_error_app1 in H' by lia. apply (L j w Lj H').
           ++ rewrite nth_error_app2 in H' by lia. destruct (j - length l) as [|[|]]; cbn in H'; try discriminate.
              injection H' as <-. exact E.
        -- rewrite nth_error_app1 by lia. exact N'.
      * intros j y H. destruct (Nat.lt_ge_cases j (length l)) as [B|B].
        -- rewrite nth_error_app1 in H by lia. apply (IH j y H).
        -- rewrite nth_error_app2 in H by lia. destruct (j - length l) as [|[|]]; cbn in H; try discriminate.
           injection H as <-. exact E.
Qed.
Lemma last_unique : forall {A} (nm : A -> string) name (l : list A) i j,
  last_named nm name l i -> last_named nm name l j -> i = j.
Proof.
  intros A nm name l i j [[x [X1 X2]] X3] [[y [Y1 Y2]] Y3].
  destruct (Nat.lt_trichotomy i j) as [L|[L|L]]; [|exact L|].
  - exfalso. apply (X3 j y L Y1 Y2).
  - exfalso. apply (Y3 i x L X1 X2).
Qed.
Lemma last_not_none : forall {A} (nm : A -> string) name (l : list A) i,
  last_named nm name l i -> none_named nm name l -> False.
Proof. intros A nm name l i [[x [X1 X2]] _] N. apply (N i x X1 X2). Qed.
Lemma last_app1 : forall {A} (nm : A -> string) name (l1 l2 : list A) i,
  none_named nm name l2 -> last_named nm name l1 i -> last_named nm name (l1 ++ l2) i.
Proof.
  intros A nm name l1 l2 i N [[x [X1 X2]] X3].
  assert (i < length l1) by (apply nth_error_Some; congruence). split.
  - exists x. rewrite nth_error_app1 by lia. auto.
  - intros j y L H'. destruct (Nat.lt_ge_cases j (length l1)) as [B|B].
    + rewrite nth_error_app1 in H' by lia. apply (X3 j y L H').
    + rewrite nth_error_app2 in H' by lia. apply (N _ y H').
Qed.
Lemma last_app2 : forall {A} (nm : A -> string) name (l1 l2 : list A) i,
  last_named nm name l2 i -> last_named nm name (l1 ++ l2) (length l1 + i).
Proof.
  intros A nm name l1 l2 i [[x [X1 X2]] X3]. split.
  - exists x. rewrite nth_error_app2 by lia. replace (length l1 + i - length l1) with i by lia. auto.
  - intros j y L H'. rewrite nth_error_app2 in H' by lia. apply (X3 (j - length l1) y); [lia|exact H'].
Qed.
Lemma none_app : forall {A} (nm : A -> string) name (l1 l2 : list A),
  none_named nm name l1 -> none_named nm name l2 -> none_named nm name (l1 ++ l2).
Proof.
  intros A nm name l1 l2 N1 N2 j y H. destruct (Nat.lt_ge_cases j (length l1)) as [B|B].
  - rewrite nth_error_app1 in H by lia. apply (N1 _ _ H).
  - rewrite nth_error_app2 in H by lia. apply (N2 _ _ H).
Qed.

(** ** Plain names *)

Lemma find_plain : forall m name relative,
  match find_function m name relative with
  | ILoaded z => exists i, z = (Z.of_nat i - Z.of_nat relative)%Z /\ last_named f_name name (m_funs m) i
  | INone => none_named f_name name (m_funs m) /\ none_named x_name name (m_ext m)
  | ix => none_named f_name name (m_funs m) /\
          exists j f, last_named x_name name (m_ext m) j /\ nth_error (m_ext m) j = Some f /\ ix = ext_index j f
  end.
Proof.
  intros m name relative. unfold find_function.
  pose proof (find_back f_name name (m_funs m)) as H.
  destruct (find _ (back (m_funs m))) as [[i f]|].
  - destruct H as [H _]. exists i. auto.
  - pose proof (find_back x_name name (m_ext m)) as H'.
    destruct (find _ (back (m_ext m))) as [[j f]|]; [|auto].
    destruct H' as [H' N]. unfold ext_index.
    destruct (x_fn f) eqn:Ef; try destruct (x_lazy f) eqn:El; (split; [exact H|]); exists j, f;
      (split; [exact H'|split; [exact N|]]); unfold ext_index; rewrite Ef, ?El; reflexivity.
Qed.
Lemma meant_ext : forall r j f, meant r (ext_index j f) = Some (MExternal j).
Proof. intros. unfold ext_index. destruct (x_fn f); try destruct (x_lazy f); reflexivity. Qed.
Lemma meant_ext_eager : forall r j f, meant r (ext_index_eager j f) = Some (MExternal j).
Proof. intros. unfold ext_index_eager. destruct (x_fn f); reflexivity. Qed.
Lemma meant_loaded : forall r i, meant r (ILoaded (Z.of_nat i - Z.of_nat r)) = Some (MLoaded (Z.of_nat i)).
Proof. intros. cbn. repeat f_equal. lia. Qed.

Lemma find_means : forall m name relative, plain_means m name (meant relative (find_function m name relative)).
Proof.
  intros m name relative. pose proof (find_plain m name relative) as H.
  destruct (find_function m name relative) eqn:E; cbn [meant plain_means].
  1: { destruct H as (i & -> & H). exists i. split; [lia|exact H]. }
  6: exact H.
  all: destruct H as (H & j0 & f & L & N & X);
    pose proof (meant_ext relative j0 f) as M; rewrite <- X in M; injection M as <-; auto.
Qed.

Lemma plain_unique : forall m name r r', plain_means m name r -> plain_means m name r' -> r = r'.
Proof.
  intros m name [[z|j]|] [[z'|j']|]; cbn; intros H H'; try reflexivity.
  - destruct H as (i & -> & H), H' as (i' & -> & H'). rewrite (last_unique _ _ _ _ _ H H'). reflexivity.
  - destruct H as (i & -> & H), H' as [H' _]. destruct (last_not_none _ _ _ _ H H').
  - destruct H as (i & -> & H), H' as [H' _]. destruct (last_not_none _ _ _ _ H H').
  - destruct H' as (i & -> & H'), H as [H _]. destruct (last_not_none _ _ _ _ H' H).
  - destruct H as [_ H], H' as [_ H']. rewrite (last_unique _ _ _ _ _ H H'). reflexivity.
  - destruct H as [_ H], H' as [_ H']. destruct (last_not_none _ _ _ _ H H').
  - destruct H' as (i & -> & H'), H as [H _]. destruct (last_not_none _ _ _ _ H' H).
  - destruct H as [_ H], H' as [_ H']. destruct (last_not_none _ _ _ _ H' H).
Qed.

(** ** The prelude *)

Definition all_names (m : module) : list (list string * string) :=
  map (fun f => (x_ns f, x_name f)) (m_ext m) ++ map (fun f => (f_ns f, f_name f)) (m_funs m).

Definition good_prelude (p : prelude) : Prop :=
  p_funs p = map (fun q => (snd (snd q), fst q)) (back (p_spaces p)).
Lemma good_insert : forall p ns name, good_prelude p -> good_prelude (prelude_insert p ns name).
Proof. intros p ns name H. unfold good_prelude, prelude_insert. cbn [p_funs p_spaces]. rewrite back_snoc. cbn. rewrite H. reflexivity. Qed.
Lemma prelude_fold : forall {A} (ns : A -> list string) (nm : A -> string) l p, good_prelude p ->
  let p' := fold_left (fun p f => prelude_insert p (ns f) (nm f)) l p in
  good_prelude p' /\ p_spaces p' = p_spaces p ++ map (fun f => (ns f, nm f)) l.
Proof.
  intros A ns nm l. induction l as [|x l IH]; intros p H; cbn; [rewrite app_nil_r; auto|].
  destruct (IH _ (good_insert p (ns x) (nm x) H)) as [G S]. split; [exact G|].
  rewrite S. cbn. rewrite <- app_assoc. reflexivity.
Qed.
Lemma prelude_of : forall m, good_prelude (from_module m) /\ p_spaces (from_module m) = all_names m.
Proof.
  intros m. unfold from_module.
  destruct (prelude_fold x_ns x_name (m_ext m) (Prelude [] []) eq_refl) as [G S].
  destruct (prelude_fold f_ns f_name (m_funs m) _ G) as [G' S'].
  split; [exact G'|]. rewrite S', S. reflexivity.
Qed.

Lemma find_map : forall {A B} (f : A -> B) (p : B -> bool) l, find p (map f l) = option_map f (find (fun x => p (f x)) l).
Proof. intros A B f p l. induction l as [|x l IH]; cbn; [reflexivity|]. destruct (p (f x)); [reflexivity|exact IH]. Qed.

Lemma prelude_plain : forall m name,
  match find (fun q => String.eqb (fst q) name) (p_funs (from_module m)) with
  | Some (_, i) => last_named snd name (all_names m) i
  | None => none_named snd name (all_names m)
  end.
Proof.
  intros m name. destruct (prelude_of m) as [G S]. rewrite G, S, find_map. cbn.
  pose proof (find_back snd name (all_names m)) as H.
  destruct (find _ _) as [[i x]|]; cbn; tauto.
Qed.

Lemma last_map : forall {A B} (g : A -> B) (nm : A -> string) (nm' : B -> string) name l i,
  (forall x, nm' (g x) = nm x) -> last_named nm' name (map g l) i -> last_named nm name l i.
Proof.
  intros A B g nm nm' name l i E [[x [X1 X2]] X3]. rewrite nth_error_map in X1.
  destruct (nth_error l i) as [y|] eqn:N; [|discriminate]. injection X1 as <-. split.
  - exists y. rewrite <- E. auto.
  - intros j z L H. rewrite <- E. apply (X3 j); [exact L|]. rewrite nth_error_map, H. reflexivity.
Qed.
Lemma none_map : forall {A B} (g : A -> B) (nm : A -> string) (nm' : B -> string) name l,
  (forall x, nm' (g x) = nm x) -> none_named nm' name (map g l) -> none_named nm name l.
Proof.
  intros A B g nm nm' name l E H j y N. rewrite <- E. apply (H j). rewrite nth_error_map, N. reflexivity.
Qed.
Lemma last_app_inv : forall {A} (nm : A -> string) name (l1 l2 : list A) i,
  last_named nm name (l1 ++ l2) i ->
  (i < length l1 /\ last_named nm name l1 i /\ none_named nm name l2) \/
  (length l1 <= i /\ last_named nm name l2 (i - length l1)).
Proof.
  intros A nm name l1 l2 i [[x [X1 X2]] X3]. destruct (Nat.lt_ge_cases i (length l1)) as [B|B].
  - left. split; [exact B|]. rewrite nth_error_app1 in X1 by lia. split; [split|].
    + exists x. auto.
    + intros j y L H. apply (X3 j); [exact L|]. rewrite nth_error_app1; [exact H|]. apply nth_error_Some. congruence.
    + intros j y H. apply (X3 (length l1 + j)); [lia|]. rewrite nth_error_app2 by lia.
      replace (length l1 + j - length l1) with j by lia. exact H.
  - right. split; [exact B|]. rewrite nth_error_app2 in X1 by lia. split.
    + exists x. auto.
    + intros j y L H. apply (X3 (length l1 + j)); [lia|]. rewrite nth_error_app2 by lia.
      replace (length l1 + j - length l1) with j by lia. exact H.
Qed.
Lemma none_app_inv : forall {A} (nm : A -> string) name (l1 l2 : list A),
  none_named nm name (l1 ++ l2) -> none_named nm name l1 /\ none_named nm name l2.
Proof.
  intros A nm name l1 l2 H. split; intros j y N.
  - apply (H j). rewrite nth_error_app1; [exact N|]. apply nth_error_Some. congruence.
  - apply (H (length l1 + j)). rewrite nth_error_app2 by lia. replace (length l1 + j - length l1) with j by lia. exact N.
Qed.

Lemma prelude_means : forall m name,
  plain_means m name (checked_as m
    match find (fun q => String.eqb (fst q) name) (p_funs (from_module m)) with
    | Some (_, i) => LPrelude i
    | None => LMissing
    end).
Proof.
  intros m name. pose proof (prelude_plain m name) as H.
  destruct (find _ _) as [[n i]|].
  - cbn [checked_as]. apply last_app_inv in H. rewrite map_length in H.
    destruct H as [(L & H & N)|(L & H)].
    + destruct (Nat.ltb_spec i (length (m_ext m))) as [B|B]; [|lia]. split.
      * exact (none_map (fun f => (f_ns f, f_name f)) f_name snd name _ (fun x => eq_refl) N).
      * exact (last_map (fun f => (x_ns f, x_name f)) x_name snd name _ _ (fun x => eq_refl) H).
    + destruct (Nat.ltb_spec i (length (m_ext m))) as [B|B]; [lia|].
      exists (i - length (m_ext m)). split; [reflexivity|].
      exact (last_map (fun f => (f_ns f, f_name f)) f_name snd name _ _ (fun x => eq_refl) H).
  - cbn. apply none_app_inv in H. destruct H as [H1 H2]. split.
    + exact (none_map (fun f => (f_ns f, f_name f)) f_name snd name _ (fun x => eq_refl) H2).
    + exact (none_map (fun f => (x_ns f, x_name f)) x_name snd name _ (fun x => eq_refl) H1).
Qed.

(** ** The functions of one file *)

Lemma find_enum : forall (names : list string) name k,
  match find (fun p => String.eqb (snd p) name) (enum k names) with
  | Some (i, x) => k <= i /\ nth_error names (i - k) = Some name
  | None => ~ In name names
  end.
Proof.
  intros names name. induction names as [|n names IH]; intros k; cbn; [tauto|].
  destruct (String.eqb_spec n name) as [E|E].
  - rewrite Nat.sub_diag. subst. split; [lia|reflexivity].
  - specialize (IH (S k)). destruct (find _ _) as [[i x]|].
    + destruct IH as [L N]. split; [lia|]. replace (i - k) with (S (i - S k)) by lia. exact N.
    + tauto.
Qed.
Lemma distinct_NoDup : forall names, distinct names = true -> NoDup names.
Proof.
  induction names as [|n names IH]; intros H; cbn in H; [constructor|].
  apply andb_prop in H. destruct H as [A B]. constructor; [|auto].
  intros C. apply negb_true_iff in A. rewrite <- not_true_iff_false in A. apply A.
  apply existsb_exists. exists n. split; [exact C|apply String.eqb_refl].
Qed.
Lemma own_last : forall names name, distinct names = true ->
  match index_of name names with
  | Some i => last_named (fun x => x) name names i
  | None => none_named (fun x => x) name names
  end.
Proof.
  intros names name H. unfold index_of. pose proof (find_enum names name 0) as F.
  destruct (find _ _) as [[i x]|]; cbn.
  - destruct F as [_ F]. rewrite Nat.sub_0_r in F. split; [exists name; auto|].
    intros j y L N E. subst y. apply distinct_NoDup in H.
    rewrite NoDup_nth_error in H. assert (i < length names) by (apply nth_error_Some; congruence).
    specialize (H i j H0). rewrite F, N in H. specialize (H eq_refl). lia.
  - intros j y N E. subst y. apply F. apply nth_error_In with j. exact N.
Qed.

Definition registered (src : source) (m : module) : module :=
  fold_left register (map (parsed (s_ns src)) (s_fns src)) m.
Lemma register_all : forall l m, fold_left register l m = Mdl (m_funs m ++ l) (m_tr m) (m_ext m).
Proof.
  induction l as [|f l IH]; intros m; cbn; [rewrite app_nil_r; destruct m; reflexivity|].
  rewrite IH. cbn. rewrite <- app_assoc. reflexivity.
Qed.

Lemma agree_plain : forall src m relative name, distinct (map sf_name (s_fns src)) = true ->
  meant relative (find_function (registered src m) name relative) =
  checked_as m (link_call (map sf_name (s_fns src)) (from_module m) (s_uses src) None name).
Proof.
  intros src m relative name D. apply (plain_unique (registered src m) name); [apply find_means|].
  unfold registered. rewrite register_all. cbn [link_call].
  pose proof (own_last (map sf_name (s_fns src)) name D) as H.
  destruct (index_of name _) as [i|].
  - cbn. exists (length (m_funs m) + i). split; [reflexivity|]. apply last_app2.
    apply (last_map sf_name sf_name (fun x => x) name _ i (fun x => eq_refl)) in H.
    destruct H as [[x [X1 X2]] X3]. split.
    + exists (parsed (s_ns src) x). rewrite nth_error_map, X1. auto.
    + intros j y L N. rewrite nth_error_map in N. destruct (nth_error (s_fns src) j) as [z|] eqn:Z; [|discriminate].
      injection N as <-. cbn. apply (X3 j z L Z).
  - assert (none_named f_name name (map (parsed (s_ns src)) (s_fns src))) as HN.
    { intros j y N. rewrite nth_error_map in N. destruct (nth_error (s_fns src) j) as [z|] eqn:Z; [|discriminate].
      injection N as <-. cbn. apply (H j). rewrite nth_error_map, Z. reflexivity. }
    pose proof (prelude_means m name) as P.
    set (r := checked_as m _) in *. clearbody r. destruct r as [[z|j]|]; cbn in *.
    + destruct P as (i & -> & P). exists i. split; [reflexivity|]. apply last_app1; assumption.
    + destruct P as [P1 P2]. split; [apply none_app; assumption|exact P2].
    + destruct P as [P1 P2]. split; [apply none_app; assumption|exact P2].
Qed.

(** ** Imports *)

(** the position in the prelude, as a function of the module *)
Definition tr_alias (m : module) (v : fn_alias) : fn_alias :=
  match v with ALoaded i => ALoaded (length (m_ext m) + i) | AExternal j => ALoaded j end.
Definition tr_map (m : module) (l : lookup_map) : lookup_map := map (fun e => (fst e, tr_alias m (snd e))) l.

Lemma back_app : forall {A} (l1 l2 : list A),
  back (l1 ++ l2) = map (fun p => (length l1 + fst p, snd p)) (back l2) ++ back l1.
Proof.
  intros A l1 l2. unfold back. rewrite enum_app, rev_app_distr, Nat.add_0_l. f_equal.
  rewrite map_rev. f_equal.
  assert (forall k j (l : list A), enum (k + j) l = map (fun p => (k + fst p, snd p)) (enum j l)) as H.
  { intros k j l. revert j. induction l as [|x l IH]; intros j; cbn; [reflexivity|].
    f_equal. replace (S (k + j)) with (k + S j) by lia. apply IH. }
  rewrite <- (Nat.add_0_r (length l1)) at 1. apply H.
Qed.
Lemma back_map : forall {A B} (g : A -> B) l, back (map g l) = map (fun p => (fst p, g (snd p))) (back l).
Proof.
  intros A B g l. unfold back. rewrite map_rev. f_equal. generalize 0.
  induction l as [|x l IH]; intros k; cbn; [reflexivity|]. f_equal. apply IH.
Qed.
Lemma fold_left_map : forall {A B C} (g : A -> B) (h : C -> B -> C) l c,
  fold_left h (map g l) c = fold_left (fun c a => h c (g a)) l c.
Proof. intros A B C g h l. induction l as [|x l IH]; intros c; cbn; auto. Qed.

Lemma fold_sim : forall {A C D} (R : C -> D -> Prop) (h : C -> A -> C) (h' : D -> A -> D) l c d,
  (forall c d a, In a l -> R c d -> R (h c a) (h' d a)) -> R c d -> R (fold_left h l c) (fold_left h' l d).
Proof.
  intros A C D R h h' l. induction l as [|x l IH]; intros c d H Hr; cbn; [exact Hr|].
  apply IH; [intros; apply H; [right; assumption|assumption]|]. apply H; [left; reflexivity|exact Hr].
Qed.

Definition sim (m : module) (l l' : lookup_map) : Prop := l' = tr_map m l.
Lemma sim_insert : forall m a k v l l', sim m l l' -> sim m (insert a k v l) (insert a k (tr_alias m v) l').
Proof. intros m a k v l l' ->. reflexivity. Qed.

Lemma glob_sim : forall m u l l', sim m l l' -> sim m (glob_module m u l) (glob_prelude (from_module m) u l').
Proof.
  intros m u l l' H. unfold glob_module, glob_prelude. destruct (u_fns u); [|exact H].
  destruct (prelude_of m) as [_ S]. rewrite S. unfold all_names.
  rewrite back_app, !back_map, map_length, fold_left_app, !map_map, !fold_left_map. cbn [fst snd].
  apply fold_sim with (R := sim m).
  - intros c d a _ Hs. destruct (names_eqb _ _); [|exact Hs]. exact (sim_insert m _ _ (AExternal (fst a)) _ _ Hs).
  - apply fold_sim with (R := sim m); [|exact H].
    intros c d a _ Hs. destruct (names_eqb _ _); [|exact Hs]. exact (sim_insert m _ _ (ALoaded (fst a)) _ _ Hs).
Qed.

Lemma names_eqb_spec : forall a b, names_eqb a b = true <-> a = b.
Proof. intros a b. unfold names_eqb. destruct (list_eq_dec _ _ _); split; congruence. Qed.

Lemma prefix_drop : forall n s, String.prefix n s = true -> s = (n ++ drop (String.length n) s)%string.
Proof.
  assert (forall s, drop 0 s = s) as D0.
  { intros s. unfold drop. rewrite Nat.sub_0_r. induction s as [|c s IH]; cbn; [reflexivity|]. rewrite IH. reflexivity. }
  intros n. induction n as [|c n IH]; intros [|d s] H; cbn in H; try discriminate.
  - reflexivity.
  - rewrite D0. reflexivity.
  - destruct (Ascii.ascii_dec c d) as [->|]; [|discriminate].
    cbn [String.append]. f_equal. exact (IH s H).
Qed.
Lemma get_append : forall n c r, String.get (String.length n) (n ++ r) = Some c -> exists r', r = String c r'.
Proof.
  intros n c r. induction n as [|d n IH]; cbn; [|exact IH].
  destruct r as [|e r]; cbn; [discriminate|]. intros [= ->]. exists r. reflexivity.
Qed.
Lemma mut_name_shape : forall f n, mut_name_of f n = true ->
  exists args, f = (n ++ "(" ++ args)%string /\ drop (String.length n) f = ("(" ++ args)%string.
Proof.
  intros f n H. unfold mut_name_of in H. apply andb_prop in H. destruct H as [H G].
  apply andb_prop in H. destruct H as [_ P]. pose proof (prefix_drop _ _ P) as E.
  destruct (String.get (String.length n) f) as [c|] eqn:Gc; [|discriminate].
  apply Ascii.eqb_eq in G. subst c. rewrite E in Gc. apply get_append in Gc. destruct Gc as [r Gc].
  exists r. split; [|exact Gc]. rewrite E at 1. rewrite Gc. reflexivity.
Qed.

Lemma specific_sim : forall m u l l',
  (forall n new f, In (n, Some new) (u_fns u) -> new <> n -> In f (m_ext m) -> x_ns f = u_names u ->
     mut_name_of (x_name f) n = true -> False) ->
  sim m l l' -> sim m (specific_module m u l) (specific_prelude (from_module m) u l').
Proof.
  intros m u l l' Hren H. unfold specific_module, specific_prelude.
  apply fold_sim with (R := sim m); [|exact H]. clear l l' H. intros l l' uf Huf H.
  unfold specific_fn_module, specific_fn_prelude.
  destruct (prelude_of m) as [_ S]. rewrite S. unfold all_names.
  rewrite back_app, !back_map, map_length, fold_left_app, !map_map, !fold_left_map. cbn [fst snd].
  apply fold_sim with (R := sim m).
  - intros c d a Ha Hs. destruct (names_eqb _ _) eqn:En; [|exact Hs].
    destruct (String.eqb _ _); [exact (sim_insert m _ _ (AExternal (fst a)) _ _ Hs)|].
    destruct (mut_name_of _ _) eqn:Em; [|exact Hs].
    replace (new_name uf ++ drop (String.length (fst uf)) (x_name (snd a)))%string with (x_name (snd a)).
    { exact (sim_insert m _ _ (AExternal (fst a)) _ _ Hs). }
    apply names_eqb_spec in En. destruct a as [j f]. apply in_back in Ha. apply nth_error_In in Ha.
    destruct uf as [n [new|]]; unfold new_name; cbn [fst snd] in *.
    + destruct (string_dec new n) as [->|Ne].
      * destruct (mut_name_shape _ _ Em) as (args & E1 & E2). rewrite E2. exact E1.
      * exfalso. apply (Hren n new f Huf Ne Ha En Em).
    + destruct (mut_name_shape _ _ Em) as (args & E1 & E2). rewrite E2. exact E1.
  - apply fold_sim with (R := sim m); [|exact H].
    intros c d a _ Hs. destruct (names_eqb _ _); [|exact Hs].
    destruct (String.eqb _ _); [exact (sim_insert m _ _ (ALoaded (fst a)) _ _ Hs)|].
    destruct (mut_name_of _ _); [|exact Hs]. exact (sim_insert m _ _ (ALoaded (fst a)) _ _ Hs).
Qed.

Lemma uses_sim : forall m uses, ~ renames_mut_external m uses ->
  sim m (from_uses_module uses m) (from_uses_prelude uses (from_module m)).
Proof.
  intros m uses Hren. unfold from_uses_module, from_uses_prelude.
  apply fold_sim with (R := sim m).
  - intros c d u Hu Hs. apply specific_sim; [|exact Hs].
    intros n new f H1 H2 H3 H4 H5. apply Hren. exists u, n, new, f. auto 10.
  - apply fold_sim with (R := sim m); [|reflexivity]. intros c d u _ Hs. apply glob_sim. exact Hs.
Qed.
Lemma lookup_sim : forall m l a k, lookup (tr_map m l) a k = option_map (tr_alias m) (lookup l a k).
Proof.
  intros m l a k. unfold lookup, tr_map. rewrite find_map. cbn [fst].
  destruct (find _ l) as [[x v]|]; reflexivity.
Qed.

(** ** What an import means *)

Definition sound (m : module) (uses : list use_import) (l : lookup_map) : Prop :=
  forall a k v, In ((a, k), v) l ->
    exists u ns name, In u uses /\ place m v = Some (ns, name) /\
      (imports u ns name a k \/
       (exists n new, In (n, Some new) (u_fns u) /\ u_alias u = a /\ u_names u = ns /\ k = name /\
          mut_name_of name n = true /\ exists j, v = AExternal j)).

Lemma fold_inv : forall {A C} (P : C -> Prop) (h : C -> A -> C) l c,
  (forall c a, In a l -> P c -> P (h c a)) -> P c -> P (fold_left h l c).
Proof.
  intros A C P h l. induction l as [|x l IH]; intros c H Hc; cbn; [exact Hc|].
  apply IH; [intros; apply H; [right; assumption|assumption]|]. apply H; [left; reflexivity|exact Hc].
Qed.
Lemma sound_insert : forall m uses a k v l, sound m uses l ->
  (exists u ns name, In u uses /\ place m v = Some (ns, name) /\
      (imports u ns name a k \/
       (exists n new, In (n, Some new) (u_fns u) /\ u_alias u = a /\ u_names u = ns /\ k = name /\
          mut_name_of name n = true /\ exists j, v = AExternal j))) ->
  sound m uses (insert a k v l).
Proof. intros m uses a k v l H Hn a' k' v' [E|I]; [injection E as <- <- <-; exact Hn|apply H; exact I]. Qed.

Lemma from_uses_sound : forall m uses, sound m uses (from_uses_module uses m).
Proof.
  intros m uses. unfold from_uses_module. apply fold_inv.
  - intros l u Hu Hs. unfold specific_module. apply fold_inv; [|exact Hs]. clear l Hs. intros l uf Huf Hs.
    assert (u_fns u <> []) as Hne by (intros C; rewrite C in Huf; exact Huf).
    unfold specific_fn_module. apply fold_inv.
    + intros l' [j f] Ha Hs'. cbn [fst snd]. apply in_back in Ha.
      destruct (names_eqb _ _) eqn:En; [|exact Hs']. apply names_eqb_spec in En.
      destruct (String.eqb_spec (x_name f) (fst uf)) as [E|E].
      * apply sound_insert; [exact Hs'|]. exists u, (x_ns f), (x_name f). cbn [place]. rewrite Ha.
        split; [exact Hu|split; [reflexivity|left]]. split; [reflexivity|split; [auto|]].
        destruct uf as [n new]. cbn [fst] in E. destruct (u_fns u); [congruence|].
        exists n, new. split; [exact Huf|]. left. split; [exact E|reflexivity].
      * destruct (mut_name_of _ _) eqn:Em; [|exact Hs'].
        apply sound_insert; [exact Hs'|]. exists u, (x_ns f), (x_name f). cbn [place]. rewrite Ha.
        split; [exact Hu|split; [reflexivity|]].
        destruct uf as [n [new|]]; cbn [fst] in *.
        -- right. exists n, new. repeat split; auto. exists j. reflexivity.
        -- left. split; [reflexivity|split; [auto|]]. destruct (u_fns u); [congruence|].
           exists n, None. split; [exact Huf|]. right. destruct (mut_name_shape _ _ Em) as (args & E1 & E2).
           exists args. split; exact E1.
    + apply fold_inv; [|exact Hs]. intros l' [i f] Ha Hs'. cbn [fst snd]. apply in_back in Ha.
      destruct (names_eqb _ _) eqn:En; [|exact Hs']. apply names_eqb_spec in En.
      destruct (String.eqb_spec (f_name f) (fst uf)) as [E|E].
      * apply sound_insert; [exact Hs'|]. exists u, (f_ns f), (f_name f). cbn [place]. rewrite Ha.
        split; [exact Hu|split; [reflexivity|left]]. split; [reflexivity|split; [auto|]].
        destruct uf as [n new]. cbn [fst] in E. destruct (u_fns u); [congruence|].
        exists n, new. split; [exact Huf|]. left. split; [exact E|reflexivity].
      * destruct (mut_name_of _ _) eqn:Em; [|exact Hs'].
        apply sound_insert; [exact Hs'|]. exists u, (f_ns f), (f_name f). cbn [place]. rewrite Ha.
        split; [exact Hu|split; [reflexivity|left]]. split; [reflexivity|split; [auto|]].
        destruct uf as [n new]. cbn [fst] in *. destruct (u_fns u); [congruence|].
        exists n, new. split; [exact Huf|]. right. destruct (mut_name_shape _ _ Em) as (args & E1 & E2).
        exists args. split; [exact E1|]. rewrite E2. reflexivity.
  - apply fold_inv; [|intros a k v []]. intros l u Hu Hs. unfold glob_module.
    destruct (u_fns u) eqn:Eu; [|exact Hs]. apply fold_inv.
    + intros l' [j f] Ha Hs'. cbn [fst snd]. apply in_back in Ha.
      destruct (names_eqb _ _) eqn:En; [|exact Hs']. apply names_eqb_spec in En.
      apply sound_insert; [exact Hs'|]. exists u, (x_ns f), (x_name f). cbn [place]. rewrite Ha.
      split; [exact Hu|split; [reflexivity|left]]. unfold imports. rewrite Eu. auto.
    + apply fold_inv; [|exact Hs]. intros l' [i f] Ha Hs'. cbn [fst snd]. apply in_back in Ha.
      destruct (names_eqb _ _) eqn:En; [|exact Hs']. apply names_eqb_spec in En.
      apply sound_insert; [exact Hs'|]. exists u, (f_ns f), (f_name f). cbn [place]. rewrite Ha.
      split; [exact Hu|split; [reflexivity|left]]. unfold imports. rewrite Eu. auto.
Qed.
Lemma lookup_in : forall l a k v, lookup l a k = Some v -> In ((a, k), v) l.
Proof.
  intros l a k v H. unfold lookup in H. destruct (find _ l) as [[[a' k'] v']|] eqn:F; [|discriminate].
  injection H as <-. apply find_some in F. destruct F as [I E]. cbn in E. apply andb_prop in E.
  destruct E as [E1 E2]. apply String.eqb_eq in E1. apply String.eqb_eq in E2. subst. exact I.
Qed.

Lemma agree_alias : forall src m relative a name, ~ renames_mut_external m (s_uses src) ->
  meant relative (resolve (registered src m) (from_uses_module (s_uses src) m) relative (Some a) name) =
  checked_as m (link_call (map sf_name (s_fns src)) (from_module m) (s_uses src) (Some a) name).
Proof.
  intros src m relative a name Hren. cbn [resolve link_call].
  rewrite (uses_sim m (s_uses src) Hren), lookup_sim.
  destruct (lookup (from_uses_module (s_uses src) m) a name) as [[i|j]|] eqn:L; cbn [option_map tr_alias checked_as].
  - rewrite meant_loaded. destruct (Nat.ltb_spec (length (m_ext m) + i) (length (m_ext m))) as [B|B]; [lia|].
    repeat f_equal. lia.
  - apply lookup_in in L. apply from_uses_sound in L. destruct L as (u & ns & nm & _ & P & _).
    unfold registered. rewrite register_all. cbn [m_ext]. cbn [place] in P.
    destruct (nth_error (m_ext m) j) as [f|] eqn:N; [|discriminate].
    assert (j < length (m_ext m)) as B by (apply nth_error_Some; congruence).
    destruct (Nat.ltb_spec j (length (m_ext m))) as [_|B']; [|lia]. apply meant_ext_eager.
  - reflexivity.
Qed.

(** ** Loading *)

Lemma nth_convert : forall src m i,
  nth_error (m_funs (convert src m)) i =
  option_map (get_locals (registered src m) (from_uses_module (s_uses src) m) i) (nth_error (m_funs (registered src m)) i).
Proof.
  intros src m i. unfold convert. cbn [m_funs]. rewrite nth_error_map, nth_enum. cbn.
  fold (registered src m). destruct (nth_error (m_funs (registered src m)) i); reflexivity.
Qed.
Lemma length_convert : forall src m, length (m_funs (convert src m)) = length (m_funs m) + length (s_fns src).
Proof.
  intros src m. unfold convert. cbn [m_funs]. rewrite map_length. fold (registered src m).
  assert (forall {A} (l : list A) k, length (enum k l) = length l) as H.
  { intros A l. induction l as [|x l IH]; intros k; cbn; auto. }
  rewrite H. unfold registered. rewrite register_all. cbn. rewrite app_length, map_length. reflexivity.
Qed.
Lemma set_ret_len : forall l i t, length (set_ret i t l) = length l.
Proof. induction l as [|f l IH]; intros [|i] t; cbn; auto. Qed.
Lemma set_ret_nth : forall l i t j, j <> i -> nth_error (set_ret i t l) j = nth_error l j.
Proof. induction l as [|f l IH]; intros [|i] t [|j] H; cbn; auto; lia. Qed.
Lemma set_ret_same : forall l i t, nth_error (set_ret i t l) i =
  option_map (fun f => Function (f_ns f) (f_name f) (f_looked f) t (f_sites f)) (nth_error l i).
Proof. induction l as [|f l IH]; intros [|i] t; cbn; auto. Qed.

(** Two functions that differ at most in their return type. *)
Definition but_ret (f g : function) : Prop :=
  f_ns f = f_ns g /\ f_name f = f_name g /\ f_looked f = f_looked g /\ f_sites f = f_sites g.
Definition kept (k : nat) (m m' : module) : Prop :=
  m_tr m' = m_tr m /\ m_ext m' = m_ext m /\ length (m_funs m') = length (m_funs m) /\
  (forall i, i < k -> nth_error (m_funs m') i = nth_error (m_funs m) i) /\
  (forall i f, nth_error (m_funs m) i = Some f -> exists g, nth_error (m_funs m') i = Some g /\ but_ret f g).
Lemma but_ret_refl : forall f, but_ret f f.
Proof. repeat split. Qed.
Lemma kept_refl : forall k m, kept k m m.
Proof. intros k m. repeat split. intros i f H. exists f. split; [exact H|apply but_ret_refl]. Qed.

Lemma refine_kept : forall k m r,
  (exists i f, k <= i /\ nth_error (m_funs m) i = Some f /\ f_name f = fst r) -> kept k m (refine_ret m r).
Proof.
  intros k m r (i & f & Hk & N & E). unfold refine_ret. pose proof (find_plain m (fst r) 0) as P.
  destruct (find_function m (fst r) 0); try apply kept_refl.
  destruct P as (i' & -> & [_ L]). replace (Z.to_nat (Z.of_nat i' - Z.of_nat 0)) with i' by lia.
  assert (k <= i') as Hk'.
  { destruct (Nat.lt_ge_cases i' i) as [B|B]; [|lia]. exfalso. apply (L i f B N E). }
  repeat split; cbn [m_funs].
  - apply set_ret_len.
  - intros j Hj. apply set_ret_nth. lia.
  - intros j g Hj. destruct (Nat.eq_dec j i') as [->|Ne].
    + rewrite set_ret_same, Hj. eexists. split; [reflexivity|]. repeat split.
    + rewrite set_ret_nth by exact Ne. exists g. split; [exact Hj|apply but_ret_refl].
Qed.
Lemma kept_trans : forall k m1 m2 m3, kept k m1 m2 -> kept k m2 m3 -> kept k m1 m3.
Proof.
  intros k m1 m2 m3 (A1 & A2 & A3 & A4 & A5) (B1 & B2 & B3 & B4 & B5).
  unfold kept. split; [congruence|]. split; [congruence|]. split; [congruence|]. split.
  - intros i Hi. rewrite B4, A4; auto.
  - intros i f N. destruct (A5 i f N) as (g & N2 & R1). destruct (B5 i g N2) as (h & N3 & R2).
    exists h. split; [exact N3|]. destruct R1 as (? & ? & ? & ?), R2 as (? & ? & ? & ?).
    unfold but_ret. repeat split; congruence.
Qed.
Lemma kept_named : forall k m m' n, kept k m m' ->
  (exists i f, k <= i /\ nth_error (m_funs m) i = Some f /\ f_name f = n) ->
  exists i f, k <= i /\ nth_error (m_funs m') i = Some f /\ f_name f = n.
Proof.
  intros k m m' n (_ & _ & _ & _ & A) (i & f & Hk & N & E). destruct (A i f N) as (g & N' & (_ & E' & _)).
  exists i, g. split; [exact Hk|]. split; [exact N'|congruence].
Qed.
Lemma refine_all_kept : forall k rets m,
  (forall n t, In (n, t) rets -> exists i f, k <= i /\ nth_error (m_funs m) i = Some f /\ f_name f = n) ->
  kept k m (fold_left refine_ret rets m).
Proof.
  intros k rets. induction rets as [|[n t] rets IH]; intros m H; cbn [fold_left]; [apply kept_refl|].
  assert (kept k m (refine_ret m (n, t))) as K by (apply refine_kept; apply (H n t); left; reflexivity).
  eapply kept_trans; [exact K|]. apply IH. intros n' t' I. eapply kept_named; [exact K|].
  apply (H n' t'). right. exact I.
Qed.
Lemma new_function : forall src m k sf, nth_error (s_fns src) k = Some sf ->
  nth_error (m_funs (convert src m)) (length (m_funs m) + k) =
  Some (Function (s_ns src) (sf_name sf) true (sf_ret sf)
    (map (fun c => Site (fst c) (snd c)
       (resolve (registered src m) (from_uses_module (s_uses src) m) (length (m_funs m) + k) (fst c) (snd c)))
       (sf_sites sf))).
Proof.
  intros src m k sf H. rewrite nth_convert.
  assert (m_funs (registered src m) = m_funs m ++ map (parsed (s_ns src)) (s_fns src)) as E.
  { unfold registered. rewrite register_all. reflexivity. }
  rewrite E, nth_error_app2 by lia. replace (length (m_funs m) + k - length (m_funs m)) with k by lia.
  rewrite nth_error_map, H. cbn. unfold get_locals. cbn. rewrite map_map. reflexivity.
Qed.
Lemma load_kept : forall src rest m, own_rets src rest ->
  kept (length (m_funs m)) (convert src m) (snd (load_str src rest m)).
Proof.
  intros src rest m H. unfold load_str. destruct (links _ _); [|apply kept_refl].
  destruct rest as [rets|]; [|apply kept_refl]. cbn [snd]. apply refine_all_kept.
  intros n t I. apply (H rets eq_refl) in I. apply in_map_iff in I. destruct I as (sf & E & I).
  apply In_nth_error in I. destruct I as [k N].
  exists (length (m_funs m) + k). eexists. split; [lia|]. split; [exact (new_function src m k sf N)|exact E].
Qed.

Lemma old_function : forall src m i f, nth_error (m_funs m) i = Some f -> f_looked f = true ->
  nth_error (m_funs (convert src m)) i = Some f.
Proof.
  intros src m i f N L. rewrite nth_convert. unfold registered. rewrite register_all. cbn [m_funs].
  rewrite nth_error_app1 by (apply nth_error_Some; congruence). rewrite N. cbn. unfold get_locals. rewrite L. reflexivity.
Qed.

(** ** Calls lead to functions of the module *)

Lemma place_loaded : forall m i ns n, place m (ALoaded i) = Some (ns, n) -> i < length (m_funs m).
Proof.
  intros m i ns n H. cbn in H. destruct (nth_error (m_funs m) i) eqn:N; [|discriminate].
  apply nth_error_Some. congruence.
Qed.
Lemma resolve_in : forall src m k alias name z,
  resolve (registered src m) (from_uses_module (s_uses src) m) k alias name = ILoaded z ->
  exists i, z = (Z.of_nat i - Z.of_nat k)%Z /\ i < length (m_funs m) + length (s_fns src).
Proof.
  intros src m k alias name z H. destruct alias as [a|]; cbn in H.
  - destruct (lookup _ _ _) as [[i|j]|] eqn:L; try discriminate.
    + injection H as <-. exists i. split; [reflexivity|].
      apply lookup_in, from_uses_sound in L. destruct L as (u & ns & n & _ & P & _).
      apply place_loaded in P. lia.
    + destruct (nth_error _ j) as [f|]; [|discriminate]. unfold ext_index_eager in H. destruct (x_fn f); discriminate.
  - pose proof (find_plain (registered src m) name k) as P. rewrite H in P.
    destruct P as (i & -> & [[x [N _]] _]). exists i. split; [reflexivity|].
    assert (i < length (m_funs (registered src m))) as B by (apply nth_error_Some; congruence).
    unfold registered in B. rewrite register_all in B. cbn in B. rewrite app_length, map_length in B. exact B.
Qed.

Lemma linked_convert : forall src m, linked_module m -> linked_module (convert src m).
Proof.
  intros src m [Htr H]. split.
  - rewrite length_convert. change (m_tr (convert src m)) with (m_tr (registered src m)).
    unfold registered. rewrite register_all. cbn. lia.
  - assert (m_tr (convert src m) = m_tr m) as Etr.
    { change (m_tr (convert src m)) with (m_tr (registered src m)). unfold registered. rewrite register_all. reflexivity. }
    intros i f N. rewrite length_convert, Etr. destruct (Nat.lt_ge_cases i (length (m_funs m))) as [B|B].
    + destruct (nth_error (m_funs m) i) as [g|] eqn:G; [|apply nth_error_None in G; lia].
      destruct (H i g G) as [L S]. rewrite (old_function src m i g G L) in N. injection N as <-.
      split; [exact L|]. intros s z I E. destruct (S s z I E) as [S1 S2]. split; [lia|exact S2].
    + assert (i < length (m_funs m) + length (s_fns src)) as B2.
      { rewrite <- length_convert with (m := m) (src := src). apply nth_error_Some. congruence. }
      destruct (nth_error (s_fns src) (i - length (m_funs m))) as [sf|] eqn:Sf; [|apply nth_error_None in Sf; lia].
      pose proof (new_function src m _ sf Sf) as E. replace (length (m_funs m) + (i - length (m_funs m))) with i in E by lia.
      rewrite N in E. injection E as ->. split; [reflexivity|]. cbn [f_sites]. intros s z I Ez.
      apply in_map_iff in I. destruct I as (c & <- & _). cbn [st_index] in Ez.
      apply resolve_in in Ez. destruct Ez as (i' & -> & L). split; [lia|]. lia.
Qed.
Lemma linked_kept : forall k m m', kept k m m' -> linked_module m -> linked_module m'.
Proof.
  intros k m m' (A1 & A2 & A3 & A4 & A5) [Htr H]. split; [lia|]. rewrite A1, A3. intros i f N.
  destruct (nth_error (m_funs m) i) as [g|] eqn:G.
  - destruct (A5 i g G) as (h & N' & (R1 & R2 & R3 & R4)). rewrite N in N'. injection N' as <-.
    destruct (H i g G) as [L S]. rewrite <- R3, <- R4. auto.
  - exfalso. apply nth_error_None in G. assert (i < length (m_funs m')) by (apply nth_error_Some; congruence). lia.
Qed.
Lemma linked_load : forall src rest m, own_rets src rest -> linked_module m -> linked_module (snd (load_str src rest m)).
Proof.
  intros src rest m Ho H. eapply linked_kept; [apply load_kept; exact Ho|]. apply linked_convert. exact H.
Qed.

Lemma linked_app : forall m other n k,
  linked_module m -> linked_module other -> k = length (m_funs other) \/ k = m_tr other ->
  n = m_tr m \/ n = length (m_funs m ++ firstn k (m_funs other)) ->
  forall ext, linked_module (Mdl (m_funs m ++ firstn k (m_funs other)) n ext).
Proof.
  intros m other n k [T1 H1] [T2 H2] Hk Hn ext.
  assert (length (firstn k (m_funs other)) = k) as Lk by (rewrite firstn_length; lia).
  split; cbn [m_tr m_funs]; [rewrite app_length, Lk in *; lia|].
  rewrite app_length, Lk in *. intros i f N. destruct (Nat.lt_ge_cases i (length (m_funs m))) as [B|B].
  - rewrite nth_error_app1 in N by lia. destruct (H1 i f N) as [L S]. split; [exact L|].
    intros s z I E. destruct (S s z I E) as [S1 S2]. split; [lia|]. intros Hi.
    destruct Hn as [-> | ->]; [apply S2; exact Hi|]. lia.
  - rewrite nth_error_app2 in N by lia.
    assert (i - length (m_funs m) < k) as B2.
    { rewrite <- Lk. apply nth_error_Some. congruence. }
    assert (nth_error (m_funs other) (i - length (m_funs m)) = Some f) as N'.
    { rewrite <- (firstn_skipn k (m_funs other)), nth_error_app1; [exact N|]. rewrite Lk. exact B2. }
    destruct (H2 _ f N') as [L S]. split; [exact L|]. intros s z I E. destruct (S s z I E) as [S1 S2].
    assert (0 <= z + Z.of_nat (i - length (m_funs m)) < Z.of_nat k)%Z as S3.
    { destruct Hk as [-> | ->]; [exact S1|]. split; [lia|apply S2; exact B2]. }
    split; [lia|]. intros Hi. destruct Hn as [-> | ->]; lia.
Qed.

Lemma linked_grows : forall m m', grows m m' -> linked_module m -> linked_module m'.
Proof.
  intros m m' G. induction G as [m|src rest m m' Ho G IH|other m m' Hl G IH|other m m' Hl G IH|other m m' G IH|m m' G IH];
    intros H; try specialize (IH H).
  - exact H.
  - apply linked_load; assumption.
  - unfold import. rewrite <- (firstn_all (m_funs other)).
    apply linked_app; auto.
  - unfold import_tr_prelude. cbv zeta. apply linked_app; auto.
  - exact IH.
  - destruct IH as [T S]. split; cbn [make_transitive m_tr m_funs]; [lia|]. intros i f N.
    destruct (S i f N) as [L S']. split; [exact L|]. intros s z I E. destruct (S' s z I E) as [S1 S2].
    split; [exact S1|]. intros _. lia.
Qed.

Lemma grows_prefix : forall m m', grows m m' -> linked_module m ->
  forall i f, nth_error (m_funs m) i = Some f -> nth_error (m_funs m') i = Some f.
Proof.
  intros m m' G. induction G as [m|src rest m m' Ho G IH|other m m' Hl G IH|other m m' Hl G IH|other m m' G IH|m m' G IH];
    intros H i f N; try specialize (IH H i f N).
  - exact N.
  - destruct (load_kept src rest m' Ho) as (_ & _ & _ & K & _).
    destruct (linked_grows m m' G H) as [_ S]. destruct (S i f IH) as [L _].
    rewrite K by (apply nth_error_Some; congruence). apply old_function; assumption.
  - cbn. rewrite nth_error_app1; [exact IH|]. apply nth_error_Some. congruence.
  - cbn. rewrite nth_error_app1; [exact IH|]. apply nth_error_Some. congruence.
  - exact IH.
  - exact IH.
Qed.
