(** * Lemmas: converting the tokens of a text lays out the forest that the text stands for. *)
From Coq Require Import String List Bool Arith ZArith Lia Sorting.Sorted FinFun.
From Verif Require Import Syntax Float64 TypeModel LifetimeModel PrintModel NodesModel NodesSpec NodesProofs.
Import ListNotations.
Local Open Scope string_scope.
Local Open Scope nat_scope.
Local Open Scope list_scope.

Section TreeInd.
  Variable Q : ntree -> Prop.
  Hypothesis H : forall d ts, Forall Q ts -> Q (NT d ts).
  Fixpoint ntree_ind' (t : ntree) : Q t :=
    match t with NT d ts => H d ts ((fix all (l : list ntree) : Forall Q l := match l with [] => Forall_nil _ | t :: l => Forall_cons _ (ntree_ind' t) (all l) end) ts) end.
End TreeInd.

Lemma lay_eq : forall b p d ts, lay b p (NT d ts) = FNode d p (places (S b) ts) None [] :: lays (S b) (Some b) ts.
Proof.
  intros. simpl. f_equal. generalize (S b). generalize (Some b) as q. intros q. 
  change (forall n, (fix lays0 (b' : nat) (l : list ntree) {struct l} : list fnode :=
    match l with [] => [] | t :: l0 => lay b' q t ++ lays0 (b' + size t) l0 end) n ts = lays n q ts).
  induction ts as [|t ts IH]; intros n; simpl; auto. f_equal. apply IH.
Qed.
Lemma size_eq : forall d ts, size (NT d ts) = S (fold_right (fun t n => size t + n) 0 ts).
Proof. reflexivity. Qed.
Lemma lay_length : forall t b p, length (lay b p t) = size t.
Proof.
  induction t as [d ts IH] using ntree_ind'. intros b p. rewrite lay_eq, size_eq. simpl. f_equal.
  generalize (S b). generalize (Some b). induction IH as [|t ts Ht _ IHl]; intros q n; simpl; auto. rewrite app_length, Ht, IHl. reflexivity.
Qed.
Lemma lays_app : forall l l' b p, lays b p (l ++ l') = lays b p l ++ lays (b + length (lays b p l)) p l'.
Proof.
  induction l as [|t l IH]; intros l' b p; simpl; [now rewrite Nat.add_0_r|]. rewrite IH, <- app_assoc, app_length, lay_length. do 3 f_equal. lia.
Qed.
Lemma places_app : forall l l' b p, places b (l ++ l') = places b l ++ places (b + length (lays b p l)) l'.
Proof.
  induction l as [|t l IH]; intros l' b p; simpl; [now rewrite Nat.add_0_r|]. rewrite (IH l' (b + size t) p), app_length, lay_length. do 3 f_equal. lia.
Qed.

(** ** Conversion *)
Definition grown (d' : data) (cs : list nat) (x : fnode) : fnode := FNode d' (f_parent x) (f_children x ++ cs) (f_decl x) (f_lts x).

Lemma upd_app1 : forall g h i f, i < length g -> upd (g ++ h) i f = upd g i f ++ h.
Proof.
  intros g h i f L. unfold upd. rewrite nth_error_app1 by auto. destruct (nth_ex _ _ L) as [n E]. rewrite E.
  clear E. revert i L. induction g as [|a g IH]; intros i L; simpl in L; [lia|]. destruct i; simpl; auto. rewrite IH by lia. reflexivity.
Qed.
Lemma upd_last : forall g x f, upd (g ++ [x]) (length g) f = g ++ [f x].
Proof.
  intros. unfold upd. rewrite nth_error_app2, Nat.sub_diag by lia. simpl. clear. induction g as [|a g IH]; simpl; auto. now rewrite IH.
Qed.
Lemma nth_ext' : forall (g h : fgraph), length g = length h -> (forall i, nth_error g i = nth_error h i) -> g = h.
Proof.
  induction g as [|a g IH]; intros [|b h] L E; simpl in L; try lia; auto. f_equal; [specialize (E 0); simpl in E; congruence|].
  apply IH; [lia|]. intros i. exact (E (S i)).
Qed.
Lemma upd_ext : forall g i x f f', nth_error g i = Some x -> f x = f' x -> upd g i f = upd g i f'.
Proof. intros g i x f f' E H. unfold upd. now rewrite E, H. Qed.
Lemma upd_upd : forall g i f f', upd (upd g i f) i f' = upd g i (fun x => f' (f x)).
Proof.
  intros. apply nth_ext'; [now rewrite !upd_len|]. intros j. rewrite !upd_nth. destruct (Nat.eqb_spec j i) as [-> | N]; auto.
  destruct (nth_error g i); auto.
Qed.
Lemma upd_id : forall g i f x, nth_error g i = Some x -> f x = x -> upd g i f = g.
Proof.
  intros g i f x E H. apply nth_ext'; [now rewrite !upd_len|]. intros j. rewrite upd_nth. destruct (Nat.eqb_spec j i) as [-> | N]; auto. rewrite E. simpl. congruence.
Qed.

Lemma skip_all : forall P l rest g o, convert_from P (l ++ rest) (Cst g o (length l)) = convert_from P rest (Cst g o 0).
Proof. induction l as [|m l IH]; intros; simpl; auto. Qed.

Scheme stands_ind2 := Minimality for stands Sort Prop
  with all_stand_ind2 := Minimality for all_stand Sort Prop.
Combined Scheme stands_both from stands_ind2, all_stand_ind2.

Definition conv_t (P : type_parser) (t : stx) (d d' : data) (l : list ntree) : Prop :=
  forall g i x o rest, nth_error g i = Some x -> f_data x = d ->
    convert_from P (tokens t ++ rest) (Cst g (i :: o) 0) =
    convert_from P rest (Cst (upd g i (grown d' (places (length g) l)) ++ lays (length g) (Some i) l) (i :: o) 0).
Definition conv_l (P : type_parser) (b : list stx) (d d' : data) (l : list ntree) : Prop :=
  forall g i x o rest, nth_error g i = Some x -> f_data x = d ->
    convert_from P (flat_map tokens b ++ rest) (Cst g (i :: o) 0) =
    convert_from P rest (Cst (upd g i (grown d' (places (length g) l)) ++ lays (length g) (Some i) l) (i :: o) 0).

Lemma grown_id : forall x, grown (f_data x) [] x = x.
Proof. intros []. unfold grown. simpl. now rewrite app_nil_r. Qed.

(** a node up to its last token *)
Lemma node_conv : forall P name k body d' ts, kind_new name = Some k -> is_type k = false -> is_sig_type k = false ->
  conv_l P body (blank k (start_ty k)) d' ts -> forall g o rest,
  convert_from P (tokens (SNode name body) ++ rest) (Cst g o 0) =
  convert_from P (MEnd name :: rest) (Cst (g ++ lay (length g) (hd_error o) (NT d' ts)) (length g :: o) 0).
Proof.
  intros P name k body d' ts K T S B g o rest. cbn [tokens]. rewrite <- app_comm_cons, <- app_assoc. cbn [convert_from c_skip convert_one].
  rewrite K, T, S. cbn [nbind]. unfold open_node. cbn [c_nodes c_open].
  rewrite (B _ (length g) (FNode (blank k (start_ty k)) (hd_error o) [] None []) o (MEnd name :: rest)); auto.
  - rewrite upd_last. unfold grown at 1. cbn [f_parent f_children f_decl f_lts app]. rewrite app_length. simpl (length [_]). rewrite Nat.add_1_r.
    rewrite lay_eq, <- app_assoc. reflexivity.
  - rewrite nth_error_app2, Nat.sub_diag by lia. reflexivity.
Qed.

Lemma value_conv : forall P m d d', says m d d' -> conv_t P (SValue m) d d' [].
Proof.
  intros P m d d' S g i x o rest E D. simpl lays. rewrite app_nil_r. simpl places. cbn [tokens app convert_from c_skip].
  assert (upd g i (grown d' []) = upd g i (with_data (fun _ => d'))) as ->.
  { eapply upd_ext; eauto. unfold grown, with_data. now rewrite app_nil_r. }
  assert (forall f : data -> data, f d = d' -> on_top (Cst g (i :: o) 0) f = NOk (Cst (upd g i (with_data (fun _ => d'))) (i :: o) 0)) as TOP.
  { intros f F. unfold on_top. cbn [c_open c_nodes c_skip]. rewrite (at_some _ _ _ E). cbn [nbind]. do 2 f_equal.
    eapply upd_ext; eauto. unfold with_data. now rewrite D, F. }
  assert (d' = d -> upd g i (with_data (fun _ => d')) = g) as SAME.
  { intros ->. eapply upd_id; eauto. unfold with_data. rewrite <- D. destruct x; reflexivity. }
  destruct m as [n|n|n v|n v|n v]; simpl in S; try contradiction; cbn [convert_one].
  - destruct (existsb (String.eqb n) ["alias"; "name"; "word"; "lifetime"; "text"; "color"; "ty_var"]) eqn:X.
    + rewrite TOP by auto. reflexivity.
    + cbn [nbind]. rewrite SAME; auto. rewrite S. unfold set_string. cbn [existsb] in X.
      repeat (apply orb_false_elim in X as [? X]). now rewrite H, H0, H1, H2, H3, H4, H5.
  - destruct (existsb (String.eqb n) (map fst op_table ++ map fst binop_table ++ ["mut"; "try"; "try_item"; "bool"; "returns"; "return_void"])) eqn:X.
    + rewrite TOP by auto. reflexivity.
    + cbn [nbind]. rewrite SAME; auto. rewrite S. unfold set_bool. rewrite !existsb_app in X. apply orb_false_elim in X as [X1 X]. apply orb_false_elim in X as [X2 X].
      assert (forall A (l : list (string * A)), existsb (String.eqb n) (map fst l) = false -> assoc n l = None) as AS.
      { induction l as [|[y a] l IH]; simpl; auto. intros Z. apply orb_false_elim in Z as [Z1 Z2]. rewrite Z1. auto. }
      rewrite (AS _ op_table X1), (AS _ binop_table X2). cbn [existsb] in X. repeat (apply orb_false_elim in X as [? X]). now rewrite H, H0, H1, H2, H3, H4.
  - destruct (existsb (String.eqb n) ["num"; "grab_level"]) eqn:X; cbn [c_open c_nodes c_skip].
    + rewrite (at_some _ _ _ E). cbn [nbind]. rewrite D, S. reflexivity.
    + cbn [nbind]. rewrite SAME; auto. unfold set_f64 in S. cbn [existsb] in X. repeat (apply orb_false_elim in X as [? X]). rewrite H, H0 in S. congruence.
Qed.

Lemma end_conv : forall P name n g i x o rest, nth_error g i = Some x -> n < length g ->
  convert_from P (MEnd name :: rest) (Cst g (n :: i :: o) 0) = convert_from P rest (Cst (upd g i (with_children (fun l => l ++ [n]))) (i :: o) 0).
Proof.
  intros P name n g i x o rest E L. cbn [convert_from c_skip convert_one c_open c_nodes]. destruct (nth_ex _ _ L) as [y Y]. rewrite (at_some _ _ _ Y). cbn [nbind].
  rewrite (at_some _ _ _ E). reflexivity.
Qed.

Lemma convert_stands : forall P, (forall t d d' l, stands P t d d' l -> conv_t P t d d' l) /\
  (forall b d d' l, all_stand P b d d' l -> conv_l P b d d' l).
Proof.
  intros P. apply (stands_both P (conv_t P) (conv_l P)).
  - intros name k body d d' ts K T S _ B g i x o rest E D. rewrite (node_conv P name k body d' ts K T S B).
    assert (i < length g) as L by (eapply nth_lt; eauto).
    rewrite (end_conv P name (length g) _ i x).
    + rewrite upd_app1 by auto. cbn [hd_error]. simpl places. cbn [lays]. rewrite app_nil_r.
      do 3 f_equal. eapply upd_ext; eauto. unfold grown, with_children. now rewrite D.
    + rewrite nth_error_app1; auto.
    + rewrite app_length, lay_length, size_eq. lia.
  - intros m d d' S. now apply value_conv.
  - intros name k inner t d K T Y g i x o rest E D. cbn [tokens]. rewrite <- app_comm_cons, <- app_assoc. cbn [convert_from c_skip convert_one].
    rewrite K, T. change ([MEnd name] ++ rest) with (MEnd name :: rest). rewrite Y. unfold on_top. cbn [c_open c_nodes c_skip]. rewrite (at_some _ _ _ E). cbn [nbind c_nodes c_open].
    replace (length inner + 2 - 1) with (length (inner ++ [MEnd name])) by (rewrite app_length; simpl; lia).
    change (MEnd name :: rest) with ([MEnd name] ++ rest). rewrite app_assoc, skip_all. simpl. rewrite app_nil_r. do 2 f_equal.
    eapply upd_ext; eauto. unfold grown, with_data. now rewrite D, app_nil_r.
  - intros name k inner t d K T Y g i x o rest E D. cbn [tokens]. rewrite <- app_comm_cons, <- app_assoc. cbn [convert_from c_skip convert_one].
    assert (is_type k = false) as T' by (destruct k; try discriminate T; reflexivity).
    rewrite K, T', T. change ([MEnd name] ++ rest) with (MEnd name :: rest). rewrite Y. cbn [nbind]. unfold open_node. cbn [c_open c_nodes].
    replace (length inner + 2 - 2) with (length inner) by lia. rewrite skip_all.
    assert (i < length g) as L by (eapply nth_lt; eauto).
    rewrite (end_conv P name (length g) _ i x).
    + rewrite upd_app1 by auto. simpl. do 3 f_equal. eapply upd_ext; eauto. unfold grown, with_children. now rewrite D.
    + rewrite nth_error_app1; auto.
    + rewrite app_length. simpl. lia.
  - intros d g i x o rest E D. simpl. rewrite app_nil_r. do 2 f_equal. symmetry. eapply upd_id; eauto. rewrite <- D. apply grown_id.
  - intros t body d d' d'' l l' _ A _ B g i x o rest E D. cbn [flat_map]. rewrite <- app_assoc. rewrite (A g i x o _ E D).
    assert (i < length g) as L by (eapply nth_lt; eauto).
    rewrite (B _ i (grown d' (places (length g) l) x)); auto.
    + rewrite upd_app1 by (rewrite upd_len; auto). rewrite upd_upd, !app_length, upd_len. rewrite lays_app, (places_app _ _ _ (Some i)), app_assoc. do 3 f_equal.
      f_equal. eapply upd_ext; eauto. unfold grown. simpl. now rewrite app_assoc.
    + rewrite nth_error_app1 by (rewrite upd_len; auto). now apply upd_same.
Qed.

(** ** The whole file *)
Lemma convert_file : forall P F ts, file_stands P F ts -> forall g, 
  convert_from P (flat_map tokens F) (Cst g [] 0) = NOk (Cst (g ++ lays (length g) None ts) [] 0).
Proof.
  intros P F ts H. induction H as [|name body d t l l' A B IH]; intros g.
  - simpl. now rewrite app_nil_r.
  - cbn [flat_map]. inversion A as [? k ? ? d' ts K T S Y| | |]. subst. 
    rewrite (node_conv P name k body d' ts K T S (proj2 (convert_stands P) _ _ _ _ Y)). cbn [convert_from c_skip convert_one c_open c_nodes].
    destruct (nth_ex (g ++ lay (length g) (hd_error []) (NT d' ts)) (length g)) as [y Y']; [rewrite app_length, lay_length, size_eq; lia|].
    rewrite (at_some _ _ _ Y'). cbn [nbind]. rewrite IH. do 2 f_equal. cbn [lays hd_error]. rewrite <- app_assoc, app_length, lay_length. reflexivity.
Qed.
Lemma convert_is_layout : forall P F ts, file_stands P F ts -> convert P (flat_map tokens F) = NOk (lays 0 None ts).
Proof. intros P F ts H. unfold convert. rewrite (convert_file P F ts H []). reflexivity. Qed.

(** ** What a layout looks like *)
Inductive laid (g : fgraph) : nat -> option nat -> ntree -> Prop :=
| Laid b p d ts : nth_error g b = Some (FNode d p (places (S b) ts) None []) -> laids g (S b) (Some b) ts -> laid g b p (NT d ts)
with laids (g : fgraph) : nat -> option nat -> list ntree -> Prop :=
| Ls_nil b p : laids g b p []
| Ls_cons b p t ts : laid g b p t -> laids g (b + size t) p ts -> laids g b p (t :: ts).
Scheme laid_ind2 := Minimality for laid Sort Prop
  with laids_ind2 := Minimality for laids Sort Prop.
Combined Scheme laid_both from laid_ind2, laids_ind2.

Lemma lay_laid : forall t b p A B, length A = b -> laid (A ++ lay b p t ++ B) b p t.
Proof.
  induction t as [d ts IH] using ntree_ind'. intros b p A B L. rewrite lay_eq. constructor.
  - rewrite nth_error_app2, L, Nat.sub_diag by lia. reflexivity.
  - replace (A ++ (FNode d p (places (S b) ts) None [] :: lays (S b) (Some b) ts) ++ B)
      with ((A ++ [FNode d p (places (S b) ts) None []]) ++ lays (S b) (Some b) ts ++ B) by (rewrite <- !app_assoc; reflexivity).
    assert (length (A ++ [FNode d p (places (S b) ts) None []]) = S b) as L' by (rewrite app_length; simpl; lia).
    revert L'. generalize (A ++ [FNode d p (places (S b) ts) None []]). generalize (S b). generalize (Some b). clear A L.
    induction IH as [|t ts Ht _ IHl]; intros q n A L; simpl; constructor.
    + rewrite <- app_assoc. apply Ht. auto.
    + replace (A ++ (lay n q t ++ lays (n + size t) q ts) ++ B) with ((A ++ lay n q t) ++ lays (n + size t) q ts ++ B) by (rewrite <- !app_assoc; reflexivity).
      apply IHl. rewrite app_length, lay_length. lia.
Qed.
Lemma lays_laids : forall ts b p A B, length A = b -> laids (A ++ lays b p ts ++ B) b p ts.
Proof.
  induction ts as [|t ts IH]; intros b p A B L; simpl; constructor.
  - rewrite <- app_assoc. now apply lay_laid.
  - replace (A ++ (lay b p t ++ lays (b + size t) p ts) ++ B) with ((A ++ lay b p t) ++ lays (b + size t) p ts ++ B) by (rewrite <- !app_assoc; reflexivity).
    apply IH. rewrite app_length, lay_length. lia.
Qed.
Definition sizes (ts : list ntree) : nat := fold_right (fun t n => size t + n) 0 ts.
Lemma lays_length : forall ts b p, length (lays b p ts) = sizes ts.
Proof. induction ts; intros; simpl; auto. rewrite app_length, lay_length, IHts. reflexivity. Qed.

Lemma laid_reads : forall g, (forall b p t, laid g b p t -> reads g b t) /\ (forall b p ts, laids g b p ts -> Forall2 (reads g) (places b ts) ts).
Proof.
  intros g. apply (laid_both g (fun b _ t => reads g b t) (fun b _ ts => Forall2 (reads g) (places b ts) ts)).
  - intros b p d ts E _ F. exact (Reads g b _ ts E F).
  - constructor.
  - intros. simpl. constructor; auto.
Qed.

Lemma size_pos : forall t, 1 <= size t.
Proof. intros []. rewrite size_eq. lia. Qed.
Lemma places_range : forall ts b j, In j (places b ts) -> b <= j < b + sizes ts.
Proof.
  induction ts as [|t ts IH]; intros b j J; [contradiction|]. pose proof (size_pos t). destruct J as [<-|J]; [unfold sizes; simpl; lia|]. apply IH in J. unfold sizes in *. simpl. lia.
Qed.
Lemma places_sorted : forall ts b, StronglySorted Peano.lt (places b ts).
Proof.
  induction ts as [|t ts IH]; intros b; simpl; constructor; auto. apply Forall_forall. intros j J. apply places_range in J. pose proof (size_pos t). lia.
Qed.

Inductive part : ntree -> ntree -> Prop :=
| Pt_child d ts t : In t ts -> part (NT d ts) t
| Pt_deep d ts t t' : In t ts -> part t t' -> part (NT d ts) t'.
Lemma laids_at : forall g b p ts, laids g b p ts -> forall j, In j (places b ts) -> exists t, laid g j p t /\ In t ts.
Proof. induction 1 as [|b p t ts A B IH]; intros j J; [contradiction|]. simpl in J. destruct J as [<-|J]; [exists t; split; auto; now left|]. destruct (IH _ J) as (t' & X & Y). exists t'. split; auto. now right. Qed.

(** every place of a layout belongs to one part *)
Definition spot (g : fgraph) (b : nat) (t : ntree) (j : nat) : Prop :=
  exists q t' x, laid g j (Some q) t' /\ part t t' /\ b <= q < j /\ nth_error g q = Some x /\ In j (f_children x).
Lemma laid_spots : forall g, (forall b p t, laid g b p t -> forall j, b < j < b + size t -> spot g b t j) /\
  (forall b p ts, laids g b p ts -> forall j, b <= j < b + sizes ts -> In j (places b ts) \/ exists c t, In c (places b ts) /\ In t ts /\ spot g c t j).
Proof.
  intros g. apply (laid_both g (fun b p t => forall j, b < j < b + size t -> spot g b t j)
    (fun b p ts => forall j, b <= j < b + sizes ts -> In j (places b ts) \/ exists c t, In c (places b ts) /\ In t ts /\ spot g c t j)).
  - intros b p d ts E LS IH j J. rewrite size_eq in J. destruct (IH j) as [I|(c & t & I1 & I2 & q & t' & x & S1 & S2 & S3 & S4)]; [unfold sizes; lia|..].
    + destruct (laids_at _ _ _ _ LS _ I) as (t & L & It). eexists b, t, _. split; [exact L|]. split; [now constructor|]. split; [lia|]. split; [exact E|auto].
    + exists q, t', x. split; auto. split; [eapply Pt_deep; eauto|]. apply places_range in I1. split; [lia|auto].
  - intros b p j J. simpl in J. lia.
  - intros b p t ts L H1 LS IH j J. simpl in J. destruct (le_lt_dec (b + size t) j) as [GE|LT].
    + destruct (IH j) as [I|(c & t' & I1 & I2 & I3)]; [unfold sizes in *; lia|left; simpl; auto|]. right. exists c, t'. simpl. auto.
    + destruct (Nat.eq_dec j b) as [-> | NE]; [left; now left|]. right. exists b, t. split; [now left|]. split; [now left|]. apply H1. lia.
Qed.

Lemma layout_node : forall ts j n, let g := lays 0 None ts in nth_error g j = Some n ->
  exists q t', laid g j q t' /\ ((q = None /\ In t' ts) \/ (exists t p x, In t ts /\ part t t' /\ q = Some p /\ p < j /\ nth_error g p = Some x /\ In j (f_children x))).
Proof.
  intros ts j n g E. pose proof (lays_laids ts 0 None [] [] eq_refl) as L. simpl in L. rewrite app_nil_r in L. fold g in L.
  apply nth_lt in E. unfold g in E. rewrite lays_length in E.
  destruct (proj2 (laid_spots g) 0 None ts L j) as [I|(c & t & I1 & I2 & q & t' & x & S1 & S2 & S3 & S4 & S5)]; [lia|..].
  - destruct (laids_at _ _ _ _ L _ I) as (t & A & B). exists None, t. auto.
  - exists (Some q), t'. split; auto. right. exists t, q, x. split; auto. split; auto. split; auto. split; [lia|auto].
Qed.
Lemma laid_here : forall g j q t, laid g j q t -> exists d ts, t = NT d ts /\ nth_error g j = Some (FNode d q (places (S j) ts) None []) /\ laids g (S j) (Some j) ts.
Proof. intros g j q t []; eauto. Qed.

Lemma layout_ok : forall ts, tree_ok (lays 0 None ts) /\ in_order (lays 0 None ts).
Proof.
  intros ts. set (g := lays 0 None ts). split; split.
  - intros i n c E I. destruct (layout_node ts i n E) as (q & t' & L & _). fold g in L. destruct (laid_here _ _ _ _ L) as (d & l & -> & N & LS).
    rewrite N in E. injection E as <-. simpl in I. destruct (laids_at _ _ _ _ LS _ I) as (t & A & _). destruct (laid_here _ _ _ _ A) as (d' & l' & -> & N' & _). eauto.
  - intros i n E. destruct (layout_node ts i n E) as (q & t' & L & _). fold g in L. destruct (laid_here _ _ _ _ L) as (d & l & -> & N & LS).
    rewrite N in E. injection E as <-. simpl. generalize (places_sorted l (S i)). generalize (places (S i) l).
    induction 1 as [|a r S IH F]; constructor; auto. intros X. rewrite Forall_forall in F. apply F in X. lia.
  - intros i n p E P. destruct (layout_node ts i n E) as (q & t' & L & H). fold g in L, H. destruct (laid_here _ _ _ _ L) as (d & l & -> & N & LS).
    rewrite N in E. injection E as <-. simpl in P. subst q. destruct H as [[H _]|(t & p' & x & _ & _ & H & _ & A & B)]; [discriminate|]. injection H as <-. eauto.
  - intros i n p E P. destruct (layout_node ts i n E) as (q & t' & L & H). fold g in L, H. destruct (laid_here _ _ _ _ L) as (d & l & -> & N & LS).
    rewrite N in E. injection E as <-. simpl in P. subst q. destruct H as [[H _]|(t & p' & x & _ & _ & H & A & _)]; [discriminate|]. injection H as <-. auto.
  - intros i n E. destruct (layout_node ts i n E) as (q & t' & L & _). fold g in L. destruct (laid_here _ _ _ _ L) as (d & l & -> & N & LS).
    rewrite N in E. injection E as <-. apply places_sorted.
Qed.

(** ** Operators fit in every part *)
Lemma fit_child : forall d ts top t, operators_fit top (NT d ts) -> In t ts -> operators_fit false t.
Proof.
  intros d ts top t (_ & _ & _ & A) I. induction ts as [|u ts IH]; [contradiction|]. destruct A as [A B]. destruct I as [-> | I]; auto.
Qed.
Lemma fit_part : forall t t', part t t' -> forall top, operators_fit top t -> operators_fit false t'.
Proof. induction 1 as [d ts t I|d ts t t' I Q IH]; intros top F; pose proof (fit_child _ _ _ _ F I); eauto. Qed.

Lemma layout_fit : forall ts, (forall t, In t ts -> operators_fit true t) -> fit (lays 0 None ts).
Proof.
  intros ts H. set (g := lays 0 None ts).
  assert (forall j n, nth_error g j = Some n -> exists d l q, laids g (S j) (Some j) l /\ n = FNode d q (places (S j) l) None [] /\ operators_fit (match q with None => true | _ => false end) (NT d l)) as K.
  { intros j n E. destruct (layout_node ts j n E) as (q & t' & L & X). fold g in L, X. destruct (laid_here _ _ _ _ L) as (d & l & -> & N & LS).
    rewrite N in E. injection E as <-. exists d, l, q. split; auto. split; auto. destruct X as [[-> X]|(t & p & x & X1 & X2 & -> & _)]; auto. eapply fit_part; eauto. }
  assert (forall j l, length (places j l) = length l) as LP. { intros j l. revert j. induction l; intros; simpl; auto. }
  split.
  - intros i n E. destruct (K _ _ E) as (d & l & q & _ & -> & [[A|[-> A]]|[A B]] & _); simpl; [auto|auto|right]. rewrite LP. split; auto. destruct q; discriminate.
  - intros i n E. destruct (K _ _ E) as (d & l & q & _ & -> & _ & A & _). simpl. intros X _. specialize (A X). destruct q; discriminate.
  - intros i n E U. destruct (K _ _ E) as (d & l & q & LS & -> & F & _ & A & _). destruct (A U) as [A1 A2]. split; auto.
    intros c cn I N. simpl in I. destruct (laids_at _ _ _ _ LS _ I) as (t & T1 & T2). destruct (laid_here _ _ _ _ T1) as (d' & l' & -> & N' & _).
    rewrite N' in N. injection N as <-. apply A2 in T2. exact T2.
Qed.
Lemma layout_good : forall ts, (forall t, In t ts -> operators_fit true t) -> good (lays 0 None ts).
Proof.
  intros ts H. split; [apply layout_ok| |now apply layout_fit]. intros i L. destruct (nth_ex _ _ L) as [n E].
  destruct (layout_node ts i n E) as (q & t & A & _). apply (proj1 (laid_reads _)) in A. apply reads_means in A. eauto.
Qed.
Lemma layout_roots : forall ts, Forall2 (reads (lays 0 None ts)) (places 0 ts) ts /\
  forall r, In r (places 0 ts) -> exists n, nth_error (lays 0 None ts) r = Some n /\ f_parent n = None.
Proof.
  intros ts. pose proof (lays_laids ts 0 None [] [] eq_refl) as L. simpl in L. rewrite app_nil_r in L. split.
  - eapply laid_reads; eauto.
  - intros r R. destruct (laids_at _ _ _ _ L _ R) as (t & A & _). destruct (laid_here _ _ _ _ A) as (d & l & _ & E & _). eauto.
Qed.

(** ** Sorting *)
Lemma sorted_reads : forall p g g', sorted_by p g g' -> forall i t, reads g i t -> reads g' (p i) t.
Proof.
  intros p g g' S. apply (reads_ind' g (fun i t => reads g' (p i) t)). intros i n ts E _ F.
  refine (Reads g' (p i) _ ts (sb_node _ _ _ S _ _ E) _). simpl. apply Forall2_map_l. auto.
Qed.
Lemma sorted_onto : forall p g g', sorted_by p g g' -> forall j, j < length g' -> exists i, i < length g /\ p i = j.
Proof.
  intros p g g' [L I N _] j J. rewrite L in J.
  assert (FinFun.bFun (length g) p) as B.
  { intros i X. destruct (nth_ex _ _ X) as [n E]. apply N in E. apply nth_lt in E. lia. }
  destruct (proj1 (FinFun.bInjective_bSurjective B)) with (y := j) as (i & X & Y); eauto.
Qed.
Lemma sorted_node : forall p g g', sorted_by p g g' -> forall j n', nth_error g' j = Some n' -> exists i n, p i = j /\ nth_error g i = Some n /\
  n' = FNode (f_data n) (option_map p (f_parent n)) (map p (f_children n)) (f_decl n) (f_lts n).
Proof.
  intros p g g' S j n' E. destruct (sorted_onto _ _ _ S j (nth_lt _ _ _ E)) as (i & X & <-). destruct (nth_ex _ _ X) as [n N].
  exists i, n. split; auto. split; auto. apply (sb_node _ _ _ S) in N. congruence.
Qed.
Lemma sorted_tree : forall p g g', sorted_by p g g' -> tree_ok g -> tree_ok g'.
Proof.
  intros p g g' S T. split.
  - intros j n' c E I. destruct (sorted_node _ _ _ S _ _ E) as (i & n & <- & N & ->). simpl in I. apply in_map_iff in I as (a & <- & A).
    destruct (to_child _ T _ _ _ N A) as (cn & C & P). apply (sb_node _ _ _ S) in C. eexists. split; [exact C|]. simpl. now rewrite P.
  - intros j n' E. destruct (sorted_node _ _ _ S _ _ E) as (i & n & <- & N & ->). simpl. pose proof (to_nodup _ T _ _ N) as D.
    assert (forall a, In a (f_children n) -> a < length g) as B. { intros a A. destruct (to_child _ T _ _ _ N A) as (cn & C & _). eapply nth_lt; eauto. }
    revert D B. clear - S. generalize (f_children n). induction 1 as [|a l H D IH]; intros B; simpl; constructor.
    + intros X. apply in_map_iff in X as (b & Y & Z). apply (sb_inj _ _ _ S) in Y; [subst; auto|apply B; now right|apply B; now left].
    + apply IH. intros b Z. apply B. now right.
  - intros j n' q E P. destruct (sorted_node _ _ _ S _ _ E) as (i & n & <- & N & ->). simpl in P. destruct (f_parent n) as [a|] eqn:A; [|discriminate]. injection P as <-.
    destruct (to_parent _ T _ _ _ N A) as (pn & C & D). apply (sb_node _ _ _ S) in C. eexists. split; [exact C|]. simpl. now apply in_map.
Qed.
