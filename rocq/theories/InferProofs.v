(** * Inference of a loop range: lemmas. *)
From Coq Require Import String List ZArith Bool Lia.
From Verif Require Import Float64 Syntax SyntaxProofs TransformModel TransformSpec TransformProofs.
Import ListNotations.
Local Open Scope string_scope.
Local Open Scope list_scope.

Section Infer.
Variable name : string.
Notation occurs := (TransformSpec.occurs name).
Notation occurs_block := (TransformSpec.occurs_block name).
Notation infer_expr := (TransformModel.infer_expr name).

(** The two inner functions, by themselves *)
Definition infer_ids : item -> nat -> list idx -> list string -> found :=
  fix infer_ids it i ids d :=
    match ids with
    | [] => (None, d)
    | IdExpr e :: ids =>
        match e with
        | EItem j =>
            if String.eqb (item_name j) name then (Some (item_trunc it i), d)
            else if existsb (String.eqb (item_name j)) d then (None, d)
            else orelse (infer_expr e d) (infer_ids it (S i) ids)
        | _ => infer_expr e d
        end
    | _ :: ids => infer_ids it (S i) ids d
    end.
Definition infer_block : list expr -> list string -> found :=
  fix infer_block b d :=
    match b with
    | [] => (None, d)
    | EAssign op l r :: b =>
        orelse (infer_expr r d) (fun d =>
          match l with
          | EItem it =>
              if String.eqb (item_name it) name then (None, d)
              else
                let d := match it, op with Item n _ _ _ [] _, OpAssign => n :: d | _, _ => d end in
                orelse (infer_expr l d) (infer_block b)
          | _ => orelse (infer_expr l d) (infer_block b)
          end)
    | e :: b => orelse (infer_expr e d) (infer_block b)
    end.
Definition block (b : list expr) (d : list string) : found := restore d (infer_block b d).

(** A search in [e] is right. *)
Definition right_ (f : list string -> found) (occ : list string -> item -> list string -> Prop) : Prop :=
  forall d D, incl D d ->
    match f d with
    | (Some ls, _) => exists it D', occ D it D' /\ indexed name it ls D'
    | (None, d') => exists pre, d' = pre ++ d
    end.
Definition sound_ (e : expr) : Prop := tracked e = true -> right_ (infer_expr e) (fun D => occurs D e).
Definition parts_sound (e : expr) : Prop := sound_ e /\ match e with EAssign op l r => sound_ l /\ sound_ r | _ => True end.

Lemma right_orelse : forall f g occ, right_ f occ -> right_ g occ -> right_ (fun d => orelse (f d) g) occ.
Proof.
  intros f g occ F G d D I. pose proof (F d D I) as H. unfold orelse. destruct (f d) as [[it|] d']; [exact H|].
  destruct H as [pre ->]. pose proof (G (pre ++ d) D (incl_appr pre I)) as K. destruct (g (pre ++ d)) as [[it|] d']; [exact K|].
  destruct K as [pre' ->]. exists (pre' ++ pre). apply app_assoc.
Qed.
Lemma right_none : forall occ, right_ (fun d => (None, d)) occ.
Proof. intros occ d D I. exists []. reflexivity. Qed.
Lemma right_mono : forall f (occ occ' : list string -> item -> list string -> Prop),
  (forall D it D', occ D it D' -> occ' D it D') -> right_ f occ -> right_ f occ'.
Proof.
  intros f occ occ' M R d D I. specialize (R d D I). destruct (f d) as [[it|] d']; [|exact R].
  destruct R as (i & D' & O & X). exists i, D'. auto.
Qed.
Lemma right_each : forall {A} (f : A -> list string -> found) l occ, Forall (fun x => right_ (f x) occ) l -> right_ (each f l) occ.
Proof.
  intros A f l occ H. induction H as [|x l R _ IH]; [apply right_none|]. cbn [each].
  intros d D I. exact (right_orelse (f x) (each f l) occ R IH d D I).
Qed.
Lemma restored : forall (pre d : list string), skipn (length (pre ++ d) - length d) (pre ++ d) = d.
Proof.
  intros pre d. rewrite app_length. replace (length pre + length d - length d) with (length pre) by lia.
  rewrite skipn_app, skipn_all, Nat.sub_diag. reflexivity.
Qed.
(** A search with [ns] declared more. *)
Lemma right_restore : forall f ns occ,
  (forall d D, incl (ns ++ D) d -> match f d with (Some ls, _) => exists it D', occ D it D' /\ indexed name it ls D' | (None, d') => exists pre, d' = pre ++ d end) ->
  right_ (fun d => restore (ns ++ d) (f (ns ++ d))) occ.
Proof.
  intros f ns occ H d D I. assert (incl (ns ++ D) (ns ++ d)) as J by (apply incl_app; [apply incl_appl, incl_refl|apply incl_appr, I]).
  specialize (H (ns ++ d) D J). unfold restore. destruct (f (ns ++ d)) as [[it|] d'].
  - exact H.
  - destruct H as [pre ->]. cbn [fst snd]. rewrite restored. exists ns. reflexivity.
Qed.
Lemma right_children : forall e l, incl l (children e) -> Forall (fun c => right_ (infer_expr c) (fun D => occurs D c)) l ->
  right_ (each infer_expr l) (fun D => occurs D e).
Proof.
  intros e l I H. apply right_each. apply Forall_forall. intros x Hx. rewrite Forall_forall in H.
  eapply right_mono; [|exact (H x Hx)]. intros D it D' O. eapply o_child; [apply I; exact Hx|exact O].
Qed.
Lemma right_child : forall e c, In c (children e) -> right_ (infer_expr c) (fun D => occurs D c) -> right_ (infer_expr c) (fun D => occurs D e).
Proof. intros e c I R. eapply right_mono; [|exact R]. intros D it D' O. eapply o_child; eauto. Qed.
Lemma sound_list : forall l, Forall parts_sound l -> forallb tracked l = true -> Forall (fun c => right_ (infer_expr c) (fun D => occurs D c)) l.
Proof. intros l H T. eapply forallb_all; [exact H| |exact T]. intros x [S _]. exact S. Qed.

(** Paths *)
Lemma firstn_here : forall {A} (l1 l2 : list A), firstn (length l1) (l1 ++ l2) = l1.
Proof. intros. rewrite firstn_app, Nat.sub_diag, firstn_all, firstn_O. apply app_nil_r. Qed.
Lemma right_ids : forall n s c t ids ti ids0 (occ : list string -> item -> list string -> Prop),
  (forall D, occ D (Item n s c t (ids0 ++ ids) ti) D) ->
  (forall e, In e (id_exprs ids) -> forall D it D', occurs D e it D' -> occ D it D') ->
  Forall (idx_all (fun e => right_ (infer_expr e) (fun D => occurs D e))) ids ->
  forall d0 D0, incl D0 d0 ->
  (forall e, In (IdExpr e) ids0 -> exists k, e = EItem k /\ is_name name k = false /\ forall m, In m D0 -> is_name m k = false) ->
  match infer_ids (Item n s c t (ids0 ++ ids) ti) (length ids0) ids d0 with
  | (Some ls, _) => exists it D', occ D0 it D' /\ indexed name it ls D'
  | (None, d') => exists pre, d' = pre ++ d0
  end.
Proof.
  intros n s c t ids ti. induction ids as [|i ids IH]; intros ids0 occ HERE IN F d0 D0 I G; [exists []; reflexivity|].
  inversion F as [|i' ids' Fi Fr]; subst.
  assert (NEXT : forall d, incl D0 d -> (exists pre, d = pre ++ d0) ->
    (forall e, i = IdExpr e -> exists k, e = EItem k /\ is_name name k = false /\ forall m, In m D0 -> is_name m k = false) ->
    match infer_ids (Item n s c t (ids0 ++ i :: ids) ti) (S (length ids0)) ids d with
    | (Some ls, _) => exists it D', occ D0 it D' /\ indexed name it ls D'
    | (None, d') => exists pre, d' = pre ++ d0
    end).
  { intros d Hd [pre0 ->] Hi. replace (ids0 ++ i :: ids) with ((ids0 ++ [i]) ++ ids) in * by (rewrite <- app_assoc; reflexivity).
    replace (S (length ids0)) with (length (ids0 ++ [i])) by (rewrite app_length; cbn; lia).
    assert (forall e, In (IdExpr e) (ids0 ++ [i]) -> exists k, e = EItem k /\ is_name name k = false /\ forall m, In m D0 -> is_name m k = false) as G'.
    { intros e He. apply in_app_or in He. destruct He as [He|[He|[]]]; auto. }
    assert (forall e, In e (id_exprs ids) -> forall D it D', occurs D e it D' -> occ D it D') as IN'.
    { intros e He. apply IN. cbn [id_exprs flat_map]. apply in_or_app. right. exact He. }
    pose proof (IH (ids0 ++ [i]) occ HERE IN' Fr (pre0 ++ d0) D0 Hd G') as K.
    destruct (infer_ids _ _ ids (pre0 ++ d0)) as [[ls|] d']; [exact K|]. destruct K as [pre ->]. exists (pre ++ pre0). apply app_assoc. }
  assert (HEAD : forall e, i = IdExpr e -> match infer_expr e d0 with
     | (Some ls, _) => exists it D', occ D0 it D' /\ indexed name it ls D' | (None, d') => exists pre, d' = pre ++ d0 end).
  { intros e ->. pose proof (Fi d0 D0 I) as K. destruct (infer_expr e d0) as [[ls|] d']; [|exact K].
    destruct K as (it & D' & O & X). exists it, D'. split; [|exact X]. eapply IN; [left; reflexivity|exact O]. }
  destruct i as [k|x|e].
  - apply NEXT; auto; [exists []; reflexivity|discriminate].
  - apply NEXT; auto; [exists []; reflexivity|discriminate].
  - destruct e as [| | | | | | | | | | |j| | | | | | | | | | | | | | |]; try (apply HEAD; reflexivity).
    cbn [infer_ids]. destruct (String.eqb (item_name j) name) eqn:Ej.
    + exists (Item n s c t (ids0 ++ IdExpr (EItem j) :: ids) ti), D0. split; [apply HERE|].
      exists n, s, c, t, ids0, j, ids, ti, (take_below (length ids0) ti). split; [reflexivity|]. split; [destruct j; exact Ej|].
      split; [cbn [item_trunc]; rewrite firstn_here; reflexivity|exact G].
    + destruct (existsb (String.eqb (item_name j)) d0) eqn:Ed; [exists []; reflexivity|].
      specialize (HEAD _ eq_refl). unfold orelse at 1. destruct (infer_expr (EItem j) d0) as [[ls|] d']; [exact HEAD|].
      destruct HEAD as [pre ->]. apply NEXT; [apply incl_appr; exact I|exists pre; reflexivity|].
      intros e [= <-]. exists j. split; [reflexivity|]. split; [destruct j; exact Ej|].
      intros m Hm. apply I in Hm. destruct j as [jn js jc jt ji jti]. cbn in *. apply not_true_is_false. intros Q.
      assert (existsb (String.eqb jn) d0 = true) by (apply existsb_exists; exists m; auto). congruence.
Qed.

(** Blocks *)
Lemma block_right : forall l, Forall parts_sound l ->
  forallb (fun e => match e with EAssign _ l r => tracked l && tracked r | _ => tracked e end) l = true ->
  right_ (infer_block l) (fun D => occurs_block D l).
Proof.
  intros l H. induction H as [|e l [S P] _ IH]; intros T; [apply right_none|]. cbn [forallb] in T. apply andb_prop in T. destruct T as [T TL].
  specialize (IH TL). intros d D I.
  (* the rest, with the names declared by this one *)
  assert (REST : ~ In name (decl_name e) -> forall d', incl (decl_name e ++ D) d' -> (exists pre, d' = pre ++ d) ->
    match infer_block l d' with
    | (Some ls, _) => exists it D', occurs_block D (e :: l) it D' /\ indexed name it ls D'
    | (None, d2) => exists pre, d2 = pre ++ d
    end).
  { intros N d' I' [pre0 ->]. pose proof (IH (pre0 ++ d) (decl_name e ++ D) I') as K.
    destruct (infer_block l (pre0 ++ d)) as [[ls|] d2].
    - destruct K as (it & D' & O & X). exists it, D'. split; [apply o_later; auto|exact X].
    - destruct K as [pre ->]. exists (pre ++ pre0). apply app_assoc. }
  assert (OTHER : decl_name e = [] -> tracked e = true ->
    match orelse (infer_expr e d) (infer_block l) with
    | (Some ls, _) => exists it D', occurs_block D (e :: l) it D' /\ indexed name it ls D'
    | (None, d2) => exists pre, d2 = pre ++ d
    end).
  { intros N T'. pose proof (S T' d D I) as K. unfold orelse. destruct (infer_expr e d) as [[ls|] d'].
    - destruct K as (it & D' & O & X). exists it, D'. split; [apply o_first; exact O|exact X].
    - destruct K as [pre ->]. apply REST; [rewrite N; intros []|rewrite N; apply incl_appr; exact I|eauto]. }
  destruct e as [| | | | | | | | | | | |op a r| | | | | | | | | | | | | |]; try (apply OTHER; [reflexivity|exact T]).
  destruct P as [SA SR]. apply andb_prop in T. destruct T as [TA TR]. cbn [infer_block].
  (* right side first *)
  pose proof (SR TR d D I) as K. unfold orelse at 1. destruct (infer_expr r d) as [[ls|] d1].
  { destruct K as (it & D' & O & X). exists it, D'. split; [|exact X]. apply o_first. eapply o_child; [right; left; reflexivity|exact O]. }
  destruct K as [pre ->].
  assert (LEFT : forall d2, incl D d2 -> (exists p, d2 = p ++ d) -> ~ In name (decl_name (EAssign op a r)) -> incl (decl_name (EAssign op a r) ++ D) d2 ->
    match orelse (infer_expr a d2) (infer_block l) with
    | (Some ls, _) => exists it D', occurs_block D (EAssign op a r :: l) it D' /\ indexed name it ls D'
    | (None, d3) => exists pre, d3 = pre ++ d
    end).
  { intros d2 I2 [p ->] N I3. pose proof (SA TA (p ++ d) D I2) as K. unfold orelse. destruct (infer_expr a (p ++ d)) as [[ls|] d3].
    - destruct K as (it & D' & O & X). exists it, D'. split; [|exact X]. apply o_first. eapply o_child; [left; reflexivity|exact O].
    - destruct K as [p2 ->]. apply REST; [exact N|apply incl_appr; exact I3|]. exists (p2 ++ p). apply app_assoc. }
  destruct a as [| | | | | | | | | | |[n s c t ids ti]| | | | | | | | | | | | | | |];
    try (apply LEFT; [apply incl_appr; exact I|eauto|destruct op; intros []|destruct op; apply incl_appr; exact I]; fail).
  cbn [item_name]. destruct (String.eqb n name) eqn:En; [exists pre; reflexivity|].
  destruct ids as [|i ids].
  - destruct op; try (apply LEFT; [apply incl_appr; exact I|eauto|intros []|apply incl_appr; exact I]; fail).
    apply LEFT.
    + apply incl_tl, incl_appr. exact I.
    + exists (n :: pre). reflexivity.
    + intros [E|[]]. subst n. rewrite String.eqb_refl in En. discriminate.
    + cbn [decl_name app]. intros x [E|E]; [left; exact E|right; apply in_or_app; right; apply I; exact E].
  - assert (decl_name (EAssign op (EItem (Item n s c t (i :: ids) ti)) r) = []) as DN by (destruct op; reflexivity).
    replace (match op with OpAssign => pre ++ d | _ => pre ++ d end) with (pre ++ d) in * by (destruct op; reflexivity).
    assert (match orelse (infer_expr (EItem (Item n s c t (i :: ids) ti)) (pre ++ d)) (infer_block l) with
      | (Some ls, _) => exists it D', occurs_block D (EAssign op (EItem (Item n s c t (i :: ids) ti)) r :: l) it D' /\ indexed name it ls D'
      | (None, d3) => exists pre, d3 = pre ++ d end) as G.
    { apply LEFT; [apply incl_appr; exact I|eauto|rewrite DN; intros []|rewrite DN; apply incl_appr; exact I]. }
    exact G.
Qed.
Lemma block_right' : forall e ns b, In (ns, b) (blocks e) -> ~ In name ns -> Forall parts_sound b ->
  forallb (fun e => match e with EAssign _ l r => tracked l && tracked r | _ => tracked e end) b = true ->
  forall d D, incl (ns ++ D) d ->
  match block b d with (Some ls, _) => exists it D', occurs D e it D' /\ indexed name it ls D' | (None, d') => exists pre, d' = pre ++ d end.
Proof.
  intros e ns b I N P T d D J. pose proof (block_right b P T d (ns ++ D) J) as K. unfold block, restore.
  destruct (infer_block b d) as [[ls|] d']; cbn [fst snd].
  - destruct K as (it & D' & O & X). exists it, D'. split; [eapply o_block; eauto|exact X].
  - destruct K as [pre ->]. rewrite restored. exists []. reflexivity.
Qed.

Lemma no_decl : forall e, tracked e = true -> decl_name e = [].
Proof.
  intros e T. destruct e as [| | | | | | | | | | | |op a r| | | | | | | | | | | | | |]; try reflexivity. cbn [tracked] in T.
  apply andb_prop in T. destruct T as [T _]. apply andb_prop in T. destruct T as [T _]. apply negb_true_iff in T.
  destruct op, a as [| | | | | | | | | | |[n s c t [|] ti]| | | | | | | | | | | | | | |]; try reflexivity. discriminate.
Qed.
Lemma later : forall x l D it D', forallb tracked l = true -> In x l -> occurs D x it D' -> occurs_block D l it D'.
Proof.
  intros x l D it D'. induction l as [|y l IH]; intros T I O; [destruct I|]. cbn [forallb] in T. apply andb_prop in T. destruct T as [T TL].
  destruct I as [->|I]; [apply o_first; exact O|]. apply o_later; rewrite (no_decl y T); [intros []|]. apply IH; auto.
Qed.
Lemma i_item : forall it, infer_expr (EItem it) = fun d => infer_ids it 0 (item_ids it) d.
Proof. intros []. reflexivity. Qed.
Lemma i_callc : forall it l d, infer_expr (ECallClosure it l) d = orelse (infer_ids it 0 (item_ids it) d) (each infer_expr l).
Proof. intros [] l d. reflexivity. Qed.
Lemma i_block : forall l d, infer_expr (EBlock l) d = block l d.
Proof. reflexivity. Qed.
Lemma i_for : forall lb a b c l d, infer_expr (EFor lb a b c l) d =
  orelse (infer_expr a d) (fun d => orelse (infer_expr b d) (fun d => orelse (infer_expr c d) (block l))).
Proof. reflexivity. Qed.
Lemma i_forn : forall k lb n a b l d, infer_expr (EForN k lb n a b l) d =
  if String.eqb n name then (None, d)
  else restore (n :: d)
    (orelse (match a with Some s => infer_expr s (n :: d) | None => (None, n :: d) end) (fun d => orelse (infer_expr b d) (block l))).
Proof. reflexivity. Qed.
Lemma i_if : forall c tb cs bs eb d, infer_expr (EIf c tb cs bs eb) d =
  orelse (infer_expr c d) (fun d => orelse (block tb d) (fun d =>
  orelse (each (fun p d => orelse (fst p d) (snd p)) (combine (map infer_expr cs) (map block bs)) d) (fun d =>
  match eb with Some b => block b d | None => (None, d) end))).
Proof. reflexivity. Qed.

Lemma ids_sound : forall ids, Forall (idx_all parts_sound) ids ->
  forallb (fun i => match i with IdExpr e => tracked e | _ => true end) ids = true ->
  Forall (idx_all (fun e => right_ (infer_expr e) (fun D => occurs D e))) ids.
Proof. intros ids H T. eapply forallb_all; [exact H| |exact T]. intros [s|x|e] K X; cbn in *; auto. apply K. exact X. Qed.
Lemma item_right : forall it e, (forall D, occurs D e it D) -> incl (id_exprs (item_ids it)) (children e) ->
  Forall (idx_all (fun e => right_ (infer_expr e) (fun D => occurs D e))) (item_ids it) ->
  right_ (infer_ids it 0 (item_ids it)) (fun D => occurs D e).
Proof.
  intros [n s c t ids ti] e H I F d D J. cbn [item_ids] in *.
  apply (right_ids n s c t ids ti [] (fun D => occurs D e)); auto; [|intros x []].
  intros x Hx D1 it D' O. eapply o_child; [apply I; exact Hx|exact O].
Qed.
Lemma sound_all : forall e, parts_sound e.
Proof.
  assert (LIST : forall e l, incl l (children e) -> (forall d, infer_expr e d = each infer_expr l d) -> (tracked e = true -> forallb tracked l = true) ->
    Forall parts_sound l -> sound_ e).
  { intros e l I E T H Te d D J. rewrite E. apply (right_children e l I); auto. apply sound_list; auto. }
  assert (ONE : forall e c, In c (children e) -> (forall d, infer_expr e d = infer_expr c d) -> (tracked e = true -> tracked c = true) -> parts_sound c -> sound_ e).
  { intros e c I E T H Te d D J. rewrite E. apply (right_child e c I); auto. apply H. auto. }
  assert (TWO : forall e a b, In a (children e) -> In b (children e) -> (forall d, infer_expr e d = orelse (infer_expr a d) (infer_expr b)) ->
    (tracked e = true -> tracked a = true /\ tracked b = true) -> parts_sound a -> parts_sound b -> sound_ e).
  { intros e a b IA IB E T HA HB Te d D J. rewrite E. destruct (T Te) as [TA TB].
    exact (right_orelse (infer_expr a) (infer_expr b) (fun D => occurs D e) (right_child e a IA (proj1 HA TA)) (right_child e b IB (proj1 HB TB)) d D J). }
  apply (e_ind (fun _ => True) parts_sound (item_all parts_sound) (idx_all parts_sound) (clos_all parts_sound));
    try (intros; exact I); try (intros; assumption).
  - intros l H. split; [|exact I]. intros T d D J. cbn [tracked] in T. change (infer_expr (ELink l) d) with (each infer_expr l d).
    apply (right_each infer_expr l (fun D => occurs D (ELink l))); auto. apply Forall_forall. intros x Hx.
    pose proof (sound_list l H T) as F. rewrite Forall_forall in F. eapply right_mono; [|exact (F x Hx)].
    intros D1 it D' O. eapply (o_block name D1 (ELink l) [] l); [left; reflexivity|intros []|]. eapply later; eauto.
  - intros l H. split; [|exact I]. intros T d D J. cbn [tracked] in T. cbn [TransformModel.infer_expr].
    apply (right_each (fun kv => infer_expr (snd kv)) l (fun D => occurs D (EObject l))); auto.
    apply Forall_forall. intros kv Hkv. rewrite Forall_forall in H. rewrite forallb_forall in T.
    apply (right_child (EObject l) (snd kv)); [apply in_map; exact Hkv|]. apply H; auto.
  - intros l H. split; [|exact I]. apply (LIST (EArray l) l); auto. apply incl_refl.
  - intros a b HA HB. split; [|exact I]. apply (TWO (EArrayFill a b) a b); auto; [left; reflexivity|right; left; reflexivity|].
    cbn. intros T. apply andb_prop in T. exact T.
  - intros e H. split; [|exact I]. apply (ONE (EReturn e) e); auto. left. reflexivity.
  - split; [|exact I]. intros T d D J. exists []. reflexivity.
  - split; [|exact I]. intros T d D J. exists []. reflexivity.
  - split; [|exact I]. intros T d D J. exists []. reflexivity.
  - intros l H. split; [|exact I]. intros T d D J. rewrite i_block. apply (block_right' (EBlock l) [] l); auto. left. reflexivity.
  - intros n l H. split; [|exact I]. apply (LIST (EGo n l) l); auto. apply incl_refl.
  - intros f n l H. split; [|exact I]. apply (LIST (ECall f n l) l); auto. apply incl_refl.
  - intros it H. split; [|exact I]. intros T. rewrite i_item. apply item_right.
    + intros D. apply o_here.
    + apply incl_refl.
    + destruct it as [n s c t ids ti]. apply ids_sound; auto.
  - intros op a b HA HB. split; [|split; [apply HA|apply HB]].
    apply (TWO (EAssign op a b) a b); auto; [left; reflexivity|right; left; reflexivity|].
    cbn. intros T. apply andb_prop in T. destruct T as [T1 T2]. apply andb_prop in T1. tauto.
  - intros l H. split; [|exact I]. apply (LIST (EVec4 l) l); auto. apply incl_refl.
  - intros l H. split; [|exact I]. apply (LIST (EMat4 l) l); auto. apply incl_refl.
  - intros lb a b c l HA HB HC HL. split; [|exact I]. intros T d D J. rewrite i_for. cbn [tracked] in T.
    apply andb_prop in T. destruct T as [T TL]. apply andb_prop in T. destruct T as [T TC]. apply andb_prop in T. destruct T as [TA TB].
    assert (BL : In ([], b :: c :: l) (blocks (EFor lb a b c l))) by (cbn [blocks]; rewrite (no_decl a TA); left; reflexivity).
    pose (Q := fun D => occurs D (EFor lb a b c l)).
    refine (right_orelse (infer_expr a) _ Q _ (right_orelse (infer_expr b) _ Q _ (right_orelse (infer_expr c) (block l) Q _ _)) d D J); unfold Q.
    + apply right_child; [left; reflexivity|]. apply HA. exact TA.
    + eapply right_mono; [|apply HB; exact TB]. intros D1 it D' O. eapply o_block; [exact BL|intros []|]. apply o_first. exact O.
    + eapply right_mono; [|apply HC; exact TC]. intros D1 it D' O. eapply o_block; [exact BL|intros []|].
      apply o_later; rewrite (no_decl b TB); [intros []|]. apply o_first. exact O.
    + intros d1 D1 J1. pose proof (block_right l HL TL d1 D1 J1) as K. unfold block, restore. destruct (infer_block l d1) as [[ls|] d']; cbn [fst snd].
      * destruct K as (it & D' & O & X). exists it, D'. split; [|exact X]. eapply o_block; [exact BL|intros []|].
        apply o_later; rewrite (no_decl b TB); [intros []|]. apply o_later; rewrite (no_decl c TC); [intros []|]. exact O.
      * destruct K as [pre ->]. rewrite restored. exists []. reflexivity.
  - intros k lb n a b l HA HB HL. split; [|exact I]. intros T d D J. rewrite i_forn. cbn [tracked] in T.
    apply andb_prop in T. destruct T as [T TL]. apply andb_prop in T. destruct T as [TA TB].
    destruct (String.eqb n name) eqn:En; [exists []; reflexivity|].
    apply (right_restore (fun d => orelse (match a with Some s => infer_expr s d | None => (None, d) end) (fun d => orelse (infer_expr b d) (block l))) [n]
      (fun D => occurs D (EForN k lb n a b l))); auto.
    intros d1 D1 J1. assert (incl D1 d1) as J2 by (intros x Hx; apply J1; right; exact Hx).
    (* the third part needs the name to be in the list *)
    assert (ST : right_ (fun d => match a with Some s => infer_expr s d | None => (None, d) end) (fun D => occurs D (EForN k lb n a b l))).
    { destruct a as [s|]; [|apply right_none]. apply (right_child (EForN k lb n (Some s) b l) s); [left; reflexivity|]. apply HA. exact TA. }
    assert (SB : right_ (infer_expr b) (fun D => occurs D (EForN k lb n a b l))).
    { apply right_child; [cbn [children]; apply in_or_app; right; left; reflexivity|]. apply HB. exact TB. }
    pose proof (ST d1 D1 J2) as K. unfold orelse at 1. destruct (match a with Some s => infer_expr s d1 | None => (None, d1) end) as [[ls|] d2]; [exact K|].
    destruct K as [p1 ->]. pose proof (SB (p1 ++ d1) D1 (incl_appr p1 J2)) as K. unfold orelse. destruct (infer_expr b (p1 ++ d1)) as [[ls|] d2]; [exact K|].
    destruct K as [p2 ->]. pose proof (block_right' (EForN k lb n a b l) [n] l (or_introl eq_refl)) as K.
    assert (~ In name [n]) as N by (intros [E|[]]; subst n; rewrite String.eqb_refl in En; discriminate).
    specialize (K N HL TL (p2 ++ p1 ++ d1) D1 (incl_appr p2 (incl_appr p1 J1))). destruct (block l (p2 ++ p1 ++ d1)) as [[ls|] d3]; [exact K|].
    destruct K as [p3 ->]. exists (p3 ++ p2 ++ p1). rewrite !app_assoc. reflexivity.
  - intros k lb n a l HA HL. split; [|exact I]. apply (ONE (EForIn k lb n a l) a); auto. left. reflexivity.
  - intros c tb cs bs eb HC HT HCS HBS HEB. split; [|exact I]. intros T d D J. rewrite i_if. cbn [tracked] in T.
    apply andb_prop in T. destruct T as [T TE]. apply andb_prop in T. destruct T as [T TBS]. apply andb_prop in T. destruct T as [T TCS].
    apply andb_prop in T. destruct T as [TC TT].
    assert (BL : forall b, In b (tb :: bs ++ opt_list eb) -> Forall parts_sound b ->
      forallb (fun e => match e with EAssign _ l r => tracked l && tracked r | _ => tracked e end) b = true ->
      right_ (block b) (fun D => occurs D (EIf c tb cs bs eb))).
    { intros b Hb P Tb d1 D1 J1. apply (block_right' (EIf c tb cs bs eb) [] b); auto. cbn [blocks]. apply in_map. exact Hb. }
    pose (Q := fun D => occurs D (EIf c tb cs bs eb)).
    refine (right_orelse (infer_expr c) _ Q _ (right_orelse (block tb) _ Q _ (right_orelse
      (each (fun p d => orelse (fst p d) (snd p)) (combine (map infer_expr cs) (map block bs)))
      (fun d => match eb with Some b => block b d | None => (None, d) end) Q _ _)) d D J); unfold Q.
    + apply right_child; [left; reflexivity|]. apply HC. exact TC.
    + apply BL; auto. left. reflexivity.
    + apply (right_each (fun p d => orelse (fst p d) (snd p))). apply Forall_forall. intros [f g] Hp.
      pose proof (in_combine_l _ _ _ _ Hp) as H1. pose proof (in_combine_r _ _ _ _ Hp) as H2.
      apply in_map_iff in H1. destruct H1 as (x & <- & Hx). apply in_map_iff in H2. destruct H2 as (b & <- & Hb).
      apply (right_orelse (infer_expr x) (block b)).
      * apply right_child; [right; exact Hx|]. rewrite Forall_forall in HCS. rewrite forallb_forall in TCS. apply HCS; auto.
      * rewrite Forall_forall in HBS. rewrite forallb_forall in TBS. apply BL; auto. right. apply in_or_app. left. exact Hb.
    + destruct eb as [b|]; [|apply right_none]. apply BL; auto. right. apply in_or_app. right. left. reflexivity.
  - split; [|exact I]. intros T d D J. exists []. reflexivity.
  - intros e H. split; [|exact I]. apply (ONE (ETry e) e); auto. left. reflexivity.
  - intros i e H. split; [|exact I]. apply (ONE (ESwizzle i e) e); auto. left. reflexivity.
  - split; [|exact I]. intros T d D J. exists []. reflexivity.
  - intros it l H HL. split; [|exact I]. intros T d D J. rewrite i_callc. destruct it as [n s c t ids ti]. cbn [tracked] in T.
    apply andb_prop in T. destruct T as [TI TL].
    pose (Q := fun D => occurs D (ECallClosure (Item n s c t ids ti) l)).
    refine (right_orelse (infer_ids (Item n s c t ids ti) 0 (item_ids (Item n s c t ids ti))) (each infer_expr l) Q _ _ d D J); unfold Q.
    + apply item_right; [intros; apply o_called|cbn [children]; apply incl_appl, incl_refl|]. apply ids_sound; auto.
    + apply right_children; [cbn [children]; apply incl_appr, incl_refl|]. apply sound_list; auto.
  - split; [|exact I]. intros T d D J. exists []. reflexivity.
  - intros e H. split; [|exact I]. apply (ONE (ETryExpr e) e); auto. left. reflexivity.
  - split; [|exact I]. intros T d D J. exists []. reflexivity.
Qed.
End Infer.
