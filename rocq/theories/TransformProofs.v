(** * Replacing a variable by a number: lemmas. *)
From Coq Require Import String List ZArith Bool.
From Verif Require Import Float64 Syntax SyntaxProofs TransformModel TransformSpec.
Import ListNotations.
Local Open Scope string_scope.
Local Open Scope list_scope.

Definition idx_all (P : expr -> Prop) (x : idx) : Prop := match x with IdExpr e => P e | _ => True end.
Definition item_all (P : expr -> Prop) (it : item) : Prop := match it with Item _ _ _ _ ids _ => Forall (idx_all P) ids end.
Definition clos_all (P : expr -> Prop) (c : closure) : Prop := match c with Closure _ _ b => P b end.

Lemma map_same : forall {A} (f : A -> A) l, Forall (fun x => f x = x) l -> map f l = l.
Proof. intros A f l H. induction H as [|x l E _ IH]; cbn [map]; congruence. Qed.
Lemma map_eq : forall {A B} (f g : A -> B) l, Forall (fun x => f x = g x) l -> map f l = map g l.
Proof. intros A B f g l H. induction H as [|x l E _ IH]; cbn [map]; congruence. Qed.
Lemma opt_same : forall {A} (f : A -> A) o, opt_all (fun x => f x = x) o -> option_map f o = o.
Proof. intros A f [x|] H; cbn in *; congruence. Qed.
Lemma opt_eq : forall {A B} (f g : A -> B) o, opt_all (fun x => f x = g x) o -> option_map f o = option_map g o.
Proof. intros A B f g [x|] H; cbn in *; congruence. Qed.
Lemma seq_same : forall {A} (f : bool -> A -> A * bool) h l, Forall (fun x => f h x = (x, h)) l -> seq f h l = (l, h).
Proof. intros A f h l H. induction H as [|x l E _ IH]; cbn [seq]; [reflexivity|]. rewrite E, IH. reflexivity. Qed.
Lemma forallb_all : forall {A} (p : A -> bool) (P Q : A -> Prop) l, Forall P l -> (forall x, P x -> p x = true -> Q x) ->
  forallb p l = true -> Forall Q l.
Proof.
  intros A p P Q l H I. induction H as [|x l E _ IH]; cbn [forallb]; intros B; constructor; apply andb_prop in B; destruct B; auto.
Qed.

Section Replace.
Variables (name : string) (val : f64).
Notation sub := (TransformSpec.sub name val).
Notation absent := (TransformSpec.absent name).
Notation number := (TransformModel.number name val).

(** Nothing changes where the variable is hidden, or does not occur. *)
Definition unchanged (e : expr) : Prop := forall d h, h = true \/ absent e = true -> sub d h e = (e, h).
Lemma or_and : forall h a b, h = true \/ a && b = true -> (h = true \/ a = true) /\ (h = true \/ b = true).
Proof. intros h a b [H|H]; [auto|]. apply andb_prop in H. tauto. Qed.
Lemma or_all : forall {A} (h : bool) (p : A -> bool) l, h = true \/ forallb p l = true -> Forall (fun x => h = true \/ p x = true) l.
Proof.
  intros A h p l H. induction l as [|x l IH]; constructor; cbn [forallb] in H; apply or_and in H; tauto.
Qed.
Lemma all_and : forall {A} (P Q R : A -> Prop) l, Forall P l -> Forall Q l -> (forall x, P x -> Q x -> R x) -> Forall R l.
Proof. intros A P Q R l H K I. induction H; inversion K; constructor; auto. Qed.
Lemma unchanged_list : forall l, Forall unchanged l -> forall d h, h = true \/ forallb absent l = true ->
  map (fun e => fst (sub d h e)) l = l /\ fst (seq (sub d) h l) = l.
Proof.
  intros l H d h O. apply or_all in O. split.
  - apply map_same. eapply all_and; [exact H|exact O|]. intros x U X. rewrite (U d h X). reflexivity.
  - rewrite (seq_same (sub d) h l); [reflexivity|]. eapply all_and; [exact H|exact O|]. intros x U X. apply U. exact X.
Qed.
Lemma unchanged_ids : forall ids, Forall (idx_all unchanged) ids -> forall d h,
  h = true \/ forallb (fun i => match i with IdExpr e => absent e | _ => true end) ids = true ->
  map (fun i => match i with IdExpr e => IdExpr (fst (sub d h e)) | i => i end) ids = ids.
Proof.
  intros ids H d h O. apply or_all in O. apply map_same. eapply all_and; [exact H|exact O|].
  intros [s|x|e] U X; auto. cbn in U. rewrite (U d h X). reflexivity.
Qed.
Lemma or_orb : forall h b, h = true -> h || b = true.
Proof. intros h b ->. reflexivity. Qed.
Lemma unchanged_all : forall e, unchanged e.
Proof.
  apply (e_ind (fun _ => True) unchanged (item_all unchanged) (idx_all unchanged) (clos_all unchanged));
    try (intros; exact I); try (intros; assumption).
  - intros l H d h O. cbn [TransformSpec.sub]. cbn in O. rewrite (proj2 (unchanged_list l H d h O)). reflexivity.
  - intros l H d h O. cbn [TransformSpec.sub]. cbn in O. f_equal. f_equal. apply or_all in O. apply map_same.
    eapply all_and; [exact H|exact O|]. intros [k x] U X. cbn in *. rewrite (U d h X). reflexivity.
  - intros l H d h O. cbn [TransformSpec.sub]. cbn in O. rewrite (proj1 (unchanged_list l H d h O)). reflexivity.
  - intros a b A B d h O. cbn in O. apply or_and in O. destruct O. cbn [TransformSpec.sub]. rewrite A, B by auto. reflexivity.
  - intros e A d h O. cbn [TransformSpec.sub]. rewrite A by auto. reflexivity.
  - intros d h O. reflexivity.
  - intros l d h O. reflexivity.
  - intros l d h O. reflexivity.
  - intros l H d h O. cbn [TransformSpec.sub]. cbn in O. rewrite (proj2 (unchanged_list l H d h O)). reflexivity.
  - intros n l H d h O. cbn [TransformSpec.sub]. cbn in O. rewrite (proj1 (unchanged_list l H d h O)). reflexivity.
  - intros f n l H d h O. cbn [TransformSpec.sub]. cbn in O. rewrite (proj1 (unchanged_list l H d h O)). reflexivity.
  - intros [n s c t ids ti] H d h O. cbn [TransformSpec.sub]. cbn [absent] in O. apply or_and in O. destruct O as [O1 O2].
    rewrite unchanged_ids by auto.
    assert (Nat.eqb d 0 && negb h && is_name name (Item n s c t ids ti) && bare (Item n s c t ids ti) = false) as ->; [|reflexivity].
    cbn [is_name]. destruct O1 as [-> |O1]; [rewrite andb_false_r; reflexivity|]. apply negb_true_iff in O1. rewrite O1, andb_false_r. reflexivity.
  - intros op a b A B d h O. cbn in O. apply or_and in O. destruct O as [OA OB]. cbn [TransformSpec.sub]. rewrite A, B by auto.
    destruct (is_decl op a) eqn:D; [|reflexivity].
    assert (h || Nat.eqb d 0 && declares name op a = h) as ->; [|reflexivity].
    destruct OA as [-> |OA]; [reflexivity|]. destruct h; [reflexivity|]. cbn [orb].
    unfold declares. destruct op; try discriminate. destruct a as [| | | | | | | | | | |[n s c t [|] ti]| | | | | | | | | | | | | | |]; try discriminate.
    cbn in OA. rewrite andb_true_r in OA. apply negb_true_iff in OA. rewrite OA. apply andb_false_r.
  - intros l H d h O. cbn [TransformSpec.sub]. cbn in O. rewrite (proj1 (unchanged_list l H d h O)). reflexivity.
  - intros l H d h O. cbn [TransformSpec.sub]. cbn in O. rewrite (proj1 (unchanged_list l H d h O)). reflexivity.
  - intros lb a b c l A B C L d h O. cbn in O. apply or_and in O. destruct O as [O OL]. apply or_and in O. destruct O as [O OC].
    apply or_and in O. destruct O as [OA OB]. cbn [TransformSpec.sub]. rewrite (A d h OA), (B d h OB), (C d h OC), (proj2 (unchanged_list l L d h OL)). reflexivity.
  - intros k lb n a b l A B L d h O. cbn in O. apply or_and in O. destruct O as [O OL]. apply or_and in O. destruct O as [OA OB].
    cbn [TransformSpec.sub]. rewrite (B d h OB).
    rewrite opt_same by (destruct a; cbn in *; auto; rewrite (A d h OA); reflexivity).
    rewrite (proj2 (unchanged_list l L d (h || _) ltac:(destruct OL; [left; apply or_orb; assumption|right; assumption]))). reflexivity.
  - intros k lb n a l A L d h O. cbn in O. apply or_and in O. destruct O as [OA OL].
    cbn [TransformSpec.sub]. rewrite (A d h OA).
    rewrite (proj2 (unchanged_list l L d (h || _) ltac:(destruct OL; [left; apply or_orb; assumption|right; assumption]))). reflexivity.
  - intros c tb cs bs eb C T CS BS EB d h O. cbn in O. apply or_and in O. destruct O as [O OE]. apply or_and in O. destruct O as [O OB].
    apply or_and in O. destruct O as [O OS]. apply or_and in O. destruct O as [OC OT].
    cbn [TransformSpec.sub]. rewrite (C d h OC), (proj2 (unchanged_list tb T d h OT)), (proj1 (unchanged_list cs CS d h OS)).
    rewrite map_same. 2: { apply or_all in OB. eapply all_and; [exact BS|exact OB|]. intros x U X. apply (unchanged_list x U d h X). }
    rewrite opt_same by (destruct eb; cbn in *; auto; apply (unchanged_list l EB d h OE)). reflexivity.
  - intros v _ d h O. reflexivity.
  - intros e A d h O. cbn [TransformSpec.sub]. rewrite A by auto. reflexivity.
  - intros i e A d h O. cbn [TransformSpec.sub]. rewrite A by auto. reflexivity.
  - intros [a c b] A d h O. cbn [TransformSpec.sub]. cbn in A. rewrite A by auto. reflexivity.
  - intros [n s c t ids ti] l H L d h O. cbn in O. apply or_and in O. destruct O as [O OL]. apply or_and in O. destruct O as [O1 O2].
    cbn [TransformSpec.sub]. rewrite unchanged_ids by auto. rewrite (proj1 (unchanged_list l L d h OL)). reflexivity.
  - intros lv e A d h O. cbn [TransformSpec.sub]. destruct (Nat.leb lv d); [rewrite A by auto; reflexivity|reflexivity].
  - intros e A d h O. cbn [TransformSpec.sub]. rewrite A by auto. reflexivity.
  - intros f d h O. reflexivity.
Qed.

(** ** The replacement of the implementation *)
Notation number_block := (TransformModel.number_block name val).
Lemma n_block : forall b, number (EBlock b) = EBlock (number_block b).
Proof. reflexivity. Qed.
Lemma n_for : forall lb a b c l, number (EFor lb a b c l) =
  match a with
  | EAssign op (EItem it) r =>
      if String.eqb (item_name it) name then EFor lb (EAssign op (EItem it) (number r)) b c l
      else EFor lb (number a) (number b) (number c) (number_block l)
  | _ => EFor lb (number a) (number b) (number c) (number_block l)
  end.
Proof. reflexivity. Qed.
Lemma n_forn : forall k lb n a b l, number (EForN k lb n a b l) =
  if String.eqb n name then EForN k lb n a b l else EForN k lb n (option_map number a) (number b) (number_block l).
Proof. reflexivity. Qed.
Lemma n_forin : forall k lb n a l, number (EForIn k lb n a l) = EForIn k lb n (number a) (number_block l).
Proof. reflexivity. Qed.
Lemma n_if : forall c tb cs bs eb, number (EIf c tb cs bs eb) =
  EIf (number c) (number_block tb) (map number cs) (map number_block bs) (option_map number_block eb).
Proof. reflexivity. Qed.
Lemma n_cons : forall e b, number_block (e :: b) =
  match e with
  | EAssign op (EItem it) r =>
      if String.eqb (item_name it) name then EAssign op (EItem it) (number r) :: b else number e :: number_block b
  | _ => number e :: number_block b
  end.
Proof. reflexivity. Qed.

Definition kept (e : expr) : Prop := absent e = true -> number e = e.
Lemma kept_list : forall l, Forall kept l -> forallb absent l = true -> map number l = l.
Proof. intros l H A. apply map_same. eapply forallb_all; [exact H| |exact A]. auto. Qed.
Lemma kept_ids : forall ids, Forall (idx_all kept) ids -> forallb (fun i => match i with IdExpr e => absent e | _ => true end) ids = true ->
  map (fun i => match i with IdExpr e => IdExpr (number e) | i => i end) ids = ids.
Proof. intros ids H A. apply map_same. eapply forallb_all; [exact H| |exact A]. intros [s|x|e] K X; auto. cbn in K. rewrite K; auto. Qed.
(** How a statement of a block is treated. *)
Lemma n_cons_kept : forall e b, absent e = true -> kept e -> number_block (e :: b) = e :: number_block b.
Proof.
  intros e b A K. rewrite n_cons. pose proof (K A) as E.
  destruct e as [| | | | | | | | | | | |op [| | | | | | | | | | |[n s c t ids ti]| | | | | | | | | | | | | | |] r| | | | | | | | | | | | | |]; try (rewrite E; reflexivity).
  cbn in A. apply andb_prop in A. destruct A as [A _]. apply andb_prop in A. destruct A as [A _]. apply negb_true_iff in A.
  cbn [item_name]. rewrite A, E. reflexivity.
Qed.
Lemma kept_block : forall l, Forall kept l -> forallb absent l = true -> number_block l = l.
Proof.
  intros l H. induction H as [|e l K _ IH]; intros A; [reflexivity|]. cbn [forallb] in A. apply andb_prop in A. destruct A as [A B].
  rewrite n_cons_kept, IH by auto. reflexivity.
Qed.
Lemma kept_all : forall e, kept e.
Proof.
  apply (e_ind (fun _ => True) kept (item_all kept) (idx_all kept) (clos_all kept));
    try (intros; exact I); try (intros; assumption); unfold kept at 1.
  - intros l H A. cbn [TransformModel.number]. cbn in A. rewrite kept_list by auto. reflexivity.
  - intros l H A. cbn [TransformModel.number]. cbn in A. f_equal. apply map_same. eapply forallb_all; [exact H| |exact A].
    intros [k e] K X. cbn in *. rewrite K by auto. reflexivity.
  - intros l H A. cbn [TransformModel.number]. cbn in A. rewrite kept_list by auto. reflexivity.
  - intros a b HA HB A. cbn in A. apply andb_prop in A. destruct A. cbn [TransformModel.number]. rewrite HA, HB by auto. reflexivity.
  - intros e H A. cbn [TransformModel.number]. rewrite H by auto. reflexivity.
  - reflexivity.
  - reflexivity.
  - reflexivity.
  - intros l H A. rewrite n_block, kept_block by auto. reflexivity.
  - intros n l H A. cbn [TransformModel.number]. cbn in A. rewrite kept_list by auto. reflexivity.
  - intros f n l H A. cbn [TransformModel.number]. cbn in A. rewrite kept_list by auto. reflexivity.
  - intros [n s c t ids ti] H A. cbn [TransformModel.number]. cbn in A. apply andb_prop in A. destruct A as [A B]. apply negb_true_iff in A.
    rewrite A, kept_ids by auto. reflexivity.
  - intros op a b HA HB A. cbn in A. apply andb_prop in A. destruct A. cbn [TransformModel.number]. rewrite HA, HB by auto. reflexivity.
  - intros l H A. cbn [TransformModel.number]. cbn in A. rewrite kept_list by auto. reflexivity.
  - intros l H A. cbn [TransformModel.number]. cbn in A. rewrite kept_list by auto. reflexivity.
  - intros lb a b c l HA HB HC HL A. cbn [TransformSpec.absent] in A. apply andb_prop in A. destruct A as [A A4]. apply andb_prop in A. destruct A as [A A3]. apply andb_prop in A. destruct A as [A1 A2].
    rewrite n_for. rewrite (HB A2), (HC A3), kept_block by auto. pose proof (HA A1) as E.
    destruct a as [| | | | | | | | | | | |op [| | | | | | | | | | |[n s c' t ids ti]| | | | | | | | | | | | | | |] r| | | | | | | | | | | | | |]; try (rewrite E; reflexivity).
    cbn in A1. apply andb_prop in A1. destruct A1 as [A1 _]. apply andb_prop in A1. destruct A1 as [A1 _]. apply negb_true_iff in A1.
    cbn [item_name]. rewrite A1, E. reflexivity.
  - intros k lb n a b l HA HB HL A. cbn [TransformSpec.absent] in A. apply andb_prop in A. destruct A as [A A3]. apply andb_prop in A. destruct A as [A1 A2].
    rewrite n_forn. destruct (String.eqb n name); [reflexivity|]. rewrite HB, kept_block by auto.
    rewrite opt_same by (destruct a; cbn in *; auto). reflexivity.
  - intros k lb n a l HA HL A. cbn in A. apply andb_prop in A. destruct A as [A1 A3].
    rewrite n_forin. rewrite HA, kept_block by auto. reflexivity.
  - intros c tb cs bs eb HC HT HCS HBS HEB A. cbn [TransformSpec.absent] in A. apply andb_prop in A. destruct A as [A A5]. apply andb_prop in A. destruct A as [A A4].
    apply andb_prop in A. destruct A as [A A3]. apply andb_prop in A. destruct A as [A1 A2].
    rewrite n_if. rewrite HC, kept_block, kept_list by auto.
    rewrite map_same by (eapply forallb_all; [exact HBS| |exact A4]; intros; apply kept_block; auto).
    rewrite opt_same by (destruct eb; cbn in *; auto; apply kept_block; auto). reflexivity.
  - reflexivity.
  - intros e H A. cbn [TransformModel.number]. rewrite H by auto. reflexivity.
  - intros i e H A. cbn [TransformModel.number]. rewrite H by auto. reflexivity.
  - intros c H A. reflexivity.
  - intros [n s c t ids ti] l H HL A. cbn [TransformModel.number]. cbn in A. apply andb_prop in A. destruct A as [A B]. rewrite kept_list by auto. reflexivity.
  - intros lv e H A. cbn [TransformModel.number]. rewrite H by auto. reflexivity.
  - intros e H A. cbn [TransformModel.number]. rewrite H by auto. reflexivity.
  - reflexivity.
Qed.

(** ** Both are the same *)
Notation plain := (TransformSpec.plain name).
Fixpoint plain_block (b : list expr) : bool :=
  match b with
  | [] => true
  | EAssign op l r :: b => if assigns name l then is_decl op l && plain r else plain l && plain r && plain_block b
  | e :: b => plain e && plain_block b
  end.
Definition same_sub (e : expr) : Prop := plain e = true -> sub 0 false e = (number e, false).
Lemma same_list : forall l, Forall same_sub l -> forallb plain l = true ->
  map (fun e => fst (sub 0 false e)) l = map number l /\ seq (sub 0) false l = (map number l, false).
Proof.
  intros l H. induction H as [|e l E _ IH]; intros P; [split; reflexivity|]. cbn [forallb] in P. apply andb_prop in P. destruct P as [P Q].
  destruct (IH Q) as [I J]. cbn [map seq]. rewrite (E P), I, J. split; reflexivity.
Qed.
Lemma same_ids : forall ids, Forall (idx_all same_sub) ids -> forallb (fun i => match i with IdExpr e => plain e | _ => true end) ids = true ->
  map (fun i => match i with IdExpr e => IdExpr (fst (sub 0 false e)) | i => i end) ids =
  map (fun i => match i with IdExpr e => IdExpr (number e) | i => i end) ids.
Proof. intros ids H A. apply map_eq. eapply forallb_all; [exact H| |exact A]. intros [s|x|e] K X; auto. cbn in K. rewrite K; auto. Qed.
Lemma not_assigns : forall l, assigns name l = false -> match l with EItem it => String.eqb (item_name it) name = false | _ => True end.
Proof. intros [| | | | | | | | | | |[n s c t ids ti]| | | | | | | | | | | | | | |] H; exact I || exact H. Qed.
(** One that declares the name in a block or loop head *)
Lemma same_decl : forall op l r, assigns name l = true -> is_decl op l = true -> same_sub r -> plain r = true ->
  sub 0 false (EAssign op l r) = (EAssign op l (number r), true).
Proof.
  intros op l r A D S P. cbn [TransformSpec.sub]. rewrite D, (S P).
  destruct l as [| | | | | | | | | | |[n s c t ids ti]| | | | | | | | | | | | | | |]; try discriminate. unfold is_decl, declares in *.
  destruct op; try discriminate. destruct ids; try discriminate. cbn in A. rewrite A. reflexivity.
Qed.
(** For an assignment in a block, the parts are known. *)
Definition parts_same (e : expr) : Prop := match e with EAssign op l r => same_sub l /\ same_sub r /\ same_sub e | _ => same_sub e end.
Lemma parts : forall e, parts_same e -> same_sub e.
Proof. intros [] H; try exact H. apply H. Qed.
Lemma plain_assign : forall op l r, assigns name l = false -> plain l && plain r = true -> plain (EAssign op l r) = true.
Proof. intros op l r A P. cbn [TransformSpec.plain]. rewrite A. exact P. Qed.
Lemma same_block : forall l, Forall parts_same l -> plain_block l = true -> fst (seq (sub 0) false l) = number_block l.
Proof.
  intros l H. induction H as [|e l E _ IH]; intros P; [reflexivity|].
  assert (G : match e with EAssign _ _ _ => True | _ => number_block (e :: l) = number e :: number_block l end).
  { rewrite n_cons. destruct e; auto. }
  destruct e as [| | | | | | | | | | | |op a r| | | | | | | | | | | | | |].
  all: try (cbn [plain_block] in P; apply andb_prop in P; destruct P as [P Q]; pose proof (parts _ E P) as S; cbn [seq]; rewrite S;
    specialize (IH Q); destruct (seq (sub 0) false l) as [ys h2]; cbn [fst] in IH |- *; rewrite G, <- IH; reflexivity).
  clear G. cbn [plain_block] in P. destruct E as (EA & ER & E). destruct (assigns name a) eqn:A.
  - apply andb_prop in P. destruct P as [D P]. cbn [seq]. rewrite (same_decl op a r A D ER P).
    rewrite (seq_same (sub 0) true l) by (apply Forall_forall; intros x _; apply unchanged_all; auto). cbn [fst].
    destruct a as [| | | | | | | | | | |[n s c t ids ti]| | | | | | | | | | | | | | |]; try discriminate.
    rewrite n_cons. cbn [item_name] in *. cbn in A. rewrite A. reflexivity.
  - apply andb_prop in P. destruct P as [P Q]. pose proof (E (plain_assign op a r A P)) as S. cbn [seq]. rewrite S.
    specialize (IH Q). destruct (seq (sub 0) false l) as [ys h2]. cbn [fst] in IH |- *. rewrite n_cons, IH.
    apply not_assigns in A. destruct a; auto. rewrite A. reflexivity.
Qed.
Lemma p_for : forall lb a b c l, plain (EFor lb a b c l) =
  match a with
  | EAssign op lf r =>
      if assigns name lf then is_decl op lf && plain r
      else plain lf && plain r && plain b && plain c && plain_block l
  | _ => plain a && plain b && plain c && plain_block l
  end.
Proof. reflexivity. Qed.
Lemma parts_list : forall l, Forall parts_same l -> Forall same_sub l.
Proof. intros l H. eapply Forall_impl; [|exact H]. apply parts. Qed.
Lemma same_all : forall e, parts_same e.
Proof.
  apply (e_ind (fun _ => True) parts_same (item_all parts_same) (idx_all parts_same) (clos_all parts_same));
    try (intros; exact I); try (intros; assumption); unfold parts_same at 1; try unfold same_sub at 1.
  - intros l H P. cbn [TransformSpec.sub TransformModel.number]. cbn in P. rewrite (proj2 (same_list l (parts_list l H) P)). reflexivity.
  - intros l H P. cbn [TransformSpec.sub TransformModel.number]. cbn in P. f_equal. f_equal. apply map_eq. eapply forallb_all; [exact H| |exact P].
    intros [k e] K X. cbn in *. rewrite (parts _ K X). reflexivity.
  - intros l H P. cbn [TransformSpec.sub TransformModel.number]. cbn in P. rewrite (proj1 (same_list l (parts_list l H) P)). reflexivity.
  - intros a b HA HB P. cbn in P. apply andb_prop in P. destruct P. cbn [TransformSpec.sub TransformModel.number]. rewrite (parts _ HA), (parts _ HB) by auto. reflexivity.
  - intros e H P. cbn [TransformSpec.sub TransformModel.number]. rewrite (parts _ H) by auto. reflexivity.
  - reflexivity.
  - reflexivity.
  - reflexivity.
  - intros l H P. rewrite n_block. cbn [TransformSpec.sub]. rewrite (same_block l H P). reflexivity.
  - intros n l H P. cbn [TransformSpec.sub TransformModel.number]. cbn in P. rewrite (proj1 (same_list l (parts_list l H) P)). reflexivity.
  - intros f n l H P. cbn [TransformSpec.sub TransformModel.number]. cbn in P. rewrite (proj1 (same_list l (parts_list l H) P)). reflexivity.
  - intros [n s c t ids ti] H P. cbn [TransformSpec.sub TransformModel.number]. cbn [TransformSpec.plain] in P. cbn [Nat.eqb negb andb is_name].
    destruct (String.eqb n name); [rewrite P; reflexivity|]. cbn [andb]. rewrite same_ids; [reflexivity| |exact P].
    eapply Forall_impl; [|exact H]. intros [s'|x|e]; cbn; auto. apply parts.
  - intros op a b HA HB. apply parts in HA. apply parts in HB. split; [exact HA|]. split; [exact HB|]. intros P.
    cbn [TransformSpec.plain] in P. apply andb_prop in P. destruct P as [P PB]. apply andb_prop in P. destruct P as [P PA]. apply negb_true_iff in P.
    cbn [TransformSpec.sub TransformModel.number]. rewrite (HA PA), (HB PB). cbn [fst]. destruct (is_decl op a) eqn:D; [|reflexivity].
    destruct a as [| | | | | | | | | | |[n s c t ids ti]| | | | | | | | | | | | | | |]; try (destruct op; discriminate).
    cbn [assigns is_name] in P. unfold is_decl, declares in *. destruct op; try discriminate. destruct ids; try discriminate.
    cbn [TransformModel.number]. rewrite P. reflexivity.
  - intros l H P. cbn [TransformSpec.sub TransformModel.number]. cbn in P. rewrite (proj1 (same_list l (parts_list l H) P)). reflexivity.
  - intros l H P. cbn [TransformSpec.sub TransformModel.number]. cbn in P. rewrite (proj1 (same_list l (parts_list l H) P)). reflexivity.
  - intros lb a b c l HA HB HC HL P. rewrite p_for in P. rewrite n_for.
    assert (OTHER : plain a && plain b && plain c && plain_block l = true -> sub 0 false (EFor lb a b c l) = (EFor lb (number a) (number b) (number c) (number_block l), false)).
    { intros Q. apply andb_prop in Q. destruct Q as [Q QL]. apply andb_prop in Q. destruct Q as [Q QC]. apply andb_prop in Q. destruct Q as [QA QB].
      cbn [TransformSpec.sub]. rewrite (parts _ HA QA), (parts _ HB QB), (parts _ HC QC), (same_block l HL QL). reflexivity. }
    destruct a as [| | | | | | | | | | | |op lf r| | | | | | | | | | | | | |]; try (apply OTHER; exact P).
    destruct HA as (HLf & HR & HA). destruct (assigns name lf) eqn:A.
    + apply andb_prop in P. destruct P as [D P]. cbn [TransformSpec.sub]. change (sub 0 false (EAssign op lf r)) with (sub 0 false (EAssign op lf r)).
      pose proof (same_decl op lf r A D HR P) as S. cbn [TransformSpec.sub] in S. rewrite S.
      rewrite !unchanged_all by auto.
      rewrite (seq_same (sub 0) true l) by (apply Forall_forall; intros x _; apply unchanged_all; auto). cbn [fst].
      destruct lf as [| | | | | | | | | | |[n s c' t ids ti]| | | | | | | | | | | | | | |]; try discriminate. cbn in A. cbn [item_name]. rewrite A. reflexivity.
    + assert (plain (EAssign op lf r) && plain b && plain c && plain_block l = true) as Q.
      { apply andb_prop in P. destruct P as [P P4]. apply andb_prop in P. destruct P as [P P3]. apply andb_prop in P. destruct P as [P P2].
        rewrite (plain_assign op lf r A P), P2, P3, P4. reflexivity. }
      specialize (OTHER Q). apply not_assigns in A. destruct lf; try exact OTHER. rewrite A. exact OTHER.
  - intros k lb n a b l HA HB HL P. cbn [TransformSpec.plain] in P. rewrite n_forn. cbn [TransformSpec.sub Nat.eqb andb orb]. destruct (String.eqb n name).
    + apply andb_prop in P. destruct P as [PA PB]. rewrite (unchanged_all b) by auto. cbn [fst].
      rewrite opt_same by (destruct a; cbn in *; auto; rewrite unchanged_all by auto; reflexivity).
      rewrite (seq_same (sub 0) true l) by (apply Forall_forall; intros x _; apply unchanged_all; auto). reflexivity.
    + apply andb_prop in P. destruct P as [P PL]. apply andb_prop in P. destruct P as [PA PB].
      rewrite (parts _ HB PB), (same_block l HL PL). cbn [fst].
      rewrite (opt_eq _ number) by (destruct a; cbn in *; auto; rewrite (parts _ HA PA); reflexivity). reflexivity.
  - intros k lb n a l HA HL P. cbn [TransformSpec.plain] in P. apply andb_prop in P. destruct P as [PA PL]. rewrite n_forin. cbn [TransformSpec.sub Nat.eqb andb orb].
    rewrite (parts _ HA PA). cbn [fst]. destruct (String.eqb n name).
    + rewrite (seq_same (sub 0) true l) by (apply Forall_forall; intros x _; apply unchanged_all; auto).
      rewrite kept_block; [reflexivity| |exact PL]. apply Forall_forall. intros x _. apply kept_all.
    + rewrite (same_block l HL PL). reflexivity.
  - intros c tb cs bs eb HC HT HCS HBS HEB P. cbn [TransformSpec.plain] in P. apply andb_prop in P. destruct P as [P PE]. apply andb_prop in P. destruct P as [P PB].
    apply andb_prop in P. destruct P as [P PS]. apply andb_prop in P. destruct P as [PC PT].
    rewrite n_if. cbn [TransformSpec.sub]. rewrite (parts _ HC PC), (same_block tb HT PT), (proj1 (same_list cs (parts_list cs HCS) PS)). cbn [fst].
    rewrite (map_eq _ number_block) by (eapply forallb_all; [exact HBS| |exact PB]; intros; apply same_block; auto).
    rewrite (opt_eq _ number_block) by (destruct eb; cbn in *; auto; apply same_block; auto). reflexivity.
  - reflexivity.
  - intros e H P. cbn [TransformSpec.sub TransformModel.number]. rewrite (parts _ H) by auto. reflexivity.
  - intros i e H P. cbn [TransformSpec.sub TransformModel.number]. rewrite (parts _ H) by auto. reflexivity.
  - intros [a c b] H P. apply unchanged_all. right. exact P.
  - intros [n s c t ids ti] l H HL P. cbn [TransformSpec.plain] in P. apply andb_prop in P. destruct P as [PI PL].
    cbn [TransformSpec.sub TransformModel.number]. rewrite (proj1 (same_list l (parts_list l HL) PL)).
    cbn in PI. apply andb_prop in PI. destruct PI as [_ PI]. rewrite unchanged_ids; [reflexivity| |auto].
    apply Forall_forall. intros [s'|x|e] _; cbn; auto. apply unchanged_all.
  - intros lv e H P. rewrite (unchanged_all (EGrab lv e)) by auto. cbn [TransformModel.number].
    rewrite (kept_all e P). reflexivity.
  - intros e H P. cbn [TransformSpec.sub TransformModel.number]. rewrite (parts _ H) by auto. reflexivity.
  - reflexivity.
Qed.
Lemma number_sub : forall e, plain e = true -> fst (sub 0 false e) = number e.
Proof. intros e P. rewrite (parts _ (same_all e) P). reflexivity. Qed.
End Replace.
