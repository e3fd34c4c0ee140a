(** * Grabbing evaluates the grabbed expressions once, in order. *)
From Coq Require Import String List ZArith Bool Arith Lia.
From Verif Require Import Float64 Syntax InterpModel SyntaxProofs GrabSpec.
Import ListNotations.
Local Open Scope nat_scope.
Local Open Scope list_scope.

Arguments GOk {A}. Arguments GRet {A}.
Section Grab.
Context (ev : expr -> side -> M res) (fuel : nat).
Definition take (x : expr) : M (gres value) :=
  vexpr ev x Right "expected something"%string (fun x => ret (GRet x)) (fun v => bind (deep fuel v) (fun w => gret w)).
(** [m] takes the values of [xs], in order, and nothing else; [p] says what it makes of them. *)
Definition Gr {A} (m : M (gres A)) (xs : list expr) (p : list value -> A * list value) : Prop :=
  (forall s, m s = gbind (gmap take xs) (fun ws => gret (fst (p ws))) s) /\
  (forall ws rest, length ws = length xs -> p (ws ++ rest) = (fst (p ws), rest)).

Lemma gmap_len : forall xs s ws s', gmap take xs s = Ok (GOk ws) s' -> length ws = length xs.
Proof.
  induction xs as [|x xs IH]; intros s ws s' H; cbn [gmap] in H.
  - unfold gret, ret in H. inversion H; subst. auto.
  - unfold gbind at 1 in H. unfold bind in H. destruct (take x s) as [[a|o] s1| | |]; try discriminate.
    unfold gbind, bind in H. destruct (gmap take xs s1) as [[l|o] s2| | |] eqn:Q; try discriminate.
    unfold gret, ret in H. inversion H; subst. simpl. f_equal. eauto.
Qed.
Lemma gmap_app : forall xs ys s, gmap take (xs ++ ys) s = gbind (gmap take xs) (fun a => gbind (gmap take ys) (fun b => gret (a ++ b))) s.
Proof.
  induction xs as [|x xs IH]; intros ys s.
  - cbn [app gmap]. unfold gbind, gret, bind, ret. destruct (gmap take ys s) as [[l|o] s2| | |]; auto.
  - cbn [app gmap]. unfold gbind at 1. unfold bind at 1. unfold gbind at 2. unfold bind at 1. unfold gbind at 2. unfold bind at 1.
    destruct (take x s) as [[a|o] s1| | |]; auto. unfold gbind, bind, gret, ret in *. rewrite IH.
    destruct (gmap take xs s1) as [[l|o] s2| | |]; auto. destruct (gmap take ys s2) as [[l2|o] s3| | |]; auto.
Qed.
Lemma Gr_ret : forall {A} (a : A), Gr (gret a) [] (done a).
Proof.
  intros A a. split; auto. intros ws rest H. destruct ws; [|discriminate]. reflexivity.
Qed.
Lemma Gr_bind : forall {A B} (m : M (gres A)) (k : A -> M (gres B)) xs ys p q,
  Gr m xs p -> (forall a, Gr (k a) ys (q a)) -> Gr (gbind m k) (xs ++ ys) (draw p q).
Proof.
  intros A B m k xs ys p q [M1 M2] K. split.
  - intros s. unfold gbind at 1. unfold bind. rewrite M1. unfold gbind, bind. rewrite gmap_app. unfold gbind, bind.
    destruct (gmap take xs s) as [[wa|o] s1| | |] eqn:Q; auto. unfold gret at 1, ret at 1.
    rewrite (proj1 (K (fst (p wa)))). unfold gbind, bind, gret, ret.
    destruct (gmap take ys s1) as [[wb|o] s2| | |] eqn:Q2; auto. unfold draw. rewrite M2; auto. eapply gmap_len; eauto.
  - intros ws rest L. rewrite app_length in L. unfold draw.
    pose proof (firstn_skipn (length xs) ws) as FS. set (a := firstn (length xs) ws) in *. set (b := skipn (length xs) ws) in *.
    assert (length a = length xs) as La by (subst a; rewrite firstn_length; lia).
    assert (length b = length ys) as Lb by (subst b; rewrite skipn_length; lia).
    rewrite <- FS. rewrite <- app_assoc. rewrite !(M2 a) by auto. apply K; auto.
Qed.
Lemma Gr_conv : forall {A} (m : M (gres A)) xs ys p, Gr m xs p -> xs = ys -> Gr m ys p.
Proof. intros. subst. auto. Qed.
Lemma Gr_bind1 : forall {A B} (m : M (gres A)) (f : A -> B) xs p, Gr m xs p -> Gr (gbind m (fun a => gret (f a))) xs (draw p (fun a => done (f a))).
Proof. intros A B m f xs p H. eapply Gr_conv; [eapply Gr_bind; [exact H|intros a; apply Gr_ret]|apply app_nil_r]. Qed.
Lemma Gr_map : forall {A B} (f : A -> M (gres B)) g h l, Forall (fun x => Gr (f x) (g x) (h x)) l ->
  Gr (gmap f l) (flat_map g l) (draws h l).
Proof.
  intros A B f g h l H. induction H as [|x l H F IH]; cbn [gmap flat_map draws].
  - apply Gr_ret.
  - apply Gr_bind; auto. intros y. apply Gr_bind1; auto.
Qed.
Lemma Gr_opt : forall {A B} (f : A -> M (gres B)) g h o, (forall x, o = Some x -> Gr (f x) (g x) (h x)) ->
  Gr (gopt f o) (match o with Some x => g x | None => [] end) (drawo h o).
Proof. intros A B f g h [x|] H; cbn [gopt drawo]; [apply Gr_bind1; auto|apply Gr_ret]. Qed.

Definition Pe (e : expr) : Prop := forall lv, Gr (grab_expr ev fuel lv e) (grabs lv e) (put lv e).
Definition Pi (it : item) : Prop := forall lv, Gr (grab_item ev fuel lv it) (grabs_item lv it) (put_item lv it).
Definition Px (i : idx) : Prop := forall lv, Gr (grab_idx ev fuel lv i) (grabs_idx lv i) (put_idx lv i).
Definition Pc (c : closure) : Prop := forall lv, Gr (grab_closure ev fuel lv c) (grabs_closure lv c) (put_closure lv c).
Lemma F_lv : forall lv l, Forall Pe l -> Forall (fun x => Gr (grab_expr ev fuel lv x) (grabs lv x) (put lv x)) l.
Proof. intros lv l H. eapply Forall_impl; [|exact H]. intros x Hx. exact (Hx lv). Qed.

Lemma Gr_take : forall lv l x, Gr (grab_expr ev fuel lv (EGrab l x)) (grabs lv (EGrab l x)) (put lv (EGrab l x)).
Proof.
  intros lv l x. cbn [grab_expr grabs put]. destruct (Nat.eqb l lv); [|apply Gr_ret]. split.
  - intros s. cbn [gmap]. unfold take. unfold gbind at 1. unfold bind at 1. unfold gbind at 1. unfold bind at 1. unfold vexpr, bind.
    destruct (ev x Right s) as [[[v|] []] s1| | |]; auto. destruct (deep fuel v s1); auto.
  - intros ws rest H. destruct ws as [|w [|]]; try discriminate. reflexivity.
Qed.
Lemma grab_Gr : (forall v : value, True) /\ (forall e, Pe e) /\ (forall it, Pi it) /\ (forall i, Px i) /\ (forall c, Pc c).
Proof.
  apply syntax_ind; try (intros; exact I); try (intros; intros lv; apply Gr_ret);
    try (intros l H lv; apply Gr_bind1; apply Gr_map; apply F_lv; exact H);
    try (intros n l H lv; apply Gr_bind1; apply Gr_map; apply F_lv; exact H);
    try (intros f n l H lv; apply Gr_bind1; apply Gr_map; apply F_lv; exact H);
    try (intros e H lv; apply Gr_bind1; apply H);
    try (intros i e H lv; apply Gr_bind1; apply H);
    try (intros a b Ha Hb lv; apply Gr_bind; [apply Ha|intros a']; apply Gr_bind1; apply Hb);
    try (intros op a b Ha Hb lv; apply Gr_bind; [apply Ha|intros a']; apply Gr_bind1; apply Hb).
  - (* EObject *) intros l H lv. apply Gr_bind1. apply Gr_map. eapply Forall_impl; [|exact H]. intros [k x] Hx. simpl in Hx. apply Gr_bind1. apply Hx.
  - (* EFor *) intros lb a b c l Ha Hb Hc Hl lv. cbn [grab_expr grabs put]. apply Gr_bind; [apply Ha|intros a']. apply Gr_bind; [apply Hb|intros b'].
    apply Gr_bind; [apply Hc|intros c']. apply Gr_bind1. apply Gr_map. apply F_lv. exact Hl.
  - (* EForN *) intros k lb n a b l Ha Hb Hl lv. cbn [grab_expr grabs put]. apply Gr_bind; [|intros a'].
    { apply (Gr_opt (grab_expr ev fuel lv) (grabs lv) (put lv) a). intros x ->. apply Ha. }
    apply Gr_bind; [apply Hb|intros b']. apply Gr_bind1. apply Gr_map. apply F_lv. exact Hl.
  - (* EForIn *) intros k lb n a l Ha Hl lv. cbn [grab_expr grabs put]. apply Gr_bind; [apply Ha|intros a']. apply Gr_bind1. apply Gr_map. apply F_lv. exact Hl.
  - (* EIf *) intros c tb cs bs eb Hc Ht Hcs Hbs Heb lv. cbn [grab_expr grabs put]. apply Gr_bind; [apply Hc|intros c'].
    apply Gr_bind; [apply Gr_map; apply F_lv; exact Ht|intros tb']. apply Gr_bind; [apply Gr_map; apply F_lv; exact Hcs|intros cs'].
    apply Gr_bind; [|intros bs'].
    { apply Gr_map. eapply Forall_impl; [|exact Hbs]. intros b Hb. apply Gr_map. apply F_lv. exact Hb. }
    apply Gr_bind1. apply (Gr_opt (gmap (grab_expr ev fuel lv)) (flat_map (grabs lv)) (draws (put lv)) eb).
    intros x ->. apply Gr_map. apply F_lv. exact Heb.
  - (* ECallClosure *) intros it l Hi Hl lv. cbn [grab_expr grabs put]. apply Gr_bind; [apply Hi|intros it']. apply Gr_bind1. apply Gr_map. apply F_lv. exact Hl.
  - (* EGrab *) intros n e H lv. apply Gr_take.
  - (* Item *) intros n sid c t ids ti H lv. cbn [grab_item grabs_item put_item]. apply Gr_bind1. apply Gr_map. eapply Forall_impl; [|exact H].
    intros x Hx. apply Hx.
  - intros a c b H lv. cbn [grab_closure grabs_closure put_closure]. apply Gr_bind1. apply H.
Qed.
End Grab.

(** ** What is left *)
Section Left.
(** The grabs of level [lv'] left in what [p] makes of enough values. *)
Definition Cl {A} (p : list value -> A * list value) (xs : list expr) (g : A -> list expr) (out : list expr) : Prop :=
  forall ws rest, length ws = length xs -> g (fst (p (ws ++ rest))) = out /\ snd (p (ws ++ rest)) = rest.
Lemma Cl_ret : forall {A} (a : A) g, Cl (done a) [] g (g a).
Proof. intros A a g ws rest H. destruct ws; [|discriminate]. auto. Qed.
Lemma Cl_bind : forall {A B} p (q : A -> list value -> B * list value) xs ys ga gb oa ob,
  Cl p xs ga oa -> (forall a, ga a = oa -> Cl (q a) ys gb ob) -> Cl (draw p q) (xs ++ ys) gb ob.
Proof.
  intros A B p q xs ys ga gb oa ob P Q ws rest L. rewrite app_length in L. unfold draw.
  pose proof (firstn_skipn (length xs) ws) as FS. set (a := firstn (length xs) ws) in *. set (b := skipn (length xs) ws) in *.
  assert (length a = length xs) as La by (subst a; rewrite firstn_length; lia).
  assert (length b = length ys) as Lb by (subst b; rewrite skipn_length; lia).
  rewrite <- FS, <- app_assoc. destruct (P a (b ++ rest) La) as [P1 P2]. destruct (p (a ++ b ++ rest)) as [x w]. simpl in *. subst w.
  apply (Q x P1); auto.
Qed.
Lemma Cl_bind1 : forall {A B} p (f : A -> B) xs ga gb oa ob,
  Cl p xs ga oa -> (forall a, ga a = oa -> gb (f a) = ob) -> Cl (draw p (fun a => done (f a))) xs gb ob.
Proof.
  intros A B p f xs ga gb oa ob P Q. rewrite <- (app_nil_r xs). eapply Cl_bind; [exact P|]. intros a Ha. rewrite <- (Q a Ha). apply Cl_ret.
Qed.
Lemma Cl_map : forall {A} (h : A -> list value -> A * list value) xs g (o : A -> list expr) l,
  Forall (fun x => Cl (h x) (xs x) g (o x)) l -> Cl (draws h l) (flat_map xs l) (flat_map g) (flat_map o l).
Proof.
  intros A h xs g o l H. induction H as [|x l H F IH]; cbn [draws flat_map].
  - apply (Cl_ret (@nil A) (flat_map g)).
  - eapply Cl_bind; [exact H|]. intros y Hy. eapply Cl_bind1; [exact IH|]. intros l' Hl'. cbn [flat_map]. congruence.
Qed.

(** The grabs of level [lv'] that stay when level [lv] is taken. *)
Definition stay (lv lv' : nat) (l : list expr) : list expr := if Nat.eqb lv' lv then [] else l.
Lemma stay_app : forall lv lv' a b, stay lv lv' (a ++ b) = stay lv lv' a ++ stay lv lv' b.
Proof. intros. unfold stay. destruct (Nat.eqb lv' lv); auto. Qed.
Lemma stay_map : forall {A} lv lv' (f : A -> list expr) l, stay lv lv' (flat_map f l) = flat_map (fun x => stay lv lv' (f x)) l.
Proof. intros A lv lv' f l. induction l as [|x l IH]; cbn [flat_map]; [unfold stay; destruct (Nat.eqb lv' lv); auto|]. rewrite stay_app, IH. auto. Qed.
Lemma stay_nil : forall lv lv', stay lv lv' [] = [].
Proof. intros. unfold stay. destruct (Nat.eqb lv' lv); auto. Qed.
Definition Qe (e : expr) : Prop := forall lv lv', Cl (put lv e) (grabs lv e) (grabs lv') (stay lv lv' (grabs lv' e)).
Definition Qi (it : item) : Prop := forall lv lv', Cl (put_item lv it) (grabs_item lv it) (grabs_item lv') (stay lv lv' (grabs_item lv' it)).
Definition Qx (i : idx) : Prop := forall lv lv', Cl (put_idx lv i) (grabs_idx lv i) (grabs_idx lv') (stay lv lv' (grabs_idx lv' i)).
Definition Qc (c : closure) : Prop := forall lv lv', Cl (put_closure lv c) (grabs_closure lv c) (grabs_closure lv') (stay lv lv' (grabs_closure lv' c)).
Lemma Q_map : forall lv lv' l, Forall Qe l ->
  Cl (draws (put lv) l) (flat_map (grabs lv) l) (flat_map (grabs lv')) (stay lv lv' (flat_map (grabs lv') l)).
Proof.
  intros lv lv' l H. rewrite stay_map. apply Cl_map. eapply Forall_impl; [|exact H]. intros x Hx. exact (Hx lv lv').
Qed.
Lemma Cl_opt : forall {A} (h : A -> list value -> A * list value) xs g (o : A -> list expr) lv lv' (x : option A),
  (forall a, x = Some a -> Cl (h a) (xs a) g (stay lv lv' (o a))) ->
  Cl (drawo h x) (match x with Some a => xs a | None => [] end) (fun y => match y with Some a => g a | None => [] end)
     (stay lv lv' (match x with Some a => o a | None => [] end)).
Proof.
  intros A h xs g o lv lv' [a|] H; cbn [drawo].
  - eapply Cl_bind1; [exact (H a eq_refl)|]. intros b Hb. exact Hb.
  - rewrite stay_nil. apply (Cl_ret (@None A) (fun y => match y with Some a => g a | None => [] end)).
Qed.
Lemma put_left : (forall v : value, True) /\ (forall e, Qe e) /\ (forall it, Qi it) /\ (forall i, Qx i) /\ (forall c, Qc c).
Proof.
  apply syntax_ind; try (intros; exact I);
    try (intros; intros lv lv'; match goal with |- Cl _ _ _ ?o => replace o with (@nil expr) by (symmetry; exact (stay_nil lv lv')) end; match goal with |- Cl (put _ ?e) _ _ _ => exact (Cl_ret e (grabs lv')) end);
    try (intros; intros lv lv'; match goal with |- Cl _ _ _ ?o => replace o with (@nil expr) by (symmetry; exact (stay_nil lv lv')) end; match goal with |- Cl (put_idx _ ?e) _ _ _ => exact (Cl_ret e (grabs_idx lv')) end);
    try (intros l H lv lv'; eapply Cl_bind1; [apply (Q_map lv lv' l H)|intros l' Hl'; exact Hl']);
    try (intros n l H lv lv'; eapply Cl_bind1; [apply (Q_map lv lv' l H)|intros l' Hl'; exact Hl']);
    try (intros f n l H lv lv'; eapply Cl_bind1; [apply (Q_map lv lv' l H)|intros l' Hl'; exact Hl']);
    try (intros e H lv lv'; eapply Cl_bind1; [apply (H lv lv')|intros e' He'; exact He']);
    try (intros i e H lv lv'; eapply Cl_bind1; [apply (H lv lv')|intros e' He'; exact He']);
    try (intros a b Ha Hb lv lv'; eapply Cl_bind; [apply (Ha lv lv')|intros a' Ha']; eapply Cl_bind1; [apply (Hb lv lv')|];
         intros b' Hb'; cbn [grabs]; rewrite stay_app; congruence);
    try (intros op a b Ha Hb lv lv'; eapply Cl_bind; [apply (Ha lv lv')|intros a' Ha']; eapply Cl_bind1; [apply (Hb lv lv')|];
         intros b' Hb'; cbn [grabs]; rewrite stay_app; congruence).
  - (* EObject *) intros l H lv lv'. cbn [put grabs]. eapply Cl_bind1; [|intros l' Hl'; exact Hl'].
    rewrite stay_map. apply (Cl_map (fun kx => match kx with (k, x) => draw (put lv x) (fun x => done (k, x)) end)
      (fun kx => match kx with (_, x) => grabs lv x end) (fun kx => match kx with (_, x) => grabs lv' x end)).
    eapply Forall_impl; [|exact H]. intros [k x] Hx. simpl in Hx. eapply Cl_bind1; [apply (Hx lv lv')|]. intros a Ha. exact Ha.
  - (* EFor *) intros lb a b c l Ha Hb Hc Hl lv lv'. cbn [put grabs]. rewrite !stay_app.
    eapply Cl_bind; [apply (Ha lv lv')|intros a' Ea]. eapply Cl_bind; [apply (Hb lv lv')|intros b' Eb].
    eapply Cl_bind; [apply (Hc lv lv')|intros c' Ec]. eapply Cl_bind1; [apply (Q_map lv lv' l Hl)|]. intros l' El. rewrite <- Ea, <- Eb, <- Ec, <- El. reflexivity.
  - (* EForN *) intros k lb n a b l Ha Hb Hl lv lv'. cbn [put grabs]. rewrite !stay_app.
    eapply Cl_bind; [apply (Cl_opt (put lv) (grabs lv) (grabs lv') (grabs lv') lv lv' a)|intros a' Ea].
    { intros x ->. apply (Ha lv lv'). }
    eapply Cl_bind; [apply (Hb lv lv')|intros b' Eb]. eapply Cl_bind1; [apply (Q_map lv lv' l Hl)|]. intros l' El. rewrite <- Ea, <- Eb, <- El. reflexivity.
  - (* EForIn *) intros k lb n a l Ha Hl lv lv'. cbn [put grabs]. rewrite !stay_app. eapply Cl_bind; [apply (Ha lv lv')|intros a' Ea].
    eapply Cl_bind1; [apply (Q_map lv lv' l Hl)|]. intros l' El. rewrite <- Ea, <- El. reflexivity.
  - (* EIf *) intros c tb cs bs eb Hc Ht Hcs Hbs Heb lv lv'. cbn [put grabs]. rewrite !stay_app.
    eapply Cl_bind; [apply (Hc lv lv')|intros c' Ec]. eapply Cl_bind; [apply (Q_map lv lv' tb Ht)|intros tb' Etb].
    eapply Cl_bind; [apply (Q_map lv lv' cs Hcs)|intros cs' Ecs]. eapply Cl_bind with (ga := flat_map (fun b => flat_map (grabs lv') b)) (oa := stay lv lv' (flat_map (fun b => flat_map (grabs lv') b) bs)); [|intros bs' Ebs].
    { rewrite stay_map. apply (Cl_map (draws (put lv)) (fun b => flat_map (grabs lv) b) (fun b => flat_map (grabs lv') b)).
      eapply Forall_impl; [|exact Hbs]. intros b Hb. apply (Q_map lv lv' b Hb). }
    eapply Cl_bind1; [apply (Cl_opt (draws (put lv)) (flat_map (grabs lv)) (flat_map (grabs lv')) (flat_map (grabs lv')) lv lv' eb)|].
    { intros x ->. apply (Q_map lv lv' x Heb). }
    intros eb' Eeb. rewrite <- Ec, <- Etb, <- Ecs, <- Ebs, <- Eeb. reflexivity.
  - (* ECallClosure *) intros it l Hi Hl lv lv'. cbn [put grabs]. rewrite !stay_app. eapply Cl_bind; [apply (Hi lv lv')|intros it' Eit].
    eapply Cl_bind1; [apply (Q_map lv lv' l Hl)|]. intros l' El. rewrite <- Eit, <- El. reflexivity.
  - (* EGrab *) intros n e H lv lv'. unfold stay. cbn [put grabs]. destruct (Nat.eqb_spec n lv) as [->|D].
    + intros ws rest L. destruct ws as [|w [|]]; try discriminate. cbn. split; auto.
      destruct (Nat.eqb_spec lv' lv); auto. destruct (Nat.eqb_spec lv lv'); auto; congruence.
    + destruct (Nat.eqb_spec lv' lv) as [->|D2].
      * assert (grabs lv (EGrab n e) = []) as Q by (cbn [grabs]; destruct (Nat.eqb_spec n lv); auto; contradiction).
        pose proof (Cl_ret (EGrab n e) (grabs lv)) as R. rewrite Q in R. exact R.
      * apply (Cl_ret (EGrab n e) (grabs lv')).
  - (* Item *) intros n sid c t ids ti H lv lv'. cbn [put_item grabs_item]. eapply Cl_bind1; [|intros l' Hl'; exact Hl'].
    rewrite stay_map. apply Cl_map. eapply Forall_impl; [|exact H]. intros x Hx. exact (Hx lv lv').
  - intros a c b H lv lv'. cbn [put_closure grabs_closure]. eapply Cl_bind1; [apply (H (S lv) (S lv'))|]. intros b' Hb'. exact Hb'.
Qed.
End Left.
