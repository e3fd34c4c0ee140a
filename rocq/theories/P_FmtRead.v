(** * C68: formatted data is read as the same value. *)
From Coq Require Import String Ascii List ZArith NArith Bool Arith Lia SpecFloat.
From Verif Require Import Float64 DataModel DataSpec DataProofs P_Data FmtModel FmtSpec P_Fmt.
Import ListNotations.
Local Open Scope nat_scope.
Local Open Scope list_scope.

Section Tame.
Variables (L : lib) (P : data -> Prop).
Hypotheses (Hstr : forall s, simple L s -> P (DStr s)) (Hnum : forall x, finite x -> P (DNum x)) (Hbool : forall b, P (DBool b))
  (Hsome : forall v, tame L v -> P v -> P (DSome v)) (Harr : forall l, Forall (tame L) l -> Forall P l -> P (DArray l))
  (Hobj : forall l, NoDup (map fst l) -> Forall (fun kv => fst kv <> [] /\ simple L (fst kv)) l -> Forall (fun kv => P (snd kv)) l -> P (DObject l)).
Fixpoint tame_all v (d : tame L v) {struct d} : P v :=
  match d in tame _ v return P v with
  | t_str _ s h => Hstr s h
  | t_num _ x h => Hnum x h
  | t_bool _ b => Hbool b
  | t_some _ v h => Hsome v h (tame_all v h)
  | t_array _ l f => Harr l f ((fix go l (f : Forall (tame L) l) : Forall P l :=
       match f with Forall_nil _ => Forall_nil P | Forall_cons x h t => Forall_cons x (tame_all x h) (go _ t) end) l f)
  | t_object _ l n k f => Hobj l n k ((fix go l (f : Forall (fun kv => tame L (snd kv)) l) : Forall (fun kv => P (snd kv)) l :=
       match f with Forall_nil _ => Forall_nil _ | Forall_cons x h t => Forall_cons x (tame_all _ h) (go _ t) end) l f)
  end.
End Tame.

Section Read.
Context (L : lib) (HL : laws L) (HF : format_laws L).

(** ** Reading with gaps *)
Definition gap (w : text) : Prop := w = [] \/ exists n, w = 10%N :: repeat 32%N n.
Definition gaps (w : text) : Prop := Forall (fun c => is_blank c = true) w.
Lemma gap_gaps : forall w, gap w -> gaps w.
Proof. intros w [->|(n & ->)]; [constructor|]. constructor; [reflexivity|]. induction n; constructor; auto. Qed.
Lemma gaps_app : forall a b, gaps a -> gaps b -> gaps (a ++ b). Proof. intros. apply Forall_app; auto. Qed.
Lemma blank_white : forall c, is_blank c = true -> white L c = true.
Proof. intros c H. apply orb_prop in H. destruct H as [H|H]; apply N.eqb_eq in H; subst; [apply (f_white L HF)|apply (l_space L HL)]. Qed.
Lemma skip_gap : forall w t, gaps w -> solid L t -> skip_white L (w ++ t) = t.
Proof.
  intros w t H S. induction H as [|c w Hc F IH]; [|cbn; now rewrite (blank_white c Hc)]. destruct t; [reflexivity|]. cbn. now destruct S as [-> _].
Qed.
Lemma opt_w_gap : forall w t, gaps w -> solid L t -> opt_w L (w ++ t) = t.
Proof.
  intros [|c w] t H S; [now apply opt_w_solid|]. unfold opt_w. cbn [app length]. cbn [opt_w_]. change (skip_white L (c :: w ++ t)) with (skip_white L ((c :: w) ++ t)). rewrite skip_gap by assumption.
  change (tx "//") with [47; 47]%N. assert (tag [47; 47]%N t = None) as ->. { destruct t as [|x r]; [reflexivity|]. apply tag_ne. apply S. }
  rewrite multi_line_none by (destruct t; [exact Logic.I|apply S]). destruct (Nat.eqb_spec (length t) (length (c :: w ++ t))) as [E|_]; [cbn [length] in E; rewrite app_length in E; lia|]. now apply opt_w_step.
Qed.
Lemma comma_gap : forall w w2 t, gaps w -> gaps w2 -> solid L t -> comma L (w ++ 44%N :: w2 ++ t) = (true, t).
Proof.
  intros w w2 t H H2 S. unfold comma. rewrite opt_w_gap by (auto; apply (solid_print L HL); lia). change (tx ",") with [44%N]. cbn [tag N.eqb Pos.eqb]. now rewrite opt_w_gap.
Qed.
Lemma comma_none : forall w c r, gaps w -> (33 <= c <= 126)%N -> c <> 47%N -> c <> 44%N -> comma L (w ++ c :: r) = (false, c :: r).
Proof.
  intros w c r H A B C. unfold comma. assert (S : solid L (c :: r)) by (apply (solid_print L HL); auto). rewrite opt_w_gap by auto. change (tx ",") with [44%N]. rewrite tag_ne by auto. now rewrite opt_w_solid.
Qed.
(** What follows a value in a formatted text. *)
Definition fends (t : text) : Prop := match t with [] => True | c :: _ => In c (10%N :: tx ",)]}") end.
Definition freads (v : data) (t : text) : Prop :=
  starts t /\ forall m rest, length t < m -> fends rest -> expr L m (t ++ rest) = POk v rest.
Lemma reads_freads : forall t v, reads L t v -> (forall m r, length t < m -> expr L m (t ++ 10%N :: r) = POk v (10%N :: r)) -> freads v t.
Proof.
  intros t v [S R] N. split; [exact S|]. intros m [|c rest] Hm E; [now apply R|]. destruct E as [<-|E]; [now apply N|]. apply R; auto. cbn. cbn in E. tauto.
Qed.

Definition item : Type := text * text * text.
Definition item_ok (Q : text -> Prop) (i : item) : Prop := match i with (w, t, u) => gap w /\ Q t /\ gap u end.
(** Items, each with what is before and after it, with commas between; then the gap before the bracket. *)
Fixpoint seq_text (items : list item) (w0 r : text) : text :=
  match items with
  | [] => w0 ++ r
  | (w, t, u) :: items => w ++ t ++ u ++ match items with [] => w0 ++ r | _ => 44%N :: seq_text items w0 r end
  end.
Definition bodies (items : list item) : list text := map (fun i => snd (fst i)) items.
Lemma seq_cons : forall w t u items w0 r, seq_text ((w, t, u) :: items) w0 r = w ++ t ++ u ++ match items with [] => w0 ++ r | _ => 44%N :: seq_text items w0 r end.
Proof. reflexivity. Qed.
Lemma gap_fends : forall u x r, gap u -> In x (tx ",)]}") -> fends (u ++ x :: r).
Proof. intros u x r [->|(n & ->)] H; cbn [app fends]; [right; exact H|now left]. Qed.
Lemma gap2_fends : forall u w x r, gap u -> gap w -> In x (tx ",)]}") -> fends (u ++ w ++ x :: r).
Proof. intros u w x r [->|(n & ->)] G H; cbn [app]; [now apply gap_fends|now left]. Qed.
(** The rest after an item. *)
Lemma seq_split : forall Q w t u items w0 (c : char) rest, gap u -> gap w0 -> In c (tx ")]}") -> (forall i, In i items -> item_ok Q i) -> (forall t, Q t -> forall r, solid L (t ++ r)) ->
  exists X, seq_text ((w, t, u) :: items) w0 (c :: rest) = w ++ t ++ X /\ fends X /\
    exists Y v, comma L X = (match items with [] => false | _ => true end, Y) /\ seq_text items w0 (c :: rest) = v ++ Y /\ gaps v /\ solid L Y.
Proof.
  intros Q w t u items w0 c rest Gu Gw Hc Hi HQ. assert (Cc : (33 <= c <= 126)%N /\ c <> 47%N /\ c <> 44%N) by (cbn in Hc; repeat (destruct Hc as [<-|Hc]; [lia|]); destruct Hc).
  assert (Hc' : In c (tx ",)]}")) by (right; exact Hc). rewrite seq_cons. destruct items as [|[[w2 t2] u2] items].
  - exists (u ++ w0 ++ c :: rest). split; [reflexivity|]. split; [now apply gap2_fends|]. exists (c :: rest), w0. split; [|split; [reflexivity|split; [now apply gap_gaps|apply (solid_print L HL); tauto]]].
    rewrite app_assoc. apply comma_none; try tauto. apply gaps_app; now apply gap_gaps.
  - destruct (Hi _ (or_introl eq_refl)) as (G2 & Q2 & _). set (Z := u2 ++ match items with [] => w0 ++ c :: rest | _ => 44%N :: seq_text items w0 (c :: rest) end).
    assert (ET : seq_text ((w2, t2, u2) :: items) w0 (c :: rest) = w2 ++ t2 ++ Z) by reflexivity.
    exists (u ++ 44%N :: seq_text ((w2, t2, u2) :: items) w0 (c :: rest)). split; [reflexivity|]. split; [apply gap_fends; [exact Gu|now left]|]. exists (t2 ++ Z), w2. rewrite ET. split; [|split; [reflexivity|split; [now apply gap_gaps|now apply HQ]]].
    apply comma_gap; [now apply gap_gaps|now apply gap_gaps|now apply HQ].
Qed.
Lemma freads_solid : forall v t, freads v t -> forall r, solid L (t ++ r).
Proof. intros v t [S _] r. now apply (starts_solid L HL). Qed.
(** ** Arrays *)
Lemma array_gaps : forall m items vs, Forall2 (fun v i => item_ok (freads v) i) vs items -> Forall (fun t => length t < m) (bodies items) ->
  forall n res wc w0 v0 rest T, length items < n -> gap w0 -> (res = [] \/ wc = true \/ items = []) -> gaps v0 -> seq_text items w0 (93%N :: rest) = v0 ++ T ->
  solid L T ->
  array_ L (expr L m) n res wc T = POk (DArray (res ++ vs)) rest.
Proof.
  intros m items vs H. induction H as [|v [[w t] u] vs items (Gw & R & Gu) F IH]; intros Hl n res wc w0 v0 rest T Hn G0 Hw Gv E S.
  - destruct n as [|n]; [simpl in Hn; lia|]. cbn [seq_text] in E. cbn [array_]. rewrite opt_w_solid by exact S.
    assert (T = 93%N :: rest) as ->. { rewrite <- (skip_gap v0 T Gv S), <- E. apply skip_gap; [now apply gap_gaps|apply (solid_print L HL); lia]. }
    cbn. now rewrite app_nil_r.
  - inversion Hl as [|? ? Ht Hl']; subst. cbn [bodies map snd fst] in *. destruct n as [|n]; [simpl in Hn; lia|]. cbn [length] in Hn.
    assert (negb (match res with [] => true | _ => false end) && negb wc = false) as G.
    { destruct Hw as [->|[->|?]]; [reflexivity| |discriminate]. destruct res; reflexivity. }
    destruct (seq_split (fun t => exists v, freads v t) w t u items w0 93%N rest Gu G0) as (X & EX & FX & Y & v1 & CX & EY & GY & SY); [simpl; auto| | |].
    { clear - F. induction F as [|v i vs is Hi F IH]; intros j Hj; [destruct Hj|]. destruct Hj as [<-|Hj]; [|auto]. destruct i as [[a b] c]. destruct Hi as (A & B & C). split; [exact A|split; [now exists v|exact C]]. }
    { intros t0 (v2 & R2) r. exact (freads_solid v2 t0 R2 r). }
    apply (eq_trans (eq_sym EX)) in E. assert (T = t ++ X) as ->. { rewrite <- (skip_gap v0 T Gv S), <- E. apply skip_gap; [now apply gap_gaps|now apply freads_solid with v]. }
    cbn [array_]. rewrite opt_w_solid by exact S. destruct R as [St R]. change (tx "]") with [93%N]. rewrite (starts_tag [] 93%N) by (auto; simpl; auto). rewrite G, R by auto. rewrite CX.
    rewrite (IH Hl' n (res ++ [v]) _ w0 v1 rest Y); auto; [now rewrite <- app_assoc|lia|destruct items; auto].
Qed.

(** ** Objects *)
Definition fentry (kv : text * data) (e : text) : Prop :=
  exists u w t, e = key_text L (fst kv) ++ u ++ (58%N :: 32%N :: w ++ t) /\ gap w /\ freads (snd kv) t /\ fst kv <> [] /\
    (u = [] \/ gap u /\ key_text L (fst kv) = quote L (fst kv)).
Lemma key_gap : forall k u r, k <> [] -> (u = [] \/ gap u /\ key_text L k = quote L k) ->
  solid L (key_text L k ++ u ++ 58%N :: r) /\ tag (tx "}") (key_text L k ++ u ++ 58%N :: r) = None /\
  match str L (key_text L k ++ u ++ 58%N :: r) with
  | Some (Some (s, r)) => POk s r
  | Some None => PErr
  | None => match until_sep L (key_text L k ++ u ++ 58%N :: r) with ([], _) => PErr | (k, r) => POk k r end
  end = POk k (u ++ 58%N :: r).
Proof.
  intros k u r Hk [->|(Gu & ->)]; [now apply (key_reads L HL)|]. rewrite (l_str L HL). destruct (l_quote L HL k) as [q ->]. splits_; auto. apply (solid_print L HL); lia.
Qed.
Lemma fentry_solid : forall kv e, fentry kv e -> forall r, solid L (e ++ r).
Proof. intros [k v] e (u & w & t & -> & _ & _ & Hk & Hu) r. cbn [fst] in *. rewrite <- !app_assoc. cbn [app]. apply (key_gap k u (32%N :: (w ++ t) ++ r) Hk Hu). Qed.
Lemma object_gaps : forall m items kvs, Forall2 (fun kv i => item_ok (fentry kv) i) kvs items -> Forall (fun t => length t < m) (bodies items) ->
  forall n res wc w0 v0 rest T, length items < n -> gap w0 -> (res = [] \/ wc = true \/ items = []) -> gaps v0 -> seq_text items w0 (125%N :: rest) = v0 ++ T ->
  solid L T -> NoDup (map fst (res ++ kvs)) ->
  object_ L (expr L m) n res wc T = POk (DObject (res ++ kvs)) rest.
Proof.
  intros m items kvs H. induction H as [|[k v] [[w t] u] kvs items (Gw & R & Gu) F IH]; intros Hl n res wc w0 v0 rest T Hn G0 Hw Gv E S ND.
  - destruct n as [|n]; [simpl in Hn; lia|]. cbn [seq_text] in E. cbn [object_]. rewrite opt_w_solid by exact S.
    assert (T = 125%N :: rest) as ->. { rewrite <- (skip_gap v0 T Gv S), <- E. apply skip_gap; [now apply gap_gaps|apply (solid_print L HL); lia]. }
    cbn. now rewrite app_nil_r.
  - inversion Hl as [|? ? Ht Hl']; subst. cbn [bodies map snd fst] in *. destruct n as [|n]; [simpl in Hn; lia|]. cbn [length] in Hn.
    assert (negb (match res with [] => true | _ => false end) && negb wc = false) as G.
    { destruct Hw as [->|[->|?]]; [reflexivity| |discriminate]. destruct res; reflexivity. }
    destruct (seq_split (fun t => exists kv, fentry kv t) w t u items w0 125%N rest Gu G0) as (X & EX & FX & Y & v1 & CX & EY & GY & SY); [simpl; auto| | |].
    { clear - F. induction F as [|v i vs is Hi F IH]; intros j Hj; [destruct Hj|]. destruct Hj as [<-|Hj]; [|auto]. destruct i as [[a b] c]. destruct Hi as (A & B & C). split; [exact A|split; [now exists v|exact C]]. }
    { intros t0 (v2 & R2) r. exact (fentry_solid v2 t0 R2 r). }
    apply (eq_trans (eq_sym EX)) in E. assert (T = t ++ X) as ->. { rewrite <- (skip_gap v0 T Gv S), <- E. apply skip_gap; [now apply gap_gaps|now apply fentry_solid with (k, v)]. }
    destruct R as (u1 & w1 & t1 & -> & Gw1 & R & Hk & Hu). cbn [fst snd] in *. rewrite <- !app_assoc in *. cbn [app] in *. rewrite <- !app_assoc in *. destruct (key_gap k u1 (32%N :: w1 ++ t1 ++ X) Hk Hu) as (K1 & K2 & K3).
    cbn [object_]. rewrite opt_w_solid by exact S. rewrite K2, G, K3. rewrite opt_w_gap; [|destruct Hu as [->|(Hu & _)]; [constructor|now apply gap_gaps]|apply (solid_print L HL); lia].
    change (tx ":") with [58%N]. cbn [tag]. rewrite N.eqb_refl. destruct R as [St R]. change (32%N :: w1 ++ t1 ++ X) with ((32%N :: w1) ++ t1 ++ X). rewrite (opt_w_gap (32%N :: w1)); [|constructor; [reflexivity|now apply gap_gaps]|apply (starts_solid L HL); auto].
    rewrite R by (auto; rewrite !app_length in Ht; cbn [length] in Ht; rewrite !app_length in Ht; lia).
    assert (insert k v res = res ++ [(k, v)]) as ->.
    { apply insert_new. rewrite map_app in ND. cbn in ND. apply NoDup_remove_2 in ND. intros Q. apply ND. apply in_or_app. auto. }
    rewrite CX. rewrite (IH Hl' n (res ++ [(k, v)]) _ w0 v1 rest Y); auto; [now rewrite <- app_assoc|lia|destruct items; auto|now rewrite <- app_assoc].
Qed.

(** ** The layout of written values *)
Fixpoint after (d : Z) (nl : bool) (ps : list piece) : Z * bool :=
  match ps with
  | [] => (d, nl)
  | Solid c :: ps => let d := if closes c then (d - 1)%Z else d in after (if opens c then d + 1 else d)%Z (opens c || (c =? 44)%N) ps
  | (Blank _ | Quoted _) :: ps => after d nl ps
  | (Remark _ | Block _) :: ps => after d true ps
  end.
Lemma layout_app : forall tab ps qs d nl, layout tab d nl (ps ++ qs) = layout tab d nl ps ++ layout tab (fst (after d nl ps)) (snd (after d nl ps)) qs.
Proof. induction ps as [|p ps IH]; intros qs d nl; [reflexivity|]. destruct p; cbn [app layout after]; rewrite IH; now rewrite <- ?app_assoc, <- ?app_comm_cons, <- ?app_assoc. Qed.
Lemma after_app : forall ps qs d nl, after d nl (ps ++ qs) = after (fst (after d nl ps)) (snd (after d nl ps)) qs.
Proof. induction ps as [|p ps IH]; intros qs d nl; [reflexivity|]. destruct p; cbn [app after]; now rewrite IH. Qed.
Definition plain (p : piece) : Prop := piece_ok p /\ ~ is_comment p.
Lemma regular_plain : forall ps, Forall plain ps -> regular ps.
Proof. intros ps H. induction H as [|p ps (Hp & Hc) F IH]; [exact Logic.I|]. cbn [regular]. split; [exact Hp|]. split; [destruct ps; [exact Logic.I|]; destruct p; cbn in *; tauto|]. split; [intros C; contradiction|exact IH]. Qed.

Section Tab.
Context (tab : Z).
Lemma nls_gap : forall nl d, gap (text_of (nls nl tab d)).
Proof. intros [|] d; [right|now left]. unfold nls, new_line. exists (Z.to_nat (d * tab)). rewrite text_of_cons, text_spaces. reflexivity. Qed.
Lemma text_solids : forall t, text_of (map Solid t) = t.
Proof. induction t as [|c t IH]; [reflexivity|]. cbn [map]. rewrite text_of_cons. cbn [text1 app]. now rewrite IH. Qed.
Definition lays (Q : text -> Prop) (ps : list piece) : Prop :=
  Forall plain ps /\ forall d nl, exists w t nl', text_of (layout tab d nl ps) = w ++ t /\ gap w /\ Q t /\ after d nl ps = (d, nl').
Lemma quiet_spec : forall c, quiet_char c -> plain (Solid c) /\ closes c = false /\ opens c = false /\ (c =? 44)%N = false /\ (c =? 58)%N = false.
Proof.
  intros c (B & H). assert (D : forall x, In x [34; 40; 41; 44; 47; 58; 91; 93; 123; 125]%N -> (c =? x)%N = false) by (intros x I; apply N.eqb_neq; intros ->; contradiction).
  split; [split; [split; [exact B|split; apply N.eqb_neq; apply D; simpl; auto 10]|intros []]|]. unfold closes, opens. rewrite !D by (simpl; auto 12). auto.
Qed.
Lemma quiet_word : forall t, Forall quiet_char t -> forall d, layout tab d false (map Solid t) = map Solid t /\ after d false (map Solid t) = (d, false).
Proof.
  intros t H. induction H as [|c t Hc F IH]; intros d; [auto|]. destruct (quiet_spec c Hc) as (_ & C & O & K & L0). cbn [map layout after]. rewrite C, O, K, L0. cbn [orb app].
  destruct (IH d) as [-> ->]. auto.
Qed.
Lemma word_lays : forall (Q : text -> Prop) t, t <> [] -> Forall quiet_char t -> Q t -> lays Q (map Solid t).
Proof.
  intros Q t Ht H HQ. split; [clear - H; induction H as [|c t Hc F IH]; constructor; [apply (quiet_spec c Hc)|exact IH]|]. intros d nl. destruct t as [|c t]; [congruence|]. inversion H as [|? ? Hc F]; subst.
  destruct (quiet_spec c Hc) as (_ & C & O & K & L0). exists (text_of (nls nl tab d)), (c :: t), false. cbn [map layout after]. rewrite C, O, K, L0, orb_false_r. cbn [orb]. destruct (quiet_word t F d) as [-> ->].
  split; [|split; [apply nls_gap|auto]]. fold (nls nl tab d). rewrite text_of_app, text_of_cons. cbn [app text1]. now rewrite text_solids.
Qed.
Lemma string_lays : forall (Q : text -> Prop) b, clean b -> Q (34%N :: b ++ [34%N]) -> lays Q [Quoted b].
Proof.
  intros Q b Hb HQ. split; [constructor; [split; [exact Hb|intros []]|constructor]|]. intros d nl. exists [], (34%N :: b ++ [34%N]), nl. cbn [layout after]. split; [cbn; now rewrite app_nil_r|]. split; [now left|auto].
Qed.
(** Pieces with `, ` between. *)
Fixpoint joinp (l : list (list piece)) : list piece :=
  match l with [] => [] | [x] => x | x :: l => x ++ Solid 44%N :: Blank 32%N :: joinp l end.
Lemma joinp_cons : forall x y l, joinp (x :: y :: l) = x ++ Solid 44%N :: Blank 32%N :: joinp (y :: l). Proof. reflexivity. Qed.
Lemma text_joinp : forall l, text_of (joinp l) = joined (tx ", ") (map text_of l).
Proof. induction l as [|x l IH]; [reflexivity|]. destruct l as [|y l]; [reflexivity|]. rewrite joinp_cons, text_of_app, !text_of_cons, IH. reflexivity. Qed.
Lemma plain_joinp : forall l, Forall (Forall plain) l -> Forall plain (joinp l).
Proof.
  intros l H. induction H as [|x l Hx F IH]; [constructor|]. destruct l as [|y l]; [exact Hx|]. rewrite joinp_cons. apply Forall_app. split; [exact Hx|].
  constructor; [split; [split; [reflexivity|split; discriminate]|intros []]|]. constructor; [split; [reflexivity|intros []]|exact IH].
Qed.
Definition bracket (c : char) : Prop := In c (tx ")]}").
Lemma bracket_spec : forall c, bracket c -> closes c = true /\ opens c = false /\ (c =? 44)%N = false /\ (c =? 58)%N = false /\ plain (Solid c).
Proof. intros c H. cbn in H. repeat (destruct H as [<-|H]; [do 4 (split; [reflexivity|]); split; [split; [reflexivity|split; discriminate]|intros []]|]). destruct H. Qed.
Lemma seq_lays : forall A (Q : A -> text -> Prop) xs pss c, bracket c -> Forall2 (fun x ps => lays (Q x) ps) xs pss -> forall d nl, exists items w0,
  text_of (layout tab (d + 1) nl (joinp pss ++ [Solid c])) = seq_text items w0 [c] /\ gap w0 /\ Forall2 (fun x i => item_ok (Q x) i) xs items /\
  after (d + 1) nl (joinp pss ++ [Solid c]) = (d, false).
Proof.
  intros A Q xs pss c Hc H. destruct (bracket_spec c Hc) as (C1 & C2 & C3 & C4 & _). induction H as [|x ps xs pss (Hp & Hl) F IH]; intros d nl.
  - exists [], (text_of (nls true tab d)). cbn [joinp app layout after seq_text]. rewrite C1, C2, C3, C4, orb_true_r. cbn [orb]. replace (d + 1 - 1)%Z with d by lia. fold (nls true tab d).
    split; [rewrite text_of_app; reflexivity|]. split; [apply nls_gap|]. split; [constructor|reflexivity].
  - destruct (Hl (d + 1)%Z nl) as (w & t & nl' & E & G & HQ & Af). destruct pss as [|ps2 pss].
    + inversion F; subst. exists [(w, t, [])], (text_of (nls true tab d)). cbn [joinp seq_text app]. rewrite layout_app, after_app, Af. cbn [fst snd layout after]. rewrite C1, C2, C3, C4, orb_true_r. cbn [orb].
      replace (d + 1 - 1)%Z with d by lia. fold (nls true tab d). rewrite !text_of_app, E. split; [rewrite <- app_assoc; reflexivity|]. split; [apply nls_gap|]. split; [|reflexivity]. constructor; [|constructor]. split; [exact G|]. split; [exact HQ|now left].
    + destruct (IH d true) as (items & w0 & E2 & G2 & F2 & A2). rewrite joinp_cons, <- app_assoc, layout_app, after_app, Af. cbn [fst snd app layout after].
      change (closes 44) with false. change (opens 44) with false. change (44 =? 44)%N with true. change (44 =? 58)%N with false. cbn [orb app]. rewrite orb_false_r.
      exists ((w, t, text_of (nls nl' tab (d + 1))) :: items), w0. rewrite text_of_app, E. fold (nls nl' tab (d + 1)). rewrite text_of_app, text_of_cons, E2. cbn [text1 app].
      split; [|split; [exact G2|split; [constructor; [split; [exact G|split; [exact HQ|apply nls_gap]]|exact F2]|exact A2]]]. rewrite seq_cons. destruct items as [|i items]; [inversion F2; subst; inversion F|]. now rewrite <- !app_assoc.
Qed.
End Tab.

Lemma seq_app : forall items w0 r rest, seq_text items w0 r ++ rest = seq_text items w0 (r ++ rest).
Proof.
  induction items as [|[[w t] u] items IH]; intros w0 r rest; [cbn [seq_text]; now rewrite <- app_assoc|]. rewrite !seq_cons. destruct items as [|i items]; rewrite <- !app_assoc; [reflexivity|]. rewrite <- app_comm_cons. now rewrite IH.
Qed.
Lemma seq_head : forall Q items w0 c rest, gap w0 -> In c (tx ")]}") -> (forall i, In i items -> item_ok Q i) -> (forall t, Q t -> forall r, solid L (t ++ r)) ->
  exists v Y, seq_text items w0 (c :: rest) = v ++ Y /\ gaps v /\ solid L Y.
Proof.
  intros Q [|[[w t] u] items] w0 c rest Gw Hc Hi HQ.
  - exists w0, (c :: rest). split; [reflexivity|]. split; [now apply gap_gaps|]. apply (solid_print L HL); cbn in Hc; repeat (destruct Hc as [<-|Hc]; [lia|]); destruct Hc.
  - destruct (Hi _ (or_introl eq_refl)) as (G2 & Q2 & _). rewrite seq_cons. eexists w, _. split; [reflexivity|]. split; [now apply gap_gaps|]. now apply HQ.
Qed.
Lemma array_skip : forall ex n res wc v0 T, gaps v0 -> solid L T -> array_ L ex n res wc (v0 ++ T) = array_ L ex n res wc T.
Proof. intros ex [|n] res wc v0 T G S; [reflexivity|]. cbn [array_]. now rewrite opt_w_gap, opt_w_solid. Qed.
Lemma object_skip : forall ex n res wc v0 T, gaps v0 -> solid L T -> object_ L ex n res wc (v0 ++ T) = object_ L ex n res wc T.
Proof. intros ex [|n] res wc v0 T G S; [reflexivity|]. cbn [object_]. now rewrite opt_w_gap, opt_w_solid. Qed.
Lemma item_all : forall A (R : A -> text -> Prop) xs items, Forall2 (fun x i => item_ok (R x) i) xs items -> forall i, In i items -> item_ok (fun t => exists x, R x t) i.
Proof.
  intros A R xs items F. induction F as [|v i vs is Hi F IH]; intros j Hj; [destruct Hj|]. destruct Hj as [<-|Hj]; [|auto]. destruct i as [[a b] c]. destruct Hi as (A0 & B & C). split; [exact A0|split; [now exists v|exact C]].
Qed.
Lemma seq_size : forall items w0 r t, In t (bodies items) -> length t <= length (seq_text items w0 r).
Proof.
  induction items as [|[[w t] u] items IH]; intros w0 r x H; [destruct H|]. rewrite seq_cons, !app_length. destruct H as [<-|H]; [cbn; lia|]. specialize (IH w0 r x H). destruct items; [destruct H|]. cbn [length]. lia.
Qed.
Lemma seq_count : forall items w0 r, Forall (fun t => 1 <= length t) (bodies items) -> length items <= length (seq_text items w0 r).
Proof.
  induction items as [|[[w t] u] items IH]; intros w0 r H; [cbn; lia|]. inversion H; subst. cbn [snd fst] in *. rewrite seq_cons, !app_length. specialize (IH w0 r H3). destruct items; [cbn; lia|]. cbn [length] in *. lia.
Qed.
Lemma bodies_all : forall A (R : A -> text -> Prop) (P : text -> Prop) xs items, (forall x t, R x t -> P t) -> Forall2 (fun x i => item_ok (R x) i) xs items -> Forall P (bodies items).
Proof. intros A R P xs items H F. induction F as [|x [[w t] u] xs items (_ & Hx & _) F IH]; constructor; [exact (H x t Hx)|exact IH]. Qed.
Lemma fentry_starts : forall kv e, fentry kv e -> 1 <= length e.
Proof. intros kv e (u & w & t & -> & _). rewrite !app_length. cbn [length]. lia. Qed.

Lemma array_freads : forall vs items w0, gap w0 -> Forall2 (fun v i => item_ok (freads v) i) vs items -> freads (DArray vs) (91%N :: seq_text items w0 [93%N]).
Proof.
  intros vs items w0 G F. split; [simpl; auto 10|]. intros [|m] rest Hm _; [simpl in Hm; lia|]. cbn [length] in Hm. change ((91%N :: seq_text items w0 [93%N]) ++ rest) with (tx "[" ++ (seq_text items w0 [93%N] ++ rest)).
  rewrite array_expr, seq_app. cbn [app].
  destruct (seq_head (fun t => exists v, freads v t) items w0 93%N rest G) as (v & Y & E & Gv & S); [simpl; auto|exact (item_all _ _ _ _ F)|intros t (v & R) r; exact (freads_solid v t R r)|].
  rewrite E, array_skip by assumption. eapply eq_trans; [apply (array_gaps m items vs F) with (w0 := w0) (v0 := v) (rest := rest); auto|reflexivity].
  - apply Forall_forall. intros t Ht. pose proof (seq_size items w0 [93%N] t Ht). lia.
  - assert (length items <= length (seq_text items w0 [93%N])); [|lia]. apply seq_count. eapply bodies_all; [|exact F]. intros x t [St _]. now apply starts_length.
Qed.
Lemma object_freads : forall kvs items w0, gap w0 -> NoDup (map fst kvs) -> Forall2 (fun kv i => item_ok (fentry kv) i) kvs items -> freads (DObject kvs) (123%N :: seq_text items w0 [125%N]).
Proof.
  intros kvs items w0 G ND F. split; [simpl; auto 10|]. intros [|m] rest Hm _; [simpl in Hm; lia|]. cbn [length] in Hm. change ((123%N :: seq_text items w0 [125%N]) ++ rest) with (tx "{" ++ (seq_text items w0 [125%N] ++ rest)).
  rewrite object_expr, seq_app. cbn [app].
  destruct (seq_head (fun t => exists v, fentry v t) items w0 125%N rest G) as (v & Y & E & Gv & S); [simpl; auto|exact (item_all _ _ _ _ F)|intros t (v & R) r; exact (fentry_solid v t R r)|].
  rewrite E, object_skip by assumption. eapply eq_trans; [apply (object_gaps m items kvs F) with (w0 := w0) (v0 := v) (rest := rest); auto|reflexivity].
  - apply Forall_forall. intros t Ht. pose proof (seq_size items w0 [125%N] t Ht). lia.
  - assert (length items <= length (seq_text items w0 [125%N])); [|lia]. apply seq_count. eapply bodies_all; [|exact F]. intros x t. apply fentry_starts.
Qed.
Lemma some_freads : forall v w t u w0, gap w -> gap u -> gap w0 -> freads v t -> freads (DSome v) (tx "some(" ++ w ++ t ++ u ++ w0 ++ [41%N]).
Proof.
  intros v w t u w0 Gw Gu G0 [S R]. split; [simpl; auto 10|]. intros [|m] rest Hm _; [lia|]. rewrite !app_length in Hm. change (length (tx "some(")) with 5 in Hm. rewrite <- !app_assoc. cbn [tx app].
  rewrite (word_expr L HL) by (simpl; auto). change (tag (tx "false") ?x) with (@None text). change (tag (tx "true") ?x) with (@None text). change (tag (tx "none()") ?x) with (@None text).
  match goal with |- context [tag (tx "some(") (?a :: ?b :: ?c :: ?d :: ?e :: ?r)] => change (tag (tx "some(") (a :: b :: c :: d :: e :: r)) with (Some r) end.
  cbv beta iota. rewrite opt_w_gap by (try (apply starts_solid; auto); now apply gap_gaps). rewrite R; [|lia|apply gap2_fends; simpl; auto].
  rewrite app_assoc, opt_w_gap; [reflexivity|apply gaps_app; now apply gap_gaps|apply (solid_print L HL); lia].
Qed.

Lemma num_freads : forall x, finite x -> freads (DNum x) (show64 L x).
Proof.
  intros x H. apply reads_freads; [now apply reads_num|]. intros [|m] r Hm; [lia|]. pose proof (f_num L HF x r H) as N. destruct (l_show L HL x H) as (c & s & E & I0). rewrite E in *. cbn [app] in *.
  simpl in I0. cbn [expr]. repeat (destruct I0 as [<-|I0]; [cbn [tag tx N.eqb Pos.eqb Ascii.N_of_ascii]; rewrite (l_str_none L HL) by discriminate; rewrite N; reflexivity|]). destruct I0.
Qed.
Lemma str_freads : forall s, freads (DStr s) (quote L s).
Proof.
  intros s. apply reads_freads; [now apply reads_str|]. intros [|m] rest Hm; [lia|]. pose proof (l_str L HL s (10%N :: rest)) as N. destruct (l_quote L HL s) as (r & E). rewrite E in *. cbn [app] in *. cbn [expr].
  change (tag (tx "{") (34%N :: ?r)) with (@None text). change (tag (tx "[") (34%N :: ?r)) with (@None text).
  change (tag (tx "(") (34%N :: ?r)) with (@None text). change (tag (tx "#") (34%N :: ?r)) with (@None text).
  change (tag (tx "link") (34%N :: ?r)) with (@None text). rewrite N. reflexivity.
Qed.
Lemma bool_freads : forall b : bool, freads (DBool b) (if b then tx "true" else tx "false").
Proof.
  intros b. apply reads_freads; [now apply reads_bool|]. intros [|m] rest Hm; [lia|]. destruct b; cbn [tx Ascii.N_of_ascii app]; rewrite (word_expr L HL) by (simpl; auto); reflexivity.
Qed.
Lemma key_quiet : forall k, forallb (fun c => alnum L c || N.eqb c 95) k = true -> Forall quiet_char k.
Proof.
  intros k H. apply Forall_forall. intros c Hc. apply (proj1 (forallb_forall _ _) H) in Hc. destruct (plain_char L HL c Hc) as (W & E & A & B & C).
  split; [destruct (is_blank c) eqn:Bl; auto; apply blank_white in Bl; congruence|]. intros I0. assert (existsb (N.eqb c) seps = true \/ c = 47%N) as [Q|Q]; [|congruence|congruence].
  cbn in I0. repeat (destruct I0 as [<-|I0]; [try (left; reflexivity); right; reflexivity|]). destruct I0.
Qed.

Section Tab2.
Context (tab : Z).
Lemma entry_lays : forall k v ps, k <> [] -> simple L k -> lays tab (freads v) ps ->
  exists qs, text_of qs = write_key L k ++ text_of ps /\ lays tab (fentry (k, v)) qs.
Proof.
  intros k v ps Hk (b & Eb & Hb) (Hp & Hl). unfold write_key.
  assert (P58 : plain (Solid 58%N)) by (split; [split; [reflexivity|split; discriminate]|intros []]). assert (P32 : plain (Blank 32%N)) by (split; [reflexivity|intros []]).
  destruct (forallb (fun c => alnum L c || N.eqb c 95) k) eqn:Q.
  - assert (KT : key_text L k = k) by (unfold key_text; now rewrite Q). destruct (word_lays tab (fun t => t = k) k Hk (key_quiet k Q) eq_refl) as (Wp & Wl).
    exists (map Solid k ++ Solid 58%N :: Blank 32%N :: ps). split; [rewrite text_of_app, text_solids, !text_of_cons, <- app_assoc; reflexivity|]. split; [apply Forall_app; split; [exact Wp|constructor; [exact P58|constructor; [exact P32|exact Hp]]]|].
    intros d nl. destruct (Wl d nl) as (w & t & nl' & E & G & -> & Af). assert (nl' = false) as ->.
    { destruct k as [|c k]; [congruence|]. pose proof (key_quiet _ Q) as QK. inversion QK as [|? ? Hc F0]; subst. destruct (quiet_spec c Hc) as (_ & C & O & K & _). cbn [map after] in Af. rewrite C, O, K in Af. cbn [orb] in Af. destruct (quiet_word tab k F0 d) as [_ A2]. rewrite A2 in Af. congruence. }
    rewrite layout_app, after_app, Af. cbn [fst snd layout after]. change (closes 58) with false. change (opens 58) with false. change (58 =? 58)%N with true. change (58 =? 44)%N with false. cbn [orb app].
    destruct (Hl d false) as (w2 & t2 & nl2 & E2 & G2 & R2 & A2). exists w, (k ++ 58%N :: 32%N :: w2 ++ t2), nl2. split; [rewrite text_of_app, E, !text_of_cons, E2, <- app_assoc; reflexivity|]. split; [exact G|]. split; [|exact A2].
    exists [], w2, t2. cbn [fst snd]. rewrite KT. split; [reflexivity|]. auto 6.
  - assert (KT : key_text L k = quote L k) by (unfold key_text; now rewrite Q).
    exists (Quoted b :: Solid 58%N :: Blank 32%N :: ps). split; [rewrite Eb, !text_of_cons; cbn [text1]; rewrite <- !app_assoc; reflexivity|]. split; [constructor; [split; [exact Hb|intros []]|constructor; [exact P58|constructor; [exact P32|exact Hp]]]|].
    intros d nl. cbn [layout after]. change (closes 58) with false. change (opens 58) with false. change (58 =? 58)%N with true. change (58 =? 44)%N with false. cbn [orb app]. rewrite orb_false_r. fold (nls nl tab d).
    destruct (Hl d false) as (w2 & t2 & nl2 & E2 & G2 & R2 & A2). exists [], (quote L k ++ text_of (nls nl tab d) ++ 58%N :: 32%N :: w2 ++ t2), nl2. split; [rewrite Eb, !text_of_cons, text_of_app, !text_of_cons, E2; cbn [text1 app]; reflexivity|]. split; [now left|]. split; [|exact A2].
    exists (text_of (nls nl tab d)), w2, t2. cbn [fst snd]. rewrite KT. split; [reflexivity|]. split; [exact G2|]. split; [exact R2|]. split; [exact Hk|]. right. split; [apply nls_gap|reflexivity].
Qed.
Lemma bracket_plain : forall c, In c (tx "([{)]}") -> plain (Solid c).
Proof. intros c H. cbn in H. repeat (destruct H as [<-|H]; [split; [split; [reflexivity|split; discriminate]|intros []]|]). destruct H. Qed.
Lemma tame_lays : forall v, tame L v -> forall n t, write L n [] true v = Some t -> exists ps, text_of ps = t /\ lays tab (freads v) ps.
Proof.
  apply (tame_all L (fun v => forall n t, write L n [] true v = Some t -> exists ps, text_of ps = t /\ lays tab (freads v) ps)).
  - intros s (b & Eb & Hb) [|n] t W; [discriminate|]. injection W as <-. exists [Quoted b]. split; [rewrite Eb; cbn; now rewrite app_nil_r|]. apply string_lays; [exact Hb|]. rewrite <- Eb. apply str_freads.
  - intros x Hx [|n] t W; [discriminate|]. injection W as <-. exists (map Solid (show64 L x)). split; [apply text_solids|]. apply word_lays; [|now apply (f_show L HF)|now apply num_freads].
    destruct (l_show L HL x Hx) as (c & r & -> & _). discriminate.
  - intros b [|n] t W; [discriminate|]. injection W as <-. exists (map Solid (if b then tx "true" else tx "false")). split; [apply text_solids|]. apply word_lays; [destruct b; discriminate| |apply bool_freads].
    destruct b; cbn [tx Ascii.N_of_ascii]; repeat (constructor; [split; [reflexivity|intros Q; repeat (destruct Q as [Q|Q]; [discriminate|]); destruct Q]|]); constructor.
  - intros v Hv IH [|n] t W; [discriminate|]. cbn [write write1] in W. apply opt_map_some in W. destruct W as (t1 & W & ->). destruct (IH n t1 W) as (ps & <- & HLy).
    exists (map Solid (tx "some(") ++ joinp [ps] ++ [Solid 41%N]). split; [rewrite !text_of_app, text_solids; reflexivity|]. split.
    { apply Forall_app. split; [cbn [tx map]; repeat (constructor; [split; [split; [reflexivity|split; discriminate]|intros []]|]); constructor|]. apply Forall_app. split; [apply HLy|]. constructor; [apply bracket_plain; simpl; auto|constructor]. }
    intros d nl. destruct (seq_lays tab data freads [v] [ps] 41%N) with (d := d) (nl := true) as (items & w0 & E & G & F & Af); [left; reflexivity|constructor; [exact HLy|constructor]|].
    destruct items as [|[[w t] u] [|]]; [inversion F| |inversion F as [|? ? ? ? H1 F2]; inversion F2]. inversion F as [|? ? ? ? H1 F2]; subst. destruct H1 as (Gw & R & Gu).
    exists (text_of (nls nl tab d)), (tx "some(" ++ w ++ t ++ u ++ w0 ++ [41%N]), false. split; [|split; [apply nls_gap|split; [now apply some_freads|exact Af]]].
    rewrite layout_app.
    change (after d nl (map Solid (tx "some("))) with ((d + 1)%Z, true). cbn [fst snd]. rewrite text_of_app, E. cbn [seq_text].
    replace (text_of (layout tab d nl (map Solid (tx "some(")))) with (text_of (nls nl tab d) ++ tx "some("); [now rewrite <- app_assoc|]. symmetry. destruct nl; [change (layout tab d true (map Solid (tx "some("))) with (nls true tab d ++ map Solid (tx "some(")); rewrite text_of_app|]; reflexivity.
  - intros l _ IH [|n] t W; [discriminate|]. cbn [write write1] in W. apply opt_map_some in W. destruct W as (ts & W & ->).
    assert (exists pss, map text_of pss = ts /\ Forall2 (fun v ps => lays tab (freads v) ps) l pss) as (pss & <- & F).
    { clear - IH W. revert ts W. induction IH as [|v l Hv F IH2]; intros ts W; [injection W as <-; exists []; auto|]. cbn [map all_some] in W. destruct (write L n [] true v) as [t|] eqn:Wv; [|discriminate].
      match type of W with match ?g with _ => _ end = _ => change g with (all_some (map (write L n [] true) l)) in W end.
      destruct (all_some (map (write L n [] true) l)) as [ts2|] eqn:Wl; [|discriminate]. injection W as <-. destruct (Hv n t Wv) as (ps & <- & H1). destruct (IH2 ts2 eq_refl) as (pss & <- & H2). exists (ps :: pss). auto. }
    exists (Solid 91%N :: joinp pss ++ [Solid 93%N]). split; [rewrite text_of_cons, text_of_app, text_joinp; reflexivity|]. split.
    { constructor; [apply bracket_plain; simpl; auto|]. apply Forall_app. split; [apply plain_joinp; clear - F; induction F as [|? ? ? ? [H _]]; constructor; auto|constructor; [apply bracket_plain; simpl; auto 10|constructor]]. }
    intros d nl. destruct (seq_lays tab data freads l pss 93%N) with (d := d) (nl := true) as (items & w0 & E & G & F2 & Af); [right; left; reflexivity|exact F|].
    exists (text_of (nls nl tab d)), (91%N :: seq_text items w0 [93%N]), false. cbn [layout after]. change (closes 91) with false. change (opens 91) with true. change (91 =? 58)%N with false. cbn [orb app]. rewrite orb_false_r. fold (nls nl tab d).
    split; [rewrite text_of_app, text_of_cons, E; reflexivity|]. split; [apply nls_gap|]. split; [now apply array_freads|exact Af].
  - intros l ND HK IH [|n] t W; [discriminate|]. cbn [write write1] in W. apply opt_map_some in W. destruct W as (ts & W & ->).
    assert (exists pss, map text_of pss = ts /\ Forall2 (fun kv ps => lays tab (fentry kv) ps) l pss) as (pss & <- & F).
    { clear - HL HF IH HK W. revert ts W. induction IH as [|[k v] l Hv F IH2]; intros ts W; [injection W as <-; exists []; auto|]. inversion HK as [|? ? (K1 & K2) HK2]; subst. cbn [fst snd] in *. cbn [map all_some] in W. destruct (write L n [] true v) as [t|] eqn:Wv; [|discriminate]. cbn [opt_map] in W.
      match type of W with match ?g with _ => _ end = _ => change g with (all_some (map (fun kv : text * data => match kv with (k, v) => opt_map (app (write_key L k)) (write L n [] true v) end) l)) in W end.
      destruct (all_some (map (fun kv : text * data => match kv with (k, v) => opt_map (app (write_key L k)) (write L n [] true v) end) l)) as [ts2|] eqn:Wl; [|discriminate]. injection W as <-. destruct (Hv n t Wv) as (ps & <- & H1). destruct (IH2 HK2 ts2 eq_refl) as (pss & <- & H2).
      destruct (entry_lays k v ps K1 K2 H1) as (qs & <- & H3). exists (qs :: pss). auto. }
    exists (Solid 123%N :: joinp pss ++ [Solid 125%N]). split; [rewrite text_of_cons, text_of_app, text_joinp; reflexivity|]. split.
    { constructor; [apply bracket_plain; simpl; auto|]. apply Forall_app. split; [apply plain_joinp; clear - F; induction F as [|? ? ? ? [H _]]; constructor; auto|constructor; [apply bracket_plain; simpl; auto 10|constructor]]. }
    intros d nl. destruct (seq_lays tab (text * data) fentry l pss 125%N) with (d := d) (nl := true) as (items & w0 & E & G & F2 & Af); [right; right; left; reflexivity|exact F|].
    exists (text_of (nls nl tab d)), (123%N :: seq_text items w0 [125%N]), false. cbn [layout after]. change (closes 123) with false. change (opens 123) with true. change (123 =? 58)%N with false. cbn [orb app]. rewrite orb_false_r. fold (nls nl tab d).
    split; [rewrite text_of_app, text_of_cons, E; reflexivity|]. split; [apply nls_gap|]. split; [now apply object_freads|exact Af].
Qed.
End Tab2.
End Read.

(** What [fmt] gives for a written value is read as that value. *)
Theorem C68_read : forall L tab v n t, laws L -> format_laws L -> tame L v -> write L n [] true v = Some t -> fits tab (length t) ->
  exists r, fmt tab t = Some r /\ load_data L r = POk v [].
Proof.
  intros L tab v n t HL HF HT W Ft. destruct (tame_lays L HL HF tab v HT n t W) as (ps & <- & Hp & Hl). destruct (Hl 0%Z false) as (w & t & nl & E & G & [S R] & _).
  exists (text_of (layout tab 0 false ps)). split.
  - apply C68_layout; [now apply regular_plain|]. assert (H : length ps <= length (text_of ps)). { clear. induction ps as [|p ps IH]; [cbn; lia|]. rewrite text_of_cons, app_length. destruct p; cbn [text1 length]; lia. }
    destruct Ft as [A B]. split; [lia|]. eapply Z.le_lt_trans; [|exact B]. apply Z.mul_le_mono_nonneg_l; lia.
  - rewrite E. unfold load_data. rewrite <- (app_nil_r t), (opt_w_gap L HL HF w (t ++ []) (gap_gaps w G)) by now apply starts_solid. rewrite R; [reflexivity|rewrite !app_length; lia|exact Logic.I].
Qed.
Print Assumptions C68_read.

(** ** The laws and the hypotheses can be met. *)
Lemma bits_quiet : forall p, Forall (fun c => In c (tx "01234567-")) (bits p).
Proof. induction p; cbn [bits]; constructor; auto; simpl; auto 12. Qed.
Lemma code_quiet : forall t, Forall (fun c => In c (tx "01234567-")) t -> Forall quiet_char t.
Proof. intros t H. eapply Forall_impl; [|exact H]. intros c Hc. cbn in Hc. repeat (destruct Hc as [<-|Hc]; [split; [reflexivity|intros Q; cbn in Q; intuition discriminate]|]). destruct Hc. Qed.
Theorem C68_laws : format_laws lib0.
Proof.
  constructor; [reflexivity|intros; now apply num_show|]. intros x H. apply code_quiet. cbn [show64 lib0]. destruct x as [s|s| |s m e]; try destruct H; cbn [show0].
  - destruct s; (constructor; [simpl; auto 12|]; constructor; [simpl; auto 12|constructor]).
  - constructor; [destruct s; simpl; auto 12|]. constructor; [simpl; auto 12|]. apply Forall_app. split; [apply bits_quiet|]. destruct e as [|p|p]; cbn [digits_Z]; (constructor; [simpl; auto 12|]); [constructor|apply bits_quiet|apply bits_quiet].
Qed.
Print Assumptions C68_laws.
(** An object with a quoted key, a string with a quote in it, and empty brackets. *)
Definition tame_sample : data :=
  DObject [(tx "a", DArray [DNum f1; DStr (tx "x" ++ [34%N] ++ tx "y z"); DArray []]); (tx "b c", DSome (DArray [DBool true; DObject []])); (tx "d", DStr (tx "e, {f}"))].
Example C68_example_tame : tame lib0 tame_sample.
Proof.
  apply t_object; [repeat constructor; cbn; intuition discriminate| |].
  - repeat constructor; try discriminate; cbn [fst]; [exists (tx "a")|exists (tx "b c")|exists (tx "d")]; (split; [reflexivity|cbn; repeat split; discriminate]).
  - repeat constructor; cbn [snd]; try exact Logic.I; [exists (tx "x\" ++ [34%N] ++ tx "y z")|exists (tx "e, {f}")]; (split; [reflexivity|cbn; repeat split; discriminate]).
Qed.
Example C68_example_read : exists t r, write lib0 9 [] true tame_sample = Some t /\ fits 2 (length t) /\ fmt 2 t = Some r /\ t <> r /\ load_data lib0 r = POk tame_sample [].
Proof.
  destruct (write lib0 9 [] true tame_sample) as [t|] eqn:W; [|vm_compute in W; discriminate]. destruct (fmt 2 t) as [r|] eqn:R; [|vm_compute in W; injection W as <-; vm_compute in R; discriminate].
  exists t, r. split; [reflexivity|]. vm_compute in W. injection W as <-. split; [split; reflexivity|]. split; [exact R|]. vm_compute in R. injection R as <-. split; [discriminate|vm_compute; reflexivity].
Qed.

(** ** Refutations: written data that is changed by formatting. *)
Definition reformatted (tab : Z) (v : data) : parsed data :=
  match write lib0 9 [] true v with
  | Some t => match fmt tab t with Some r => load_data lib0 r | None => POof end
  | None => POof
  end.
(** A space in a string is lost when a string before it has an escaped backslash. *)
Theorem C68_escape_refuted : datum [] (DArray [DStr (tx "\"); DStr (tx "c d")]) /\ reformatted 2 (DArray [DStr (tx "\"); DStr (tx "c d")]) <> POk (DArray [DStr (tx "\"); DStr (tx "c d")]) [].
Proof. split; [repeat constructor|vm_compute; discriminate]. Qed.
Print Assumptions C68_escape_refuted.
(** The numbers of a link run together: a link with `1` and `2` is given the text of a link with `12`. *)
Theorem C68_link_refuted : forall L tab x y z, show64 L z = show64 L x ++ show64 L y -> Forall quiet_char (show64 L z) -> fits tab (length (show64 L z) + 10) ->
  exists t u, write L 2 [] true (DLink [DNum x; DNum y]) = Some t /\ write L 2 [] true (DLink [DNum z]) = Some u /\ fmt tab t = fmt tab u.
Proof.
  intros L tab x y z E Q F. eexists _, _. split; [reflexivity|]. split; [reflexivity|]. cbn [map concat]. rewrite !app_nil_r.
  set (a := fun t => Solid 108%N :: Solid 105%N :: Solid 110%N :: Solid 107%N :: Blank 32%N :: Solid 123%N :: Blank 32%N :: map Solid t).
  assert (Q2 : Forall quiet_char (show64 L x) /\ Forall quiet_char (show64 L y)) by (rewrite E in Q; now apply Forall_app in Q). destruct Q2 as [Qx Qy].
  assert (P : forall t, Forall quiet_char t -> Forall plain (map Solid t)) by (intros t H; induction H as [|c t Hc H IH]; constructor; [apply (quiet_spec c Hc)|exact IH]).
  assert (K : forall c, In c (tx "link{}") -> plain (Solid c)) by (intros c H; cbn in H; repeat (destruct H as [<-|H]; [split; [split; [reflexivity|split; discriminate]|intros []]|]); destruct H).
  assert (B : plain (Blank 32%N)) by (split; [reflexivity|intros []]).
  replace (tx "link { " ++ ((show64 L x ++ tx " ") ++ show64 L y ++ tx " ") ++ tx "}") with (text_of (a (show64 L x) ++ Blank 32%N :: map Solid (show64 L y) ++ [Blank 32%N; Solid 125%N])).
  2:{ unfold a. rewrite text_of_app, !text_of_cons, text_of_app, !text_solids. cbn [text1]. rewrite <- !app_assoc. reflexivity. }
  replace (tx "link { " ++ (show64 L z ++ tx " ") ++ tx "}") with (text_of (a (show64 L z) ++ [Blank 32%N; Solid 125%N])).
  2:{ unfold a. rewrite text_of_app, !text_of_cons, !text_solids. cbn [text1]. rewrite <- !app_assoc. reflexivity. }
  assert (Ln : length (show64 L z) = length (show64 L x) + length (show64 L y)) by (rewrite E; apply app_length).
  assert (PA : forall t, Forall quiet_char t -> Forall plain (a t)) by (intros t H; unfold a; repeat (constructor; [solve [exact B|apply K; simpl; auto 10]|]); now apply P).
  assert (PE : Forall plain [Blank 32%N; Solid 125%N]) by (constructor; [exact B|constructor; [apply K; simpl; auto 10|constructor]]).
  apply C68_blanks.
  - apply regular_plain. apply Forall_app. split; [now apply PA|]. constructor; [exact B|]. apply Forall_app. split; [now apply P|exact PE].
  - apply regular_plain. apply Forall_app. split; [now apply PA|exact PE].
  - unfold fits in *. unfold a. rewrite app_length. cbn [length]. rewrite app_length, !map_length. cbn [length]. destruct F as [F1 F2]. split; [lia|]. eapply Z.le_lt_trans; [|exact F2]. apply Z.mul_le_mono_nonneg_l; lia.
  - unfold fits in *. unfold a. rewrite app_length. cbn [length]. rewrite !map_length. destruct F as [F1 F2]. split; [lia|]. eapply Z.le_lt_trans; [|exact F2]. apply Z.mul_le_mono_nonneg_l; lia.
  - rewrite !shown_app. unfold a. cbn [shown filter visible]. fold shown. rewrite E, map_app.
    assert (S0 : forall t, shown (map Solid t) = map Solid t) by (induction t as [|c t IH]; [reflexivity|]; cbn; now f_equal). fold (shown (map Solid (show64 L x))). rewrite filter_app. fold (shown (map Solid (show64 L y))). change (filter visible (map Solid (show64 L x) ++ map Solid (show64 L y))) with (shown (map Solid (show64 L x) ++ map Solid (show64 L y))).
    rewrite shown_app, !S0. cbn [app filter visible]. now rewrite <- app_assoc.
Qed.
Print Assumptions C68_link_refuted.
(** A vector and `none()` no longer load. *)
Theorem C68_vec4_refuted : reformatted 2 (DVec4 one_ f0 f0 f0) = PErr /\ reformatted 2 DNone = PErr.
Proof. split; vm_compute; reflexivity. Qed.
Print Assumptions C68_vec4_refuted.
