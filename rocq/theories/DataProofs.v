(** * Lemmas about writing and loading data. *)
From Coq Require Import String List ZArith NArith Bool Arith Lia.
From Verif Require Import Float64 DataModel DataSpec.
Import ListNotations.
Local Open Scope nat_scope.
Local Open Scope list_scope.

Section DatumInd.
Variables (stk : list data) (P : data -> Prop).
Hypotheses
  (Href : forall i v, nth_error stk i = Some v -> datum stk v -> P v -> P (DRef i))
  (Hstr : forall s, P (DStr s)) (Hnum : forall x, finite x -> P (DNum x)) (Hbool : forall b, P (DBool b))
  (Hvec : forall x y z w, finite32 x -> finite32 y -> finite32 z -> finite32 w -> P (DVec4 x y z w))
  (Hlink : forall l, Forall (fun v => match v with DStr _ | DBool _ => True | DNum x => finite x | _ => False end) l -> P (DLink l))
  (Harr : forall l, Forall P l -> P (DArray l))
  (Hobj : forall l, NoDup (map fst l) -> Forall (fun kv => fst kv <> []) l -> Forall (fun kv => P (snd kv)) l -> P (DObject l))
  (Hnone : P DNone) (Hsome : forall v, P v -> P (DSome v)).
Fixpoint datum_all v (d : datum stk v) {struct d} : P v :=
  match d in datum _ v return P v with
  | d_ref _ i v e d => Href i v e d (datum_all v d)
  | d_str _ s => Hstr s
  | d_num _ x f => Hnum x f
  | d_bool _ b => Hbool b
  | d_vec4 _ x y z w a b c d => Hvec x y z w a b c d
  | d_link _ l f => Hlink l f
  | d_array _ l f => Harr l ((fix go l (f : Forall (datum stk) l) : Forall P l :=
       match f with Forall_nil _ => Forall_nil P | Forall_cons x h t => Forall_cons x (datum_all x h) (go _ t) end) l f)
  | d_object _ l n k f => Hobj l n k ((fix go l (f : Forall (fun kv => datum stk (snd kv)) l) : Forall (fun kv => P (snd kv)) l :=
       match f with Forall_nil _ => Forall_nil _ | Forall_cons x h t => Forall_cons x (datum_all _ h) (go _ t) end) l f)
  | d_none _ => Hnone
  | d_some _ v d => Hsome v (datum_all v d)
  end.
End DatumInd.

Ltac splits_ := repeat (match goal with |- _ /\ _ => split end).

Section Laws.
Context (L : lib) (HL : laws L).

(** First characters of written values. *)
Definition heads : text := 34%N :: tx "([{tfnsl-" ++ digits.
Lemma heads_print : forall c, In c heads -> (33 <= c <= 126)%N /\ ~ In c [47; 93; 125; 41; 44; 32]%N.
Proof. intros c H. simpl in H. repeat (destruct H as [<-|H]; [split; [lia|simpl; lia]|]). destruct H. Qed.

Definition solid (t : text) : Prop := match t with [] => True | c :: _ => white L c = false /\ c <> 47%N end.
Lemma solid_print : forall c r, (33 <= c <= 126)%N -> c <> 47%N -> solid (c :: r).
Proof. intros. split; auto. apply (l_print L HL). auto. Qed.
Lemma solid_head : forall c r, In c heads -> solid (c :: r).
Proof. intros c r H. apply heads_print in H. destruct H as [A B]. apply solid_print; auto. intros ->. apply B. simpl. auto. Qed.

Lemma tag_ne : forall p d c r, c <> d -> tag (d :: p) (c :: r) = None.
Proof. intros. cbn. destruct (N.eqb_spec d c); [congruence|reflexivity]. Qed.
Lemma tag_app : forall p r, tag p (p ++ r) = Some r.
Proof. induction p as [|c p IH]; intros r; [reflexivity|]. cbn. rewrite N.eqb_refl. apply IH. Qed.
Lemma multi_line_none : forall n t, (match t with c :: _ => c <> 47%N | [] => True end) -> multi_line n t = t.
Proof. intros [|n] [|c r] H; try reflexivity. cbn [multi_line]. change (tx "/*") with [47; 42]%N. rewrite tag_ne by auto. reflexivity. Qed.
Lemma opt_w_step : forall n t, solid t -> opt_w_ L (S n) t = t.
Proof.
  intros n t H. cbn [opt_w_]. assert (skip_white L t = t) as ->. { destruct t; [reflexivity|]. cbn. destruct H as [-> _]. reflexivity. }
  change (tx "//") with [47; 47]%N.
  assert (tag [47; 47]%N t = None) as ->. { destruct t as [|c r]; [reflexivity|]. apply tag_ne. apply H. }
  rewrite multi_line_none by (destruct t; [exact I|apply H]). rewrite Nat.eqb_refl. reflexivity.
Qed.
Lemma opt_w_solid : forall t, solid t -> opt_w L t = t.
Proof. intros. unfold opt_w. apply opt_w_step. auto. Qed.
Lemma opt_w_space : forall t, solid t -> opt_w L (32%N :: t) = t.
Proof.
  intros t H. unfold opt_w. cbn [length]. cbn [opt_w_]. assert (skip_white L (32%N :: t) = t) as ->.
  { cbn. rewrite (l_space L HL). destruct t; [reflexivity|]. cbn. destruct H as [-> _]. reflexivity. }
  change (tx "//") with [47; 47]%N.
  assert (tag [47; 47]%N t = None) as ->. { destruct t as [|c r]; [reflexivity|]. apply tag_ne. apply H. }
  rewrite multi_line_none by (destruct t; [exact I|apply H]). cbn [length].
  destruct (Nat.eqb_spec (length t) (S (length t))); [lia|]. apply opt_w_step. auto.
Qed.
Lemma comma_yes : forall t, solid t -> comma L (44%N :: 32%N :: t) = (true, t).
Proof.
  intros t H. unfold comma. rewrite opt_w_solid by (apply solid_print; lia). change (tx ",") with [44%N]. cbn [tag N.eqb Pos.eqb].
  rewrite opt_w_space; auto.
Qed.
Lemma comma_no : forall c r, (33 <= c <= 126)%N -> c <> 47%N -> c <> 44%N -> comma L (c :: r) = (false, c :: r).
Proof.
  intros. unfold comma. rewrite opt_w_solid by (apply solid_print; auto). change (tx ",") with [44%N]. rewrite tag_ne by auto.
  rewrite opt_w_solid by (apply solid_print; auto). reflexivity.
Qed.

(** A text that is read as [v]. *)
Definition starts (t : text) : Prop := match t with c :: _ => In c heads | [] => False end.
Definition reads (t : text) (v : data) : Prop :=
  starts t /\ forall m rest, length t < m -> ends rest -> expr L m (t ++ rest) = POk v rest.
Lemma starts_solid : forall t r, starts t -> solid (t ++ r).
Proof. intros [|c t] r H; [destruct H|]. apply solid_head. exact H. Qed.
Lemma starts_tag : forall p d t r, starts t -> In d [93; 125; 41]%N -> tag (d :: p) (t ++ r) = None.
Proof.
  intros p d [|c t] r H D; [destruct H|]. cbn [app]. apply tag_ne. apply heads_print in H. destruct H as [_ H]. intros ->. apply H.
  simpl in *. tauto.
Qed.
Lemma starts_length : forall t, starts t -> 1 <= length t.
Proof. intros [|c t] H; [destruct H|simpl; lia]. Qed.

Lemma app_cons_assoc : forall {A} (a b c : list A), (a ++ b) ++ c = a ++ b ++ c. Proof. intros; symmetry; apply app_assoc. Qed.

(** ** Arrays *)
Lemma array_reads : forall m ts vs, Forall2 reads ts vs -> Forall (fun t => length t < m) ts ->
  forall n res wc rest, length ts < n -> (res = [] \/ wc = true \/ ts = []) ->
  array_ L (expr L m) n res wc (joined (tx ", ") ts ++ tx "]" ++ rest) = POk (DArray (res ++ vs)) rest.
Proof.
  intros m ts vs H. induction H as [|t v ts vs [S R] F IH]; intros Hl n res wc rest Hn Hw.
  - destruct n as [|n]; [simpl in Hn; lia|]. cbn [array_]. change (joined _ [] ++ tx "]" ++ rest) with (93%N :: rest).
    rewrite opt_w_solid by (apply solid_print; lia). cbn. rewrite app_nil_r. reflexivity.
  - inversion Hl as [|? ? Ht Hl']; subst. destruct n as [|n]; [simpl in Hn; lia|]. cbn [length] in Hn.
    assert (negb (match res with [] => true | _ => false end) && negb wc = false) as G.
    { destruct Hw as [->|[->|?]]; [reflexivity| |discriminate]. destruct res; reflexivity. }
    cbn [array_]. destruct ts as [|t2 ts].
    + cbn [joined]. rewrite opt_w_solid by (apply starts_solid; auto). change (tx "]") with [93%N].
      rewrite (starts_tag [] 93%N) by (auto; simpl; auto). rewrite G. rewrite R by (auto; simpl; auto 10).
      cbn [app]. rewrite comma_no by lia. inversion F; subst.
      specialize (IH Hl' n (res ++ [v]) false rest). cbn [joined app] in IH. change (tx "]") with [93%N] in IH. cbn [app] in IH.
      eapply eq_trans; [apply IH; simpl; auto; lia|]. rewrite app_cons_assoc. reflexivity.
    + change (joined (tx ", ") (t :: t2 :: ts)) with (t ++ tx ", " ++ joined (tx ", ") (t2 :: ts)).
      rewrite !app_cons_assoc. rewrite opt_w_solid by (apply starts_solid; auto). change (tx "]") with [93%N].
      rewrite (starts_tag [] 93%N) by (auto; simpl; auto). rewrite G.
      rewrite R by (auto; simpl; auto 10). change (tx ", ") with [44; 32]%N. cbn [app].
      assert (solid (joined [44; 32]%N (t2 :: ts) ++ [93%N] ++ rest)) as Sl.
      { inversion F as [|? v2 ? ? [S2 _]]; subst. destruct ts as [|t3 ts]; [apply starts_solid; auto|].
        change (joined [44; 32]%N (t2 :: t3 :: ts)) with (t2 ++ [44; 32]%N ++ joined [44; 32]%N (t3 :: ts)). rewrite app_cons_assoc. apply starts_solid; auto. }
      cbn [app] in Sl. rewrite comma_yes by exact Sl.
      specialize (IH Hl' n (res ++ [v]) true rest). change (tx "]") with [93%N] in IH. change (tx ", ") with [44; 32]%N in IH. cbn [app] in IH.
      eapply eq_trans; [apply IH; auto; lia|]. rewrite app_cons_assoc. reflexivity.
Qed.

(** ** Objects *)
Lemma in_seps : forall c, In c seps -> (c <= 127)%N /\ ~ letter c /\ c <> 95%N.
Proof. intros c H. simpl in H. unfold letter. repeat (destruct H as [<-|H]; [lia|]). destruct H. Qed.
Lemma plain_char : forall c, alnum L c || N.eqb c 95 = true -> white L c = false /\ existsb (N.eqb c) seps = false /\ c <> 47%N /\ c <> 34%N /\ c <> 125%N.
Proof.
  intros c H.
  assert (white L c = false /\ ((c <= 127)%N -> letter c \/ c = 95%N)) as [W A].
  { apply orb_prop in H. destruct H as [H|H]; [destruct (l_alnum L HL c H); auto|]. apply N.eqb_eq in H. subst. split; auto. apply (l_print L HL). lia. }
  splits_; auto.
  - destruct (existsb (N.eqb c) seps) eqn:E; auto. apply existsb_exists in E. destruct E as (d & D & E). apply N.eqb_eq in E. subst d.
    apply in_seps in D. destruct D as (D1 & D2 & D3). destruct (A D1); contradiction.
  - intros ->. destruct A as [A|A]; [lia| |discriminate]. unfold letter in A. lia.
  - intros ->. destruct A as [A|A]; [lia| |discriminate]. unfold letter in A. lia.
  - intros ->. destruct A as [A|A]; [lia| |discriminate]. unfold letter in A. lia.
Qed.
Lemma until_sep_key : forall k r, forallb (fun c => alnum L c || N.eqb c 95) k = true -> until_sep L (k ++ 58%N :: r) = (k, 58%N :: r).
Proof.
  induction k as [|c k IH]; intros r H; [reflexivity|]. cbn [forallb] in H. apply andb_prop in H. destruct H as [A B].
  destruct (plain_char c A) as (W & E & _). cbn [until_sep app]. rewrite E, W. cbn [orb]. rewrite IH by auto. reflexivity.
Qed.
Definition key_text (k : text) : text := if forallb (fun c => alnum L c || N.eqb c 95) k then k else quote L k.
Lemma key_reads : forall k r, k <> [] ->
  solid (key_text k ++ 58%N :: r) /\ tag (tx "}") (key_text k ++ 58%N :: r) = None /\
  match str L (key_text k ++ 58%N :: r) with
  | Some (Some (s, r)) => POk s r
  | Some None => PErr
  | None => match until_sep L (key_text k ++ 58%N :: r) with ([], _) => PErr | (k, r) => POk k r end
  end = POk k (58%N :: r).
Proof.
  intros k r Hk. unfold key_text. destruct (forallb _ k) eqn:E.
  - rewrite until_sep_key by auto. destruct k as [|c k]; [congruence|]. cbn [app]. cbn [forallb] in E. apply andb_prop in E. destruct E as [A _].
    destruct (plain_char c A) as (W & S & N1 & N2 & N3). splits_.
    + split; auto.
    + apply tag_ne; auto.
    + rewrite (l_str_none L HL) by auto. reflexivity.
  - rewrite (l_str L HL). destruct (l_quote L HL k) as [q ->]. splits_; auto.
    apply solid_print; lia.
Qed.
Definition entry (e : text) (kv : text * data) : Prop :=
  exists t, e = key_text (fst kv) ++ (58%N :: 32%N :: t) /\ reads t (snd kv) /\ fst kv <> [].
Lemma insert_new : forall k v l, ~ In k (map fst l) -> insert k v l = l ++ [(k, v)].
Proof.
  induction l as [|[k' v'] l IH]; intros H; [reflexivity|]. cbn. unfold text_eqb. destruct (list_eq_dec N.eq_dec k' k) as [->|D].
  - exfalso. apply H. left. reflexivity.
  - rewrite IH; [reflexivity|]. intros Q. apply H. right. exact Q.
Qed.
Lemma joined_cons : forall sep x y l, joined sep (x :: y :: l) = x ++ sep ++ joined sep (y :: l). Proof. reflexivity. Qed.
Lemma entry_solid : forall e kv r, entry e kv -> solid (e ++ r).
Proof.
  intros e [k v] r (t & -> & _ & Hk). cbn [fst] in *. rewrite app_cons_assoc. apply (key_reads k (32%N :: t ++ r) Hk).
Qed.
Lemma object_reads : forall m es kvs, Forall2 entry es kvs -> Forall (fun e => length e < m) es ->
  forall n res wc rest, length es < n -> (res = [] \/ wc = true \/ es = []) -> NoDup (map fst (res ++ kvs)) ->
  object_ L (expr L m) n res wc (joined (tx ", ") es ++ tx "}" ++ rest) = POk (DObject (res ++ kvs)) rest.
Proof.
  intros m es kvs H. induction H as [|e [k v] es kvs E F IH]; intros Hl n res wc rest Hn Hw Hd.
  - destruct n as [|n]; [simpl in Hn; lia|]. cbn [object_]. change (joined _ [] ++ tx "}" ++ rest) with (125%N :: rest).
    rewrite opt_w_solid by (apply solid_print; lia). cbn. rewrite app_nil_r. reflexivity.
  - inversion Hl as [|? ? Ht Hl']; subst. destruct n as [|n]; [simpl in Hn; lia|]. cbn [length] in Hn.
    assert (negb (match res with [] => true | _ => false end) && negb wc = false) as G.
    { destruct Hw as [->|[->|?]]; [reflexivity| |discriminate]. destruct res; reflexivity. }
    destruct E as (t & -> & [S R] & Hk). cbn [fst snd] in *.
    set (X := match es with [] => tx "}" ++ rest | _ => tx ", " ++ joined (tx ", ") es ++ tx "}" ++ rest end).
    match goal with |- object_ _ _ _ _ _ ?T = _ => assert (T = key_text k ++ 58%N :: 32%N :: (t ++ X)) as -> end.
    { unfold X. destruct es as [|e2 es]; [cbn [joined]|rewrite joined_cons]; rewrite !app_cons_assoc; reflexivity. }
    cbn [object_]. destruct (key_reads k (32%N :: t ++ X) Hk) as (K1 & K2 & K3).
    rewrite opt_w_solid by exact K1. rewrite K2, G, K3. rewrite opt_w_solid by (apply solid_print; lia).
    change (tx ":") with [58%N]. cbn [tag]. rewrite N.eqb_refl. rewrite opt_w_space by (apply starts_solid; auto).
    rewrite R by (rewrite app_length in Ht; simpl in Ht; try lia; unfold X; destruct es; simpl; auto 10).
    assert (insert k v res = res ++ [(k, v)]) as ->.
    { apply insert_new. rewrite map_app in Hd. cbn in Hd. apply NoDup_remove_2 in Hd. intros Q. apply Hd. apply in_or_app. auto. }
    assert (comma L X = (match es with [] => false | _ => true end, joined (tx ", ") es ++ tx "}" ++ rest)) as ->.
    { unfold X. destruct es as [|e2 es]; [apply (comma_no 125%N rest); lia|]. apply comma_yes.
      inversion F as [|? kv2 ? ? E2]; subst. destruct es; [cbn [joined]|rewrite joined_cons, app_cons_assoc]; eapply entry_solid; eauto. }
    rewrite IH; auto.
    + rewrite app_cons_assoc. reflexivity.
    + lia.
    + destruct es; auto.
    + rewrite app_cons_assoc. exact Hd.
Qed.

(** ** Links *)
Definition atom (v : data) : Prop := match v with DStr _ | DNum _ | DBool _ => True | _ => False end.
Lemma link_reads : forall m ts vs, Forall2 (fun t v => reads t v /\ atom v) ts vs -> Forall (fun t => length t < m) ts ->
  forall n res sp rest, length ts < n -> sp = [] \/ sp = [32%N] ->
  link_loop L (expr L m) n res (sp ++ concat (map (fun t => t ++ tx " ") ts) ++ tx "}" ++ rest) = POk (DLink (res ++ vs)) rest.
Proof.
  assert (forall sp t, sp = [] \/ sp = [32%N] -> solid t -> opt_w L (sp ++ t) = t) as W.
  { intros sp t [->| ->] H; [apply opt_w_solid|apply opt_w_space]; auto. }
  intros m ts vs H. induction H as [|t v ts vs ([S R] & A) F IH]; intros Hl n res sp rest Hn Hs.
  - destruct n as [|n]; [simpl in Hn; lia|]. cbn [link_loop]. rewrite W by (auto; apply (solid_print 125%N rest); lia). cbn. rewrite app_nil_r. reflexivity.
  - inversion Hl as [|? ? Ht Hl']; subst. destruct n as [|n]; [simpl in Hn; lia|]. cbn [length] in Hn.
    cbn [link_loop map concat]. rewrite !app_cons_assoc. rewrite W by (auto; apply starts_solid; auto).
    change (tx "}") with [125%N]. rewrite (starts_tag [] 125%N) by (auto; simpl; auto). rewrite R by (auto; simpl; auto).
    assert (linkable v = Some [v]) as -> by (destruct v; try destruct A; reflexivity).
    specialize (IH Hl' n (res ++ [v]) [32%N] rest). eapply eq_trans; [apply IH; auto; lia|]. rewrite app_cons_assoc. reflexivity.
Qed.

(** ** Single values *)
Ltac inn := simpl; repeat (first [left; reflexivity|right]).
Lemma num_heads : forall c, In c (tx "-" ++ digits) -> In c heads.
Proof. intros c H. simpl in *. tauto. Qed.
Lemma reads_num : forall x, finite x -> reads (show64 L x) (DNum x).
Proof.
  intros x H. destruct (l_show L HL x H) as (c & r & E & I). split.
  - rewrite E. apply num_heads. auto.
  - intros [|m] rest Hm He; [lia|]. pose proof (l_num L HL x rest H He) as N. rewrite E in *. cbn [app] in *.
    simpl in I. cbn [expr]. repeat (destruct I as [<-|I]; [cbn [tag tx N.eqb Pos.eqb Ascii.N_of_ascii]; rewrite (l_str_none L HL) by discriminate; rewrite N; reflexivity|]). destruct I.
Qed.
Lemma reads_str : forall s, reads (quote L s) (DStr s).
Proof.
  intros s. destruct (l_quote L HL s) as (r & E). split; [rewrite E; inn|].
  intros [|m] rest Hm He; [lia|]. pose proof (l_str L HL s rest) as N. rewrite E in *. cbn [app] in *. cbn [expr].
  change (tag (tx "{") (34%N :: r ++ rest)) with (@None text). change (tag (tx "[") (34%N :: r ++ rest)) with (@None text).
  change (tag (tx "(") (34%N :: r ++ rest)) with (@None text). change (tag (tx "#") (34%N :: r ++ rest)) with (@None text).
  change (tag (tx "link") (34%N :: r ++ rest)) with (@None text). rewrite N. reflexivity.
Qed.
Lemma word_expr : forall m c r, In c (tx "tfns") -> expr L (S m) (c :: r) =
  match tag (tx "false") (c :: r) with Some r => POk (DBool false) r | None =>
  match tag (tx "true") (c :: r) with Some r => POk (DBool true) r | None =>
  match tag (tx "none()") (c :: r) with Some r => POk DNone r | None =>
  match tag (tx "some(") (c :: r) with
  | Some r =>
      match expr L m (opt_w L r) with
      | POk v r => match tag (tx ")") (opt_w L r) with Some r => POk (DSome v) r | None => PErr end
      | PErr => PErr
      | POof => POof
      end
  | None => PErr
  end end end end.
Proof.
  intros m c r H. simpl in H.
  repeat (destruct H as [<-|H]; [cbn [expr]; rewrite (l_str_none L HL) by discriminate; rewrite (l_num_none L HL) by (simpl; lia); reflexivity|]). destruct H.
Qed.
Lemma reads_bool : forall b : bool, reads (if b then tx "true" else tx "false") (DBool b).
Proof.
  intros b. split; [destruct b; inn|]. intros [|m] rest Hm He; [lia|].
  destruct b; cbn [tx Ascii.N_of_ascii app]; rewrite word_expr by inn; reflexivity.
Qed.
Lemma reads_none : reads (tx "none()") DNone.
Proof.
  split; [inn|]. intros [|m] rest Hm He; [lia|]. cbn [tx app]. rewrite word_expr by inn. reflexivity.
Qed.
Lemma reads_some : forall t v, reads t v -> reads (tx "some(" ++ t ++ tx ")") (DSome v).
Proof.
  intros t v [S R]. split; [inn|]. intros [|m] rest Hm He; [lia|]. rewrite !app_cons_assoc. cbn [tx app]. rewrite word_expr by inn.
  change (tag (tx "false") ?x) with (@None text). change (tag (tx "true") ?x) with (@None text). change (tag (tx "none()") ?x) with (@None text).
  match goal with |- context [tag (tx "some(") (?a :: ?b :: ?c :: ?d :: ?e :: ?r)] => change (tag (tx "some(") (a :: b :: c :: d :: e :: r)) with (Some r) end.
  cbv beta iota. rewrite opt_w_solid by (apply starts_solid; auto). rewrite R; [| |simpl; auto 10].
  - rewrite opt_w_solid by (apply (solid_print 41%N rest); lia). reflexivity.
  - rewrite !app_length in Hm. simpl in Hm. lia.
Qed.

Lemma reads_vec4 : forall x y z w, finite32 x -> finite32 y -> finite32 z -> finite32 w ->
  exists z' w', reads (write_vec4 L x y z w) (DVec4 x y z' w') /\ same_number z z' /\ same_number w w'.
Proof.
  intros x y z w Hx Hy Hz Hw.
  assert (forall a r, finite32 a -> solid (show32 L a ++ r)) as So.
  { intros a r Ha. destruct (l_show32 L HL a Ha) as (c & q & -> & I). apply solid_head. apply num_heads. auto. }
  assert (forall u, nonzero u = false -> same_number u f0) as Zr.
  { intros u Q. right. unfold nonzero in Q. apply negb_false_iff in Q. auto. }
  assert (forall a b c d r, vec4_end L a b c d (41%N :: r) = POk (DVec4 (f32_of_f64 a) (f32_of_f64 b) (f32_of_f64 c) (f32_of_f64 d)) r) as En.
  { intros. unfold vec4_end. rewrite opt_w_solid by (apply solid_print; lia). reflexivity. }
  assert (forall a r, finite32 a -> ends r -> exists y, number L (show32 L a ++ r) = POk y r /\ f32_of_f64 y = a) as Nu.
  { intros a r Ha Hr. destruct (l_num32 L HL a r Ha Hr) as (q & N & C). exists q. unfold number. rewrite N. auto. }
  assert (forall r, number L (41%N :: r) = POof) as No.
  { intros r. unfold number. rewrite (l_num_none L HL); [reflexivity|]. simpl. lia. }
  assert (forall t v, (forall rest, ends rest -> vec4_ L (t ++ rest) = POk v rest) -> reads (40%N :: t) v) as Go.
  { intros t v H. split; [inn|]. intros [|m] rest Hm He; [lia|]. cbn [app expr].
    change (tag (tx "{") (40%N :: t ++ rest)) with (@None text). change (tag (tx "[") (40%N :: t ++ rest)) with (@None text).
    change (tag (tx "(") (40%N :: t ++ rest)) with (Some (t ++ rest)). exact (H rest He). }
  unfold write_vec4. change (tx "(") with [40%N]. change (tx ", ") with [44; 32]%N. change (tx ")") with [41%N]. cbn [app].
  destruct (nonzero z || nonzero w) eqn:Q; [destruct (nonzero w) eqn:W|].
  - exists z, w. split; [|split; left; reflexivity]. apply Go. intros rest He. rewrite !app_cons_assoc. cbn [app]. rewrite !app_cons_assoc. cbn [app]. rewrite !app_cons_assoc. cbn [app]. rewrite ?app_cons_assoc. cbn [app]. unfold vec4_.
    match goal with |- context [number L (show32 L x ++ ?r)] => destruct (Nu x r Hx) as (x' & -> & <-); [simpl; auto|] end. cbv beta iota.
    rewrite comma_yes by auto. cbn [snd].
    match goal with |- context [number L (show32 L y ++ ?r)] => destruct (Nu y r Hy) as (y' & -> & <-); [simpl; auto|] end. cbv beta iota.
    rewrite comma_yes by auto.
    match goal with |- context [number L (show32 L z ++ ?r)] => destruct (Nu z r Hz) as (z' & -> & <-); [simpl; auto|] end. cbv beta iota.
    rewrite comma_yes by auto.
    match goal with |- context [number L (show32 L w ++ ?r)] => destruct (Nu w r Hw) as (w' & -> & <-); [simpl; auto|] end. cbv beta iota.
    apply En.
  - exists z, f0. split; [|split; [left; reflexivity|apply Zr; auto]]. apply Go. intros rest He. rewrite !app_cons_assoc. cbn [app]. rewrite !app_cons_assoc. cbn [app]. rewrite !app_cons_assoc. cbn [app]. unfold vec4_.
    match goal with |- context [number L (show32 L x ++ ?r)] => destruct (Nu x r Hx) as (x' & -> & <-); [simpl; auto|] end. cbv beta iota.
    rewrite comma_yes by auto. cbn [snd].
    match goal with |- context [number L (show32 L y ++ ?r)] => destruct (Nu y r Hy) as (y' & -> & <-); [simpl; auto|] end. cbv beta iota.
    rewrite comma_yes by auto.
    match goal with |- context [number L (show32 L z ++ ?r)] => destruct (Nu z r Hz) as (z' & -> & <-); [simpl; auto|] end. cbv beta iota.
    rewrite comma_no by lia. cbv beta iota. rewrite No. apply En.
  - apply orb_false_elim in Q. destruct Q as [Q1 Q2].
    exists f0, f0. split; [|split; apply Zr; auto]. apply Go. intros rest He. rewrite !app_cons_assoc. cbn [app]. rewrite !app_cons_assoc. cbn [app]. unfold vec4_.
    match goal with |- context [number L (show32 L x ++ ?r)] => destruct (Nu x r Hx) as (x' & -> & <-); [simpl; auto|] end. cbv beta iota.
    rewrite comma_yes by auto. cbn [snd].
    match goal with |- context [number L (show32 L y ++ ?r)] => destruct (Nu y r Hy) as (y' & -> & <-); [simpl; auto|] end. cbv beta iota.
    rewrite comma_no by lia. apply En.
Qed.

(** ** Writing *)
Lemma all_some_map_mono : forall {A B} (f g : A -> option B) l ts, (forall x t, In x l -> f x = Some t -> g x = Some t) ->
  all_some (map f l) = Some ts -> all_some (map g l) = Some ts.
Proof.
  induction l as [|x l IH]; intros ts H E; [exact E|]. cbn in *. destruct (f x) as [t|] eqn:F; [|discriminate].
  rewrite (H x t (or_introl eq_refl) F). destruct (all_some (map f l)) as [r|] eqn:R; [|discriminate].
  rewrite (IH r); auto.
Qed.
Lemma opt_map_some : forall {A B} (f : A -> B) o t, opt_map f o = Some t -> exists x, o = Some x /\ t = f x.
Proof. intros A B f [x|] t H; [|discriminate]. injection H as <-. eauto. Qed.
Lemma write1_mono : forall stk f g, (forall j v t, f j v = Some t -> g j v = Some t) ->
  forall j v t, write1 L stk f j v = Some t -> write1 L stk g j v = Some t.
Proof.
  intros stk f g H j v t E. destruct v; cbn [write1] in *; auto.
  - destruct (nth_error stk i); auto.
  - destruct j; apply opt_map_some in E; destruct E as (ts & E & ->); (erewrite all_some_map_mono; [reflexivity| |exact E]); eauto.
  - apply opt_map_some in E; destruct E as (ts & E & ->); (erewrite all_some_map_mono; [reflexivity| |exact E]); eauto.
  - apply opt_map_some in E; destruct E as (ts & E & ->). erewrite all_some_map_mono; [reflexivity| |exact E].
    intros [k v] t _ Q. apply opt_map_some in Q. destruct Q as (u & Q & ->). rewrite (H _ _ _ Q). reflexivity.
  - apply opt_map_some in E; destruct E as (ts & E & ->). rewrite (H _ _ _ E). reflexivity.
  - apply opt_map_some in E; destruct E as (ts & E & ->). rewrite (H _ _ _ E). reflexivity.
  - apply opt_map_some in E; destruct E as (ts & E & ->). rewrite (H _ _ _ E). reflexivity.
Qed.
Lemma write_S : forall stk n j v t, write L n stk j v = Some t -> write L (S n) stk j v = Some t.
Proof.
  intros stk. induction n as [|n IH]; intros j v t H; [discriminate|]. change (write1 L stk (write L n stk) j v = Some t) in H.
  change (write1 L stk (write L (S n) stk) j v = Some t). eapply write1_mono; [|exact H]. exact IH.
Qed.
Lemma write_mono : forall stk n m j v t, n <= m -> write L n stk j v = Some t -> write L m stk j v = Some t.
Proof. intros stk n m j v t H. induction H; auto. intros. apply write_S. auto. Qed.

(** Written at any depth from some point on, and read back as the same. *)
Definition round (stk : list data) (v : data) : Prop :=
  exists n t v', write L n stk true v = Some t /\ reads t v' /\ same stk v v'.
Lemma round_list : forall stk l, Forall (round stk) l ->
  exists n ts vs, all_some (map (write L n stk true) l) = Some ts /\ Forall2 reads ts vs /\ Forall2 (same stk) l vs.
Proof.
  intros stk l H. induction H as [|v l (n1 & t & v' & A & B & C) F (n2 & ts & vs & D & E & G)].
  - exists 0, [], []. auto.
  - exists (Nat.max n1 n2), (t :: ts), (v' :: vs). splits_; auto. cbn.
    rewrite (write_mono stk n1 _ _ _ _ (Nat.le_max_l _ _) A).
    rewrite (all_some_map_mono (write L n2 stk true) _ l ts); auto. intros x u _. apply write_mono. apply Nat.le_max_r.
Qed.
Lemma round_entries : forall stk l, Forall (fun kv => fst kv <> []) l -> Forall (fun kv => round stk (snd kv)) l ->
  exists n ts vs, all_some (map (fun kv => match kv with (k, v) => opt_map (app (write_key L k)) (write L n stk true v) end) l) = Some ts /\
    Forall2 entry ts vs /\ Forall2 (fun a b => fst a = fst b /\ same stk (snd a) (snd b)) l vs.
Proof.
  intros stk l Hk H. induction H as [|[k v] l (n1 & t & v' & A & B & C) F IH]; [exists 0, [], []; auto|].
  inversion Hk; subst. destruct IH as (n2 & ts & vs & D & E & G); auto.
  exists (Nat.max n1 n2), ((write_key L k ++ t) :: ts), ((k, v') :: vs). cbn [fst snd] in *. splits_.
  - cbn. rewrite (write_mono stk n1 _ _ _ _ (Nat.le_max_l _ _) A). cbn [opt_map].
    rewrite (all_some_map_mono (fun kv => match kv with (k, v) => opt_map (app (write_key L k)) (write L n2 stk true v) end) _ l ts); auto.
    intros [k1 v1] u _ Q. apply opt_map_some in Q. destruct Q as (u1 & Q & ->).
    rewrite (write_mono stk n2 _ _ _ _ (Nat.le_max_r _ _) Q). reflexivity.
  - constructor; auto. exists t. splits_; auto. cbn [fst]. unfold write_key, key_text. rewrite app_cons_assoc. reflexivity.
  - constructor; auto.
Qed.
Lemma joined_length : forall sep ts t, In t ts -> length t <= length (joined sep ts).
Proof.
  induction ts as [|x ts IH]; intros t H; [destruct H|]. destruct ts as [|y ts].
  - destruct H as [->|[]]. cbn. lia.
  - rewrite joined_cons, !app_length. destruct H as [->|H]; [lia|]. specialize (IH t H). lia.
Qed.
Lemma joined_count : forall sep ts, Forall (fun t => 1 <= length t) ts -> length ts <= length (joined sep ts).
Proof.
  intros sep ts H. induction H as [|x ts Hx F IH]; [cbn; lia|]. destruct ts as [|y ts]; [cbn; lia|].
  rewrite joined_cons, !app_length. cbn [length] in *. lia.
Qed.
Definition spaced (ts : list text) : text := concat (map (fun t => t ++ tx " ") ts).
Lemma spaced_cons : forall t ts, length (spaced (t :: ts)) = length t + 1 + length (spaced ts).
Proof. intros. unfold spaced. cbn [map concat]. rewrite !app_length. reflexivity. Qed.
Lemma concat_length : forall ts t, In t ts -> length t <= length (spaced ts).
Proof.
  induction ts as [|x ts IH]; intros t H; [destruct H|]. rewrite spaced_cons.
  destruct H as [->|H]; [lia|]. specialize (IH t H). lia.
Qed.
Lemma concat_count : forall ts, length ts <= length (spaced ts).
Proof. induction ts as [|x ts IH]; [cbn; lia|]. rewrite spaced_cons. cbn [length]. lia. Qed.
Lemma Forall2_l : forall {A B} (R : A -> B -> Prop) (P : A -> Prop) l m, (forall a b, R a b -> P a) -> Forall2 R l m -> Forall P l.
Proof. intros A B R P l m H F. induction F; constructor; eauto. Qed.

Lemma link_expr : forall m r, expr L (S m) (tx "link" ++ r) = link_ L (expr L m) m r. Proof. reflexivity. Qed.
Lemma array_expr : forall m r, expr L (S m) (tx "[" ++ r) = array_ L (expr L m) m [] false r. Proof. reflexivity. Qed.
Lemma object_expr : forall m r, expr L (S m) (tx "{" ++ r) = object_ L (expr L m) m [] false r. Proof. reflexivity. Qed.
Lemma round_all : forall stk v, datum stk v -> round stk v.
Proof.
  intros stk. apply (datum_all stk (round stk)).
  - intros i v E _ (n & t & v' & A & B & C). exists (S n), t, v'. cbn [write write1]. rewrite E. splits_; auto. econstructor; eauto.
  - intros s. exists 1, (quote L s), (DStr s). split; [reflexivity|split; [apply reads_str|constructor]].
  - intros x H. exists 1, (show64 L x), (DNum x). split; [reflexivity|split; [apply reads_num; auto|constructor]].
  - intros b. exists 1, (if b then tx "true" else tx "false"), (DBool b). split; [reflexivity|split; [apply reads_bool|constructor]].
  - intros x y z w Hx Hy Hz Hw. destruct (reads_vec4 x y z w Hx Hy Hz Hw) as (z' & w' & A & B & C).
    exists 1, (write_vec4 L x y z w), (DVec4 x y z' w'). split; [reflexivity|split; [exact A|constructor; auto]].
  - intros l H.
    assert (exists ts, all_some (map (write L 1 stk true) l) = Some ts /\ Forall2 (fun t v => reads t v /\ atom v) ts l) as (ts & A & B).
    { induction H as [|v l Hv F (ts & IH & G)]; [exists []; auto|].
      assert (exists t, write L 1 stk true v = Some t /\ reads t v /\ atom v) as (t & T & R).
      { destruct v; try destruct Hv; eexists; (split; [reflexivity|]); split; try exact I; [apply reads_str|apply reads_num; auto|apply reads_bool]. }
      exists (t :: ts). cbn [map all_some]. rewrite T, IH. auto. }
    exists 2, (tx "link { " ++ concat (map (fun t => t ++ tx " ") ts) ++ tx "}"), (DLink l). split; [|split; [split; [inn|]|constructor]].
    + change (write1 L stk (write L 1 stk) true (DLink l) = Some (tx "link { " ++ concat (map (fun t => t ++ tx " ") ts) ++ tx "}")). cbn [write1].
      rewrite A. reflexivity.
    + intros [|m] rest Hm He; [lia|]. rewrite !app_length in Hm. fold (spaced ts) in Hm.
      change (length (tx "link { ")) with 7 in Hm.
      rewrite !app_cons_assoc. change (tx "link { ") with (tx "link" ++ 32%N :: 123%N :: [32%N]). rewrite !app_cons_assoc. rewrite link_expr.
      unfold link_. cbn [app]. rewrite (opt_w_space (123%N :: _)) by (apply solid_print; lia).
      change (tag (tx "{") (123%N :: ?r)) with (Some r). cbv beta iota.
      assert (solid (concat (map (fun t => t ++ tx " ") ts) ++ 125%N :: rest)) as So.
      { destruct B as [|t v ts l ([S R] & _)]; [apply solid_print; lia|]. cbn [map concat]. rewrite !app_cons_assoc. apply starts_solid. auto. }
      rewrite opt_w_space by exact So. eapply eq_trans; [apply (link_reads m ts l B) with (sp := []) (res := []); auto|reflexivity].
      * apply Forall_forall. intros t Ht. apply concat_length in Ht. lia.
      * pose proof (concat_count ts) as Q. lia.
  - intros l H. destruct (round_list stk l H) as (n & ts & vs & A & B & C).
    exists (S n), (tx "[" ++ joined (tx ", ") ts ++ tx "]"), (DArray vs). split; [|split; [split; [inn|]|constructor; auto]].
    + cbn [write write1]. rewrite A. reflexivity.
    + intros [|m] rest Hm He; [lia|]. rewrite !app_length in Hm. cbn [length] in Hm. change (length (tx "[")) with 1 in Hm. change (length (tx "]")) with 1 in Hm.
      rewrite !app_cons_assoc, array_expr.
      eapply eq_trans; [apply (array_reads m ts vs B) with (res := []); auto|reflexivity].
      * apply Forall_forall. intros t Ht. apply (joined_length (tx ", ")) in Ht. lia.
      * assert (length ts <= length (joined (tx ", ") ts)); [|lia]. apply joined_count. eapply Forall2_l; [|exact B]. intros a b [S _]. apply starts_length. auto.
  - intros l N K H. destruct (round_entries stk l K H) as (n & ts & vs & A & B & C).
    exists (S n), (tx "{" ++ joined (tx ", ") ts ++ tx "}"), (DObject vs). split; [|split; [split; [inn|]|constructor; auto]].
    + cbn [write write1]. rewrite A. reflexivity.
    + intros [|m] rest Hm He; [lia|]. rewrite !app_length in Hm. cbn [length] in Hm. change (length (tx "{")) with 1 in Hm. change (length (tx "}")) with 1 in Hm.
      rewrite !app_cons_assoc, object_expr.
      eapply eq_trans; [apply (object_reads m ts vs B) with (res := []); auto|reflexivity].
      * apply Forall_forall. intros t Ht. apply (joined_length (tx ", ")) in Ht. lia.
      * assert (length ts <= length (joined (tx ", ") ts)); [|lia]. apply joined_count. eapply Forall2_l; [|exact B].
        intros a b (t & -> & _). rewrite app_length. cbn. lia.
      * cbn [app]. replace (map fst vs) with (map fst l); auto. clear - C. induction C as [|a b l vs [D _] C IH]; [reflexivity|]. cbn. rewrite D, IH. reflexivity.
  - exists 1, (tx "none()"), DNone. split; [reflexivity|split; [apply reads_none|constructor]].
  - intros v (n & t & v' & A & B & C). exists (S n), (tx "some(" ++ t ++ tx ")"), (DSome v'). split; [|split; [|constructor; auto]].
    + cbn [write write1]. rewrite A. reflexivity.
    + apply (reads_some t v' B).
Qed.
End Laws.
