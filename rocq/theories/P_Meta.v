(** * C70: meta data is given as values and written as JSON without loss. *)
From Coq Require Import String Ascii List ZArith NArith Bool Arith Lia SpecFloat.
From Verif Require Import Float64 FloatProofs DataModel DataSpec DataProofs P_Data FmtModel FmtSpec P_Fmt P_FmtRead MetaModel MetaSpec.
Import ListNotations.
Local Open Scope nat_scope.
Local Open Scope list_scope.

(** ** The values *)
Lemma f_of_Z_inj : forall x y, small_int x -> small_int y -> f_of_Z x = f_of_Z y -> x = y.
Proof.
  intros x y Hx Hy E. pose proof (flt_int x y Hx Hy) as A. pose proof (flt_int y x Hy Hx) as B. pose proof (flt_int y y Hy Hy) as C. rewrite E in A, B. rewrite C, Z.ltb_irrefl in A, B. symmetry in A, B. apply Z.ltb_ge in A, B. lia.
Qed.
Lemma place_inj : forall a b, (Z.of_N a <= 2 ^ 53)%Z -> (Z.of_N b <= 2 ^ 53)%Z -> f_of_Z (Z.of_N a) = f_of_Z (Z.of_N b) -> a = b.
Proof. intros a b Ha Hb E. apply f_of_Z_inj in E; unfold small_int; lia. Qed.
(** No two lists of tokens have the same values. *)
Theorem C70_values : forall a b, Forall placed a -> Forall placed b -> syntax_data a = syntax_data b -> a = b.
Proof.
  induction a as [|[o l m] a IH]; intros [|[o2 l2 m2] b] Ha Hb E; try discriminate; [reflexivity|]. inversion Ha as [|? ? (P1 & P2) Ha']; subst. inversion Hb as [|? ? (Q1 & Q2) Hb']; subst. cbn [t_offset t_length] in *.
  assert (ET : token_data (Token o l m) = token_data (Token o2 l2 m2)) by exact (f_equal (hd DNone) E). assert (E' : syntax_data a = syntax_data b) by exact (f_equal (@tl data) E). clear E. f_equal; [|now apply IH].
  assert (EA : forall i, nth_error (match token_data (Token o l m) with DArray x => x | _ => [] end) i = nth_error (match token_data (Token o2 l2 m2) with DArray x => x | _ => [] end) i) by (intros i; now rewrite ET).
  pose proof (EA 0) as E1. pose proof (EA 1) as E2. pose proof (EA 2) as E3. pose proof (EA 3) as E4. pose proof (EA 4) as E5. clear EA ET. cbn [token_data nth_error app t_offset t_length t_data] in *.
  assert (f_of_Z (Z.of_N o) = f_of_Z (Z.of_N o2)) as F1 by congruence. assert (f_of_Z (Z.of_N l) = f_of_Z (Z.of_N l2)) as F2 by congruence. clear E1 E2. apply place_inj in F1; auto. apply place_inj in F2; auto. subst.
  f_equal. destruct m, m2; cbn in E3, E4, E5; congruence.
Qed.
Print Assumptions C70_values.

(** ** One token *)
Definition is_end (m : meta) : bool := match m with MEnd _ => true | _ => false end.
Definition is_start (m : meta) : bool := match m with MStart _ => true | _ => false end.
Section Text.
Variable L : lib.
Definition leaf_text (v : leaf) : text := match v with LBool b => if b then tx "true" else tx "false" | LStr s => quote L s | LNum x => show64 L x end.
Definition meta_text (m : meta) : text :=
  match m with
  | MBool n b => quote L n ++ 58%N :: leaf_text (LBool b)
  | MString n s => quote L n ++ 58%N :: leaf_text (LStr s)
  | MF64 n x => quote L n ++ 58%N :: leaf_text (LNum x)
  | MStart n => quote L n ++ [58; 123]%N
  | MEnd _ => [125]%N
  end.
Lemma kind_of : forall t, is_kind (tx "end") (token_data t) = Some (is_end (t_data t)) /\ is_kind (tx "start") (token_data t) = Some (is_start (t_data t)).
Proof. intros [o l [n b|n s|n x|n|n]]; split; reflexivity. Qed.
Lemma item_of : forall t, json_item L (token_data t) = Some (is_start (t_data t), meta_text (t_data t)).
Proof. intros [o l [n b|n s|n x|n|n]]; reflexivity. Qed.
Definition sep (first zero end_ : bool) : text := if negb first && negb end_ then [44; 10]%N else if zero then [] else [10%N].
Lemma loop_cons : forall ind first zero t l, (is_end (t_data t) = true -> ind <> 0%N) -> (is_start (t_data t) = true -> (ind < 4294967295)%N) ->
  json_loop L ind first zero (token_data t :: l) =
  let d := if is_end (t_data t) then (ind - 1)%N else ind in
  option_map (fun r => sep first zero (is_end (t_data t)) ++ repeat 32%N (N.to_nat d) ++ meta_text (t_data t) ++ r)
    (json_loop L (if is_start (t_data t) then d + 1 else d)%N (is_start (t_data t)) false l).
Proof.
  intros ind first zero t l HE HS. cbn [json_loop]. destruct (kind_of t) as [-> _]. rewrite item_of. cbv zeta.
  destruct (is_end (t_data t)) eqn:E; cbn [andb].
  - destruct (N.eqb_spec ind 0) as [Z|_]; [now apply HE in Z|]. destruct (t_data t); try discriminate. cbn [is_start andb]. destruct (json_loop L (ind - 1) false false l); reflexivity.
  - destruct (is_start (t_data t)) eqn:S; cbn [andb]; [destruct (N.eqb_spec ind 4294967295) as [Z|_]; [specialize (HS eq_refl); lia|]|]; (destruct (json_loop L _ _ false l); reflexivity).
Qed.

(** ** The text of a tree *)
Section Entries.
Variable vt : mtree -> text.
Fixpoint entries (d : nat) (first zero : bool) (ms : list (text * mtree)) : text :=
  match ms with
  | [] => []
  | (k, t) :: ms => sep first zero false ++ repeat 32%N d ++ quote L k ++ 58%N :: vt t ++ entries d false false ms
  end.
End Entries.
Fixpoint vtext (d : nat) (t : mtree) : text :=
  match t with
  | MLeaf v => leaf_text v
  | MNode ms => 123%N :: entries (vtext (S d)) (S d) true false ms ++ 10%N :: repeat 32%N d ++ [125%N]
  end.
Definition none {A} (l : list A) : bool := match l with [] => true | _ => false end.
Lemma loop_tree : forall a ms, nests a ms -> forall ts rest ind first zero, map t_data ts = a -> (ind + N.of_nat (length a) < 4294967296)%N ->
  json_loop L ind first zero (map token_data ts ++ rest) =
  option_map (app (entries (vtext (N.to_nat ind)) (N.to_nat ind) first zero ms)) (json_loop L ind (first && none ms) (zero && none ms) rest).
Proof.
  intros a ms H. induction H as [|k b a ms H IH|k s a ms H IH|k x a ms H IH|k a1 ms1 a ms H1 IH1 H IH]; intros ts rest ind first zero E Hn.
  - destruct ts; [|discriminate]. cbn. rewrite !andb_true_r. destruct (json_loop L ind first zero rest); reflexivity.
  - destruct ts as [|t ts]; [discriminate|]. cbn [map] in E. injection E as Et E. cbn [length] in Hn. cbn [map app]. rewrite loop_cons by (rewrite Et; discriminate). rewrite Et. cbn [is_end is_start]. cbv zeta. rewrite (IH ts rest ind false false E) by lia.
    cbn [none andb]. rewrite !andb_false_r. destruct (json_loop L ind false false rest) as [r|]; [|reflexivity]. cbn [option_map entries vtext meta_text]. f_equal. rewrite <- !app_assoc. cbn [app]. now rewrite <- !app_assoc.
  - destruct ts as [|t ts]; [discriminate|]. cbn [map] in E. injection E as Et E. cbn [length] in Hn. cbn [map app]. rewrite loop_cons by (rewrite Et; discriminate). rewrite Et. cbn [is_end is_start]. cbv zeta. rewrite (IH ts rest ind false false E) by lia.
    cbn [none andb]. rewrite !andb_false_r. destruct (json_loop L ind false false rest) as [r|]; [|reflexivity]. cbn [option_map entries vtext meta_text]. f_equal. rewrite <- !app_assoc. cbn [app]. now rewrite <- !app_assoc.
  - destruct ts as [|t ts]; [discriminate|]. cbn [map] in E. injection E as Et E. cbn [length] in Hn. cbn [map app]. rewrite loop_cons by (rewrite Et; discriminate). rewrite Et. cbn [is_end is_start]. cbv zeta. rewrite (IH ts rest ind false false E) by lia.
    cbn [none andb]. rewrite !andb_false_r. destruct (json_loop L ind false false rest) as [r|]; [|reflexivity]. cbn [option_map entries vtext meta_text]. f_equal. rewrite <- !app_assoc. cbn [app]. now rewrite <- !app_assoc.
  - destruct ts as [|t ts]; [discriminate|]. cbn [map] in E. injection E as Et E. symmetry in E. cbn [length] in Hn. rewrite app_length in Hn. cbn [length] in Hn.
    assert (exists ts1 te ts2, ts = ts1 ++ te :: ts2 /\ map t_data ts1 = a1 /\ t_data te = MEnd k /\ map t_data ts2 = a) as (ts1 & te & ts2 & -> & E1 & Ee & E2).
    { clear - E. revert ts E. induction a1 as [|m a1 IH]; intros ts E; (destruct ts as [|t ts]; [discriminate|]); cbn [map app] in E; injection E as Et E.
      - exists [], t, ts. auto.
      - destruct (IH ts E) as (ts1 & te & ts2 & -> & A & B & C). exists (t :: ts1), te, ts2. cbn. rewrite A. subst. auto. }
    cbn [map app]. rewrite loop_cons by (rewrite Et; (discriminate || (intros _; lia))). rewrite Et. cbn [is_end is_start]. cbv zeta. rewrite map_app, <- app_assoc. cbn [map app].
    rewrite (IH1 ts1 _ (ind + 1)%N true false E1) by lia. rewrite loop_cons by (rewrite Ee; (discriminate || (intros _; lia))). rewrite Ee. cbn [is_end is_start]. cbv zeta. replace (ind + 1 - 1)%N with ind by lia.
    rewrite (IH ts2 rest ind false false E2) by lia. cbn [none andb]. rewrite !andb_false_r. destruct (json_loop L ind false false rest) as [r|]; [|reflexivity]. cbn [option_map entries vtext meta_text]. f_equal.
    replace (N.to_nat (ind + 1)) with (S (N.to_nat ind)) by lia. unfold sep at 2. cbn [negb andb]. rewrite andb_false_r. repeat (rewrite <- !app_assoc; cbn [app]). reflexivity.
Qed.
Lemma counts : forall a ms, nests a ms -> forall ts rest s e, map t_data ts = a -> count_kind (tx "start") rest = Some s -> count_kind (tx "end") rest = Some e ->
  exists n, count_kind (tx "start") (map token_data ts ++ rest) = Some (s + n)%N /\ count_kind (tx "end") (map token_data ts ++ rest) = Some (e + n)%N.
Proof.
  assert (LeafCase : forall t ts rest s e, is_end (t_data t) = false -> is_start (t_data t) = false ->
    (exists n, count_kind (tx "start") (map token_data ts ++ rest) = Some (s + n)%N /\ count_kind (tx "end") (map token_data ts ++ rest) = Some (e + n)%N) ->
    exists n, count_kind (tx "start") (map token_data (t :: ts) ++ rest) = Some (s + n)%N /\ count_kind (tx "end") (map token_data (t :: ts) ++ rest) = Some (e + n)%N).
  { intros t ts rest s e HE HS (n & A & B). exists n. cbn [map app count_kind]. destruct (kind_of t) as [-> ->]. rewrite A, B, HE, HS. auto. }
  intros a ms H. induction H as [|k b a ms H IH|k s0 a ms H IH|k x a ms H IH|k a1 ms1 a ms H1 IH1 H IH]; intros ts rest s e E Hs He.
  - destruct ts; [|discriminate]. exists 0%N. cbn [map app]. rewrite !N.add_0_r. auto.
  - destruct ts as [|t ts]; [discriminate|]. cbn [map] in E. injection E as Et E. apply LeafCase; [now rewrite Et|now rewrite Et|eauto].
  - destruct ts as [|t ts]; [discriminate|]. cbn [map] in E. injection E as Et E. apply LeafCase; [now rewrite Et|now rewrite Et|eauto].
  - destruct ts as [|t ts]; [discriminate|]. cbn [map] in E. injection E as Et E. apply LeafCase; [now rewrite Et|now rewrite Et|eauto].
  - destruct ts as [|t ts]; [discriminate|]. cbn [map] in E. injection E as Et E.
    assert (exists ts1 te ts2, ts = ts1 ++ te :: ts2 /\ map t_data ts1 = a1 /\ t_data te = MEnd k /\ map t_data ts2 = a) as (ts1 & te & ts2 & -> & E1 & Ee & E2).
    { clear - E. revert ts E. induction a1 as [|m a1 IH]; intros ts E; (destruct ts as [|t ts]; [discriminate|]); cbn [map app] in E; injection E as Et E.
      - exists [], t, ts. auto.
      - destruct (IH ts E) as (ts1 & te & ts2 & -> & A & B & C). exists (t :: ts1), te, ts2. cbn. rewrite A. subst. auto. }
    destruct (IH ts2 rest s e E2 Hs He) as (n & A & B).
    assert (A' : count_kind (tx "start") (token_data te :: map token_data ts2 ++ rest) = Some (s + n)%N) by (cbn [count_kind]; destruct (kind_of te) as [_ ->]; now rewrite A, Ee).
    assert (B' : count_kind (tx "end") (token_data te :: map token_data ts2 ++ rest) = Some (e + n + 1)%N) by (cbn [count_kind]; destruct (kind_of te) as [-> _]; now rewrite B, Ee).
    destruct (IH1 ts1 _ _ _ E1 A' B') as (n1 & A1 & B1). exists (n + n1 + 1)%N. cbn [map app count_kind]. rewrite map_app, <- app_assoc. cbn [map app]. destruct (kind_of t) as [-> ->]. rewrite A1, B1, Et. cbn [is_end is_start]. split; f_equal; lia.
Qed.
(** The text of nested tokens. *)
Lemma json_tree : forall ts ms, nests (map t_data ts) ms -> (N.of_nat (length ts) < 4294967296)%N ->
  json_from_meta_data L (syntax_data ts) = Some (entries (vtext 0) 0 true true ms ++ [10%N]).
Proof.
  intros ts ms H Hn. unfold json_from_meta_data, syntax_data. destruct (counts _ _ H ts [] 0%N 0%N eq_refl eq_refl eq_refl) as (n & A & B). rewrite app_nil_r in A, B. rewrite A, B.
  replace (N.max (u32 (0 + n)) (u32 (0 + n)) - N.min (u32 (0 + n)) (u32 (0 + n)))%N with 0%N by lia. pose proof (loop_tree _ _ H ts [] 0%N true true eq_refl) as T. rewrite app_nil_r in T. rewrite T by (rewrite map_length; lia). cbn [json_loop option_map]. now rewrite app_nil_r.
Qed.
End Text.
(** There is a text for all tokens of a parser. *)
Theorem C70_total : forall L ts ms, nests (map t_data ts) ms -> (N.of_nat (length ts) < 2 ^ 32)%N -> exists j, json_from_meta_data L (syntax_data ts) = Some j.
Proof. intros L ts ms H Hn. eexists. now apply json_tree with (ms := ms). Qed.
Print Assumptions C70_total.

Inductive finite_tree : mtree -> Prop :=
| ft_leaf v : match v with LNum x => finite x | _ => True end -> finite_tree (MLeaf v)
| ft_node ms : Forall (fun kt => finite_tree (snd kt)) ms -> finite_tree (MNode ms).
Section TreeInd.
Variable P : mtree -> Prop.
Hypotheses (Hleaf : forall v, match v with LNum x => finite x | _ => True end -> P (MLeaf v)) (Hnode : forall ms, Forall (fun kt => P (snd kt)) ms -> P (MNode ms)).
Fixpoint finite_tree_all t (h : finite_tree t) {struct h} : P t :=
  match h in finite_tree t return P t with
  | ft_leaf v h => Hleaf v h
  | ft_node ms f => Hnode ms ((fix go ms (f : Forall (fun kt => finite_tree (snd kt)) ms) : Forall (fun kt => P (snd kt)) ms :=
       match f with Forall_nil _ => Forall_nil _ | Forall_cons x h t => Forall_cons x (finite_tree_all _ h) (go _ t) end) ms f)
  end.
End TreeInd.
(** ** Reading it *)
Section Read.
Context (L : lib) (HL : laws L) (HF : format_laws L).
Notation freads := (freads L).
Lemma insert_latest : forall l seen k v, existsb (text_eqb k) seen = false -> latest_ seen (l ++ [(k, v)]) = insert k v (latest_ seen l).
Proof.
  assert (R : forall a, text_eqb a a = true) by (intros a; unfold text_eqb; destruct (list_eq_dec N.eq_dec a a); congruence).
  assert (Q : forall a b, text_eqb a b = true -> a = b) by (intros a b; unfold text_eqb; destruct (list_eq_dec N.eq_dec a b); congruence).
  assert (SEEN : forall l seen k v, existsb (text_eqb k) seen = true -> latest_ seen (l ++ [(k, v)]) = latest_ seen l).
  { induction l as [|[k2 v2] l IH]; intros seen k v H; [cbn; now rewrite H|]. cbn [app latest_]. destruct (existsb (text_eqb k2) seen) eqn:E2; [now apply IH|]. f_equal; [|apply IH; cbn; now rewrite H, orb_true_r].
    unfold last_of. rewrite fold_left_app. cbn [fold_left fst snd]. destruct (text_eqb k k2) eqn:E; [|reflexivity]. apply Q in E. congruence. }
  induction l as [|[k2 v2] l IH]; intros seen k v H; [cbn; now rewrite H|]. cbn [app latest_]. destruct (existsb (text_eqb k2) seen) eqn:E2; [now apply IH|]. cbn [insert].
  unfold last_of at 1. rewrite fold_left_app. cbn [fold_left fst snd]. destruct (text_eqb k k2) eqn:E.
  - apply Q in E. subst k2. rewrite R. f_equal. apply SEEN. cbn. now rewrite R.
  - assert (text_eqb k2 k = false) as ->. { destruct (text_eqb k2 k) eqn:F; [|reflexivity]. apply Q in F. subst. now rewrite R in E. } f_equal. apply IH. cbn. now rewrite E, H.
Qed.
Lemma insert_all : forall l, fold_left (fun r kv => insert (fst kv) (snd kv) r) l [] = latest l.
Proof.
  intros l. induction l as [|[k v] l IH] using rev_ind; [reflexivity|]. rewrite fold_left_app. cbn [fold_left fst snd]. rewrite IH. unfold latest. now rewrite insert_latest.
Qed.
Lemma insert_some : forall k v l, insert k v l <> [].
Proof. intros k v [|[k2 v2] l]; [discriminate|]. cbn. destruct (text_eqb k2 k); discriminate. Qed.
Definition jentry (kv : text * data) (e : text) : Prop := exists t, e = quote L (fst kv) ++ 58%N :: t /\ freads (snd kv) t.
Lemma quote_solid : forall k r, solid L (quote L k ++ r).
Proof. intros k r. destruct (l_quote L HL k) as [q ->]. apply (solid_print L HL); lia. Qed.
Lemma jentry_solid : forall kv e, jentry kv e -> forall r, solid L (e ++ r).
Proof. intros kv e (t & -> & _) r. rewrite <- app_assoc. apply quote_solid. Qed.
Lemma jobject : forall m items kvs, Forall2 (fun kv i => item_ok (jentry kv) i) kvs items -> Forall (fun t => length t < m) (bodies items) ->
  forall n res wc w0 v0 rest T, length items < n -> gap w0 -> (res = [] \/ wc = true \/ items = []) -> gaps v0 -> seq_text items w0 (125%N :: rest) = v0 ++ T -> solid L T ->
  object_ L (expr L m) n res wc T = POk (DObject (fold_left (fun r kv => insert (fst kv) (snd kv) r) kvs res)) rest.
Proof.
  intros m items kvs H. induction H as [|[k v] [[w t] u] kvs items (Gw & R & Gu) F IH]; intros Hl n res wc w0 v0 rest T Hn G0 Hw Gv E S.
  - destruct n as [|n]; [simpl in Hn; lia|]. cbn [seq_text] in E. cbn [object_]. rewrite opt_w_solid by exact S.
    assert (T = 125%N :: rest) as ->. { rewrite <- (skip_gap L HL HF v0 T Gv S), <- E. apply skip_gap; auto; [now apply gap_gaps|apply (solid_print L HL); lia]. }
    reflexivity.
  - inversion Hl as [|? ? Ht Hl']; subst. cbn [bodies map snd fst] in *. destruct n as [|n]; [simpl in Hn; lia|]. cbn [length] in Hn.
    assert (negb (match res with [] => true | _ => false end) && negb wc = false) as G.
    { destruct Hw as [->|[->|?]]; [reflexivity| |discriminate]. destruct res; reflexivity. }
    destruct (seq_split L HL HF (fun t => exists kv, jentry kv t) w t u items w0 125%N rest Gu G0) as (X & EX & FX & Y & v1 & CX & EY & GY & SY); [simpl; auto| | |].
    { clear - F. induction F as [|v i vs is Hi F IH]; intros j Hj; [destruct Hj|]. destruct Hj as [<-|Hj]; [|auto]. destruct i as [[a b] c]. destruct Hi as (A & B & C). split; [exact A|split; [now exists v|exact C]]. }
    { intros t0 (v2 & R2) r. exact (jentry_solid v2 t0 R2 r). }
    apply (eq_trans (eq_sym EX)) in E. assert (T = t ++ X) as ->. { rewrite <- (skip_gap L HL HF v0 T Gv S), <- E. apply skip_gap; auto; [now apply gap_gaps|now apply jentry_solid with (k, v)]. }
    destruct R as (t1 & -> & R). cbn [fst snd] in *. rewrite <- !app_assoc in *. cbn [app] in *.
    cbn [object_]. rewrite opt_w_solid by exact S. rewrite (l_str L HL).
    assert (tag (tx "}") (quote L k ++ 58%N :: t1 ++ X) = None) as ->. { destruct (l_quote L HL k) as [q ->]. reflexivity. }
    rewrite G. rewrite opt_w_solid by (apply (solid_print L HL); lia). change (tx ":") with [58%N]. cbn [tag]. rewrite N.eqb_refl. destruct R as [St R]. rewrite opt_w_solid by (apply (starts_solid L HL); auto).
    rewrite R by (auto; rewrite !app_length in Ht; cbn [length] in Ht; lia). rewrite CX. cbn [fold_left fst snd]. rewrite (IH Hl' n (insert k v res) _ w0 v1 rest Y); auto; [lia|destruct items; auto].
Qed.
Lemma jobject_freads : forall kvs items w0, gap w0 -> Forall2 (fun kv i => item_ok (jentry kv) i) kvs items -> freads (DObject (latest kvs)) (123%N :: seq_text items w0 [125%N]).
Proof.
  intros kvs items w0 G F. split; [simpl; auto 10|]. intros [|m] rest Hm _; [simpl in Hm; lia|]. cbn [length] in Hm. change ((123%N :: seq_text items w0 [125%N]) ++ rest) with (tx "{" ++ (seq_text items w0 [125%N] ++ rest)).
  rewrite object_expr, seq_app. cbn [app].
  destruct (seq_head L HL (fun t => exists v, jentry v t) items w0 125%N rest G) as (v & Y & E & Gv & S); [simpl; auto|exact (item_all _ _ _ _ F)|intros t (v & R) r; exact (jentry_solid v t R r)|].
  rewrite E, object_skip by assumption. rewrite <- insert_all. eapply eq_trans; [apply (jobject m items kvs F) with (w0 := w0) (v0 := v) (rest := rest); auto|reflexivity].
  - apply Forall_forall. intros t Ht. pose proof (seq_size items w0 [125%N] t Ht). lia.
  - assert (length items <= length (seq_text items w0 [125%N])); [|lia]. apply seq_count. eapply bodies_all; [|exact F]. intros x t (t1 & -> & _). rewrite app_length. cbn. lia.
Qed.
(** The items of a node *)
Definition item1 (vt : mtree -> text) (d : nat) (kt : text * mtree) : item := (10%N :: repeat 32%N d, quote L (fst kt) ++ 58%N :: vt (snd kt), []).
Lemma entries_seq : forall vt d ms w0 r, entries L vt d true false ms ++ w0 ++ r = seq_text (map (item1 vt d) ms) w0 r.
Proof.
  intros vt d ms w0 r. assert (K : forall ms, ms <> [] -> entries L vt d false false ms ++ w0 ++ r = 44%N :: seq_text (map (item1 vt d) ms) w0 r).
  { clear ms. induction ms as [|[k t] ms IH]; intros N; [congruence|]. cbn [entries map]. unfold item1 at 1. rewrite seq_cons. cbn [fst snd sep negb andb]. repeat (rewrite <- !app_assoc; cbn [app]). do 2 f_equal. f_equal. f_equal. f_equal. f_equal. destruct ms as [|kt ms]; [reflexivity|]. rewrite IH by discriminate. reflexivity. }
  destruct ms as [|[k t] ms]; [reflexivity|]. cbn [entries map]. unfold item1 at 1. rewrite seq_cons. cbn [fst snd sep negb andb]. repeat (rewrite <- !app_assoc; cbn [app]). do 2 f_equal. f_equal. f_equal. f_equal. destruct ms as [|kt ms]; [reflexivity|]. rewrite K by discriminate. reflexivity.
Qed.
Lemma items_ok : forall vt d ms, Forall (fun kt : text * mtree => freads (value_of (snd kt)) (vt (snd kt))) ms ->
  Forall2 (fun kv i => item_ok (jentry kv) i) (map (fun kt => (fst kt, value_of (snd kt))) ms) (map (item1 vt d) ms).
Proof.
  intros vt d ms H. induction H as [|[k t] ms Ht H IH]; [constructor|]. cbn [map fst snd]. constructor; [|exact IH]. split; [right; now exists d|]. split; [|now left]. now exists (vt t).
Qed.
Lemma vtext_reads : forall t, finite_tree t -> forall d, freads (value_of t) (vtext L d t).
Proof.
  apply (finite_tree_all (fun t => forall d, freads (value_of t) (vtext L d t))).
  - intros v Hv d. destruct v as [b|s|x]; cbn [value_of leaf_data vtext leaf_text]; [apply (bool_freads L HL)|apply (str_freads L HL)|now apply (num_freads L HL HF)].
  - intros ms F d. cbn [value_of vtext].
    assert (E : entries L (vtext L (S d)) (S d) true false ms ++ 10%N :: repeat 32%N d ++ [125%N] = seq_text (map (item1 (vtext L (S d)) (S d)) ms) (10%N :: repeat 32%N d) [125%N]) by (rewrite <- entries_seq; cbn [app]; reflexivity).
    rewrite E. apply jobject_freads; [right; now exists d|]. apply items_ok. eapply Forall_impl; [|exact F]. intros kt H. exact (H (S d)).
Qed.
Lemma nests_finite : forall a ms, nests a ms -> Forall finite_meta a -> Forall (fun kt => finite_tree (snd kt)) ms.
Proof.
  intros a ms H. induction H as [|k b a ms H IH|k s a ms H IH|k x a ms H IH|k a1 ms1 a ms H1 IH1 H IH]; intros F; [constructor| | | |].
  - inversion F; subst. constructor; [now apply ft_leaf|auto].
  - inversion F; subst. constructor; [now apply ft_leaf|auto].
  - inversion F; subst. constructor; [now apply ft_leaf|auto].
  - inversion F as [|? ? _ F']; subst. apply Forall_app in F'. destruct F' as [F1 F2]. inversion F2; subst. constructor; [apply ft_node; auto|auto].
Qed.
(** What is written is read as the object of the tree. *)
Lemma C70_load_ : forall ts ms j, nests (map t_data ts) ms -> (N.of_nat (length ts) < 2 ^ 32)%N -> Forall finite_meta (map t_data ts) ->
  json_from_meta_data L (syntax_data ts) = Some j -> load_data L (tx "{" ++ j ++ tx "}") = POk (object_of ms) [].
Proof.
  intros ts ms j H Hn F E. rewrite (json_tree L ts ms H) in E by exact Hn. injection E as <-. pose proof (nests_finite _ _ H F) as FT. unfold load_data. assert (SO : forall x, opt_w L (tx "{" ++ x) = tx "{" ++ x) by (intros x; apply opt_w_solid; apply (solid_print L HL 123%N); lia). rewrite SO.
  rewrite <- app_assoc.
  assert (exists items, Forall2 (fun kv i => item_ok (jentry kv) i) (map (fun kt => (fst kt, value_of (snd kt))) ms) items /\ forall w0 r, entries L (vtext L 0) 0 true true ms ++ w0 ++ r = seq_text items w0 r) as (items & FI & EI).
  { assert (FR : Forall (fun kt : text * mtree => freads (value_of (snd kt)) (vtext L 0 (snd kt))) ms) by (eapply Forall_impl; [|exact FT]; intros kt Hk; now apply vtext_reads).
    destruct ms as [|[k t] ms]; [exists []; split; [constructor|reflexivity]|]. exists (([], quote L k ++ 58%N :: vtext L 0 t, []) :: map (item1 (vtext L 0) 0) ms). inversion FR as [|? ? R1 R2]; subst. cbn [snd] in R1. split.
    - cbn [map fst snd]. constructor; [|now apply items_ok]. split; [now left|]. split; [now exists (vtext L 0 t)|now left].
    - intros w0 r. pose proof (entries_seq (vtext L 0) 0 ((k, t) :: ms) w0 r) as ES. cbn [map] in ES. unfold item1 at 1 in ES. rewrite seq_cons in ES. cbn [entries fst snd sep negb andb repeat app] in ES. rewrite seq_cons. cbn [entries sep negb andb repeat app]. injection ES as ES. exact ES. }
  assert (gap [10%N]) as G by (right; now exists 0). destruct (jobject_freads _ items [10%N] G FI) as [_ J].
  rewrite (EI [10%N] (tx "}")). specialize (J (S (length (tx "{" ++ seq_text items [10%N] (tx "}")))) []). rewrite app_nil_r in J. apply J; [cbn; lia|exact Logic.I].
Qed.
End Read.

Theorem C70_load : forall L, laws L -> format_laws L -> forall ts ms j, nests (map t_data ts) ms -> (N.of_nat (length ts) < 2 ^ 32)%N -> Forall finite_meta (map t_data ts) ->
  json_from_meta_data L (syntax_data ts) = Some j -> load_data L (tx "{" ++ j ++ tx "}") = POk (object_of ms) [].
Proof. exact C70_load_. Qed.
Print Assumptions C70_load.

(** ** No two trees have the same text, names that come again included. *)
Section Unique.
Context (L : lib) (HL : laws L) (HF : format_laws L).
Lemma quote_app : forall a b r s, quote L a ++ r = quote L b ++ s -> a = b /\ r = s.
Proof. intros a b r s E. pose proof (l_str L HL a r) as A. rewrite E, (l_str L HL) in A. injection A as -> ->. auto. Qed.
Definition after_value (r : text) : Prop := match r with [] => True | c :: _ => c = 44%N \/ c = 10%N end.
Lemma num_app : forall x y r s, finite x -> finite y -> after_value r -> after_value s -> show64 L x ++ r = show64 L y ++ s -> x = y /\ r = s.
Proof.
  assert (N : forall x r, finite x -> after_value r -> num L (show64 L x ++ r) = Some (Some (x, r))).
  { intros x [|c r] Hx Hr; [apply (l_num L HL); [exact Hx|exact Logic.I]|]. destruct Hr as [->| ->]; [apply (l_num L HL); [exact Hx|simpl; auto]|now apply (f_num L HF)]. }
  intros x y r s Hx Hy Hr Hs E. pose proof (N x r Hx Hr) as A. rewrite E, N in A by assumption. injection A as -> ->. auto.
Qed.
Lemma spaces_app : forall n m c d r s, c <> 32%N -> d <> 32%N -> repeat 32%N n ++ c :: r = repeat 32%N m ++ d :: s -> n = m /\ c :: r = d :: s.
Proof.
  induction n as [|n IH]; intros [|m] c d r s Hc Hd E; cbn [repeat app] in E; [auto|congruence|congruence|]. injection E as E. destruct (IH m c d r s Hc Hd E) as [-> ?]. auto.
Qed.
Lemma loop_after : forall ind zero ts x, json_loop L ind false zero (map token_data ts) = Some x -> zero = false -> after_value x.
Proof.
  intros ind zero [|t ts] x H ->; cbn [map] in H; [injection H as <-; exact Logic.I|]. cbn [json_loop] in H. destruct (kind_of t) as [E _]. rewrite E in H. destruct (is_end (t_data t) && (ind =? 0)%N); [discriminate|]. rewrite item_of in H.
  destruct (is_start (t_data t) && _); [discriminate|]. destruct (json_loop L _ _ _ _); [|discriminate]. injection H as <-. destruct (is_end (t_data t)); cbn; auto.
Qed.
(** What the end of a node is called is not written. *)
Definition erase (m : meta) : meta := match m with MEnd _ => MEnd [] | m => m end.
Lemma text_head : forall m, exists c r, meta_text L m = c :: r /\ c <> 32%N /\ (c = 125%N <-> is_end m = true).
Proof.
  intros m. destruct m as [k b|k s|k x|k|k]; cbn [meta_text is_end]; try (destruct (l_quote L HL k) as [q ->]; cbn [app]; eexists _, _; split; [reflexivity|]; split; [discriminate|split; discriminate]). eexists _, _. split; [reflexivity|]. split; [discriminate|tauto].
Qed.
Lemma meta_app : forall m n r s, finite_meta m -> finite_meta n -> (is_start m = false -> after_value r) -> (is_start n = false -> after_value s) -> meta_text L m ++ r = meta_text L n ++ s -> erase m = erase n /\ r = s.
Proof.
  assert (NH : forall x, finite x -> exists c q, show64 L x = c :: q /\ (c = 45 \/ 48 <= c <= 57)%N).
  { intros x Hx. destruct (l_show L HL x Hx) as (c & q & E & I0). exists c, q. split; [exact E|]. cbn in I0. repeat (destruct I0 as [<-|I0]; [lia|]). destruct I0. }
  assert (QH : forall s, exists q, quote L s = 34%N :: q) by (intros s; apply (l_quote L HL)).
  intros m n r s Hm Hn Hr Hs E. destruct (text_head m) as (c & q & Em & _ & Cm). destruct (text_head n) as (d & q2 & En & _ & Cn). rewrite Em, En in E. cbn [app] in E. injection E as Ec Eq.
  assert (EE : is_end m = is_end n). { apply eq_true_iff_eq. rewrite <- Cm, <- Cn, Ec. reflexivity. }
  assert (E : meta_text L m ++ r = meta_text L n ++ s) by (rewrite Em, En; cbn [app]; congruence). clear c q d q2 Em En Cm Cn Ec Eq.
  assert (MM : is_end m = true -> erase m = erase n /\ r = s).
  { intros T. rewrite T in EE. destruct m; try discriminate. destruct n; try discriminate. cbn in E. injection E as ->. auto. }
  destruct (is_end m) eqn:T; [now apply MM|]. clear MM.
  assert (exists k v, meta_text L m = quote L k ++ 58%N :: v) as (k & v & Xm) by (destruct m; cbn [meta_text]; eauto; discriminate).
  assert (exists k v, meta_text L n = quote L k ++ 58%N :: v) as (k2 & v2 & Xn) by (destruct n; cbn [meta_text]; eauto; discriminate).
  destruct m as [a b|a b|a b|a|a]; try discriminate; destruct n as [a2 b2|a2 b2|a2 b2|a2|a2]; try discriminate; cbn [meta_text leaf_text finite_meta is_start] in *; clear Xm Xn k v k2 v2;
    rewrite <- !app_assoc in E; cbn [app] in E; apply quote_app in E; destruct E as [-> E]; injection E as E;
    repeat match goal with
    | H : finite ?x |- _ => lazymatch goal with K : exists c q, show64 L x = _ /\ _ |- _ => fail | _ => pose proof (NH x H) end
    end;
    try (destruct (QH b) as [qb Qb]); try (destruct (QH b2) as [qb2 Qb2]).
  all: cbn [erase];
    repeat match goal with H : exists c q, show64 L _ = _ /\ _ |- _ => let c := fresh "c" in let q := fresh "q" in let S := fresh "S" in let R := fresh "R" in destruct H as (c & q & S & R) end.
  1: destruct b, b2; cbn [app] in E; try discriminate; injection E as ->; auto.
  5: apply quote_app in E; destruct E as [-> ->]; auto.
  9: apply num_app in E; auto; destruct E as [-> ->]; auto.
  13: auto.
  all: exfalso; repeat match goal with b : bool |- _ => destruct b end; repeat match goal with H : quote L _ = _ |- _ => rewrite H in E; clear H | H : show64 L _ = _ |- _ => rewrite H in E; clear H end; cbn [app] in E; injection E; intros; try discriminate; lia.
Qed.
Lemma loop_unique : forall a b ind first zero x y, json_loop L ind first zero (map token_data a) = Some x -> json_loop L ind first zero (map token_data b) = Some y -> (zero = true -> first = true) -> x = y ->
  Forall finite_meta (map t_data a) -> Forall finite_meta (map t_data b) -> map erase (map t_data a) = map erase (map t_data b).
Proof.
  assert (NE : forall t l ind first zero, json_loop L ind first zero (map token_data (t :: l)) <> Some []).
  { intros t l ind first zero H. cbn [map json_loop] in H. destruct (kind_of t) as [E _]. rewrite E in H. destruct (is_end (t_data t) && (ind =? 0)%N); [discriminate|]. rewrite item_of in H. destruct (is_start (t_data t) && _); [discriminate|]. destruct (json_loop L _ _ _ _); [|discriminate].
    injection H as H. apply app_eq_nil in H. destruct H as [_ H]. apply app_eq_nil in H. destruct H as [_ H]. apply app_eq_nil in H. destruct H as [H _]. destruct (text_head (t_data t)) as (c & r & E2 & _). congruence. }
  induction a as [|t a IH]; intros [|u b] ind first zero x y Ha Hb Hz E Fa Fb; [reflexivity| | |]; subst y.
  - cbn in Ha. injection Ha as <-. now apply NE in Hb.
  - cbn in Hb. injection Hb as <-. now apply NE in Ha.
  - cbn [map] in *. inversion Fa as [|? ? F1 Fa']; subst. inversion Fb as [|? ? F2 Fb']; subst. cbn [json_loop] in Ha, Hb. destruct (kind_of t) as [Et _]. destruct (kind_of u) as [Eu _]. rewrite Et in Ha. rewrite Eu in Hb. rewrite item_of in Ha, Hb.
    destruct (is_end (t_data t) && (ind =? 0)%N); [discriminate|]. destruct (is_end (u.(t_data)) && (ind =? 0)%N); [discriminate|].
    destruct (is_start (t_data t) && _); [discriminate|]. destruct (is_start (t_data u) && _); [discriminate|].
    destruct (json_loop L _ _ _ (map token_data a)) as [xa|] eqn:Ja; [|discriminate]. destruct (json_loop L _ _ _ (map token_data b)) as [xb|] eqn:Jb; [|discriminate]. injection Ha as Ha. injection Hb as Hb. rewrite <- Hb in Ha. clear Hb x.
    destruct (text_head (t_data t)) as (c & r & Tt & Nc & Ct). destruct (text_head (t_data u)) as (d & s & Tu & Nd & Cu).
    assert (EE : is_end (t_data t) = is_end (t_data u) /\ meta_text L (t_data t) ++ xa = meta_text L (t_data u) ++ xb).
    { rewrite Tt, Tu in *. cbn [app] in Ha |- *. destruct (is_end (t_data t)) eqn:A, (is_end (t_data u)) eqn:B; cbn [negb andb] in Ha; rewrite ?andb_false_r, ?andb_true_r in Ha.
      - apply app_inv_head in Ha. apply spaces_app in Ha; auto. tauto.
      - exfalso. assert (c = 125%N) by now apply Ct. assert (d <> 125%N) by (intros Q; apply Cu in Q; discriminate). destruct first; cbn [negb] in Ha.
        + apply app_inv_head in Ha. apply spaces_app in Ha; auto. destruct Ha as [_ Ha]. congruence.
        + destruct zero; [specialize (Hz eq_refl); discriminate|]. cbn in Ha. discriminate.
      - exfalso. assert (d = 125%N) by now apply Cu. assert (c <> 125%N) by (intros Q; apply Ct in Q; discriminate). destruct first; cbn [negb] in Ha.
        + apply app_inv_head in Ha. apply spaces_app in Ha; auto. destruct Ha as [_ Ha]. congruence.
        + destruct zero; [specialize (Hz eq_refl); discriminate|]. cbn in Ha. discriminate.
      - apply app_inv_head in Ha. apply spaces_app in Ha; auto. tauto. }
    destruct EE as [EE EM]. assert (forall m : meta, is_start m = true -> is_end m = false) as SE by (intros []; (reflexivity || discriminate)).
    apply meta_app in EM; auto; [|intros S; rewrite S in Ja; eapply loop_after; [exact Ja|reflexivity]|intros S; rewrite S in Jb; eapply loop_after; [exact Jb|reflexivity]]. destruct EM as [Er ->]. f_equal; [exact Er|].
    assert (ES : is_start (t_data t) = is_start (t_data u)) by (destruct (t_data t), (t_data u); cbn in Er |- *; congruence). rewrite <- EE, <- ES in Jb. eapply IH; [exact Ja|exact Jb|discriminate|reflexivity|exact Fa'|exact Fb'].
Qed.
Definition ended (r : list meta) : Prop := match r with [] => True | m :: _ => is_end m = true end.
Lemma nests_unique : forall a ms, nests a ms -> forall b ns ra rb, nests b ns -> ended ra -> ended rb -> map erase (a ++ ra) = map erase (b ++ rb) -> a = b /\ ms = ns /\ map erase ra = map erase rb.
Proof.
  intros a ms H. induction H as [|k x a ms H IH|k x a ms H IH|k x a ms H IH|k a1 ms1 a ms H1 IH1 H IH]; intros b ns ra rb Hb Ra Rb E.
  - destruct Hb; [auto|..]; (destruct ra as [|m ra]; [discriminate|]; cbn in Ra, E; destruct m; try discriminate).
  - destruct Hb as [|k2 x2 b ns Hb|k2 x2 b ns Hb|k2 x2 b ns Hb|k2 b1 ns1 b ns Hb1 Hb]; cbn [map app erase] in E; try discriminate; [destruct rb as [|m rb]; [discriminate|]; cbn in Rb, E; destruct m; discriminate|]. injection E as -> -> E. destruct (IH _ _ _ _ Hb Ra Rb E) as (-> & -> & ?). auto.
  - destruct Hb as [|k2 x2 b ns Hb|k2 x2 b ns Hb|k2 x2 b ns Hb|k2 b1 ns1 b ns Hb1 Hb]; cbn [map app erase] in E; try discriminate; [destruct rb as [|m rb]; [discriminate|]; cbn in Rb, E; destruct m; discriminate|]. injection E as -> -> E. destruct (IH _ _ _ _ Hb Ra Rb E) as (-> & -> & ?). auto.
  - destruct Hb as [|k2 x2 b ns Hb|k2 x2 b ns Hb|k2 x2 b ns Hb|k2 b1 ns1 b ns Hb1 Hb]; cbn [map app erase] in E; try discriminate; [destruct rb as [|m rb]; [discriminate|]; cbn in Rb, E; destruct m; discriminate|]. injection E as -> -> E. destruct (IH _ _ _ _ Hb Ra Rb E) as (-> & -> & ?). auto.
  - destruct Hb as [|k2 x2 b ns Hb|k2 x2 b ns Hb|k2 x2 b ns Hb|k2 b1 ns1 b ns Hb1 Hb]; cbn [map app erase] in E; try discriminate; [destruct rb as [|m rb]; [discriminate|]; cbn in Rb, E; destruct m; discriminate|].
    injection E as -> E. rewrite <- !app_assoc in E. cbn [app] in E. destruct (IH1 b1 ns1 (MEnd k2 :: a ++ ra) (MEnd k2 :: b ++ rb) Hb1 eq_refl eq_refl E) as (-> & -> & E2). cbn [map erase] in E2. injection E2 as E2.
    destruct (IH _ _ _ _ Hb Ra Rb E2) as (-> & -> & ?). auto.
Qed.
Lemma unique_ : forall a b ms ns j, nests (map t_data a) ms -> nests (map t_data b) ns -> (N.of_nat (length a) < 2 ^ 32)%N -> (N.of_nat (length b) < 2 ^ 32)%N ->
  Forall finite_meta (map t_data a) -> Forall finite_meta (map t_data b) -> json_from_meta_data L (syntax_data a) = Some j -> json_from_meta_data L (syntax_data b) = Some j ->
  map t_data a = map t_data b /\ ms = ns.
Proof.
  intros a b ms ns j Ha Hb La Lb Fa Fb Ja Jb.
  assert (Z : forall ts ms', nests (map t_data ts) ms' -> (N.of_nat (length ts) < 2 ^ 32)%N -> json_from_meta_data L (syntax_data ts) = Some j -> exists x, json_loop L 0 true true (map token_data ts) = Some x /\ j = x ++ [10%N]).
  { intros ts ms' H Hn J. rewrite (json_tree L ts ms' H Hn) in J. injection J as <-. eexists. split; [|reflexivity]. pose proof (loop_tree L _ _ H ts [] 0%N true true eq_refl) as T. rewrite app_nil_r in T. rewrite T by (rewrite map_length; lia). cbn. now rewrite app_nil_r. }
  destruct (Z a ms Ha La Ja) as (x & Xa & ->). destruct (Z b ns Hb Lb Jb) as (y & Xb & E). apply app_inv_tail in E.
  pose proof (loop_unique a b 0%N true true x y Xa Xb (fun _ => eq_refl) E Fa Fb) as U. destruct (nests_unique _ _ Ha _ _ [] [] Hb Logic.I Logic.I) as (A & B & _); [now rewrite !app_nil_r|auto].
Qed.
End Unique.
Theorem C70_unique : forall L, laws L -> format_laws L -> forall a b ms ns j, nests (map t_data a) ms -> nests (map t_data b) ns -> (N.of_nat (length a) < 2 ^ 32)%N -> (N.of_nat (length b) < 2 ^ 32)%N ->
  Forall finite_meta (map t_data a) -> Forall finite_meta (map t_data b) -> json_from_meta_data L (syntax_data a) = Some j -> json_from_meta_data L (syntax_data b) = Some j ->
  map t_data a = map t_data b /\ ms = ns.
Proof. exact unique_. Qed.
Print Assumptions C70_unique.

(** ** Example: `sum { x: 1, x: 2, in { ok: true, s: .. }, none {} }`. *)
Definition tokens_ : list token :=
  [Token 0 30 (MStart (tx "sum")); Token 4 1 (MF64 (tx "x") f1); Token 8 1 (MF64 (tx "x") (f_of_Z 2)); Token 10 9 (MStart (tx "in")); Token 12 4 (MBool (tx "ok") true);
   Token 20 3 (MString (tx "a b") (34%N :: tx "y")); Token 24 1 (MEnd (tx "in")); Token 25 1 (MStart (tx "none")); Token 26 1 (MEnd (tx "none")); Token 30 0 (MEnd (tx "sum")); Token 30 1 (MBool [] false)].
Definition tree_ : list (text * mtree) :=
  [(tx "sum", MNode [(tx "x", MLeaf (LNum f1)); (tx "x", MLeaf (LNum (f_of_Z 2))); (tx "in", MNode [(tx "ok", MLeaf (LBool true)); (tx "a b", MLeaf (LStr (34%N :: tx "y")))]); (tx "none", MNode [])]); ([], MLeaf (LBool false))].
Example C70_example_nests : nests (map t_data tokens_) tree_ /\ Forall finite_meta (map t_data tokens_) /\ Forall placed tokens_.
Proof.
  split; [|split; [cbn; repeat (constructor; [exact Logic.I|]); constructor|unfold tokens_; repeat (constructor; [split; cbn; lia|]); constructor]]. unfold tokens_, tree_. cbn [map t_data].
  apply (n_node (tx "sum") [MF64 (tx "x") f1; MF64 (tx "x") (f_of_Z 2); MStart (tx "in"); MBool (tx "ok") true; MString (tx "a b") (34%N :: tx "y"); MEnd (tx "in"); MStart (tx "none"); MEnd (tx "none")] _ [MBool [] false]); [|apply n_bool, n_nil].
  apply n_num, n_num. apply (n_node (tx "in") [MBool (tx "ok") true; MString (tx "a b") (34%N :: tx "y")] _ [MStart (tx "none"); MEnd (tx "none")]); [apply n_bool, n_str, n_nil|]. apply (n_node (tx "none") [] _ []); apply n_nil.
Qed.
Definition lines (l : list text) : text := concat (map (fun t => t ++ [10%N]) l).
Definition q (s : string) : text := 34%N :: tx s ++ [34%N].
Example C70_example_json : json_from_meta_data lib0 (syntax_data tokens_) = Some (lines
  [q "sum" ++ tx ":{"; tx " " ++ q "x" ++ tx ":" ++ show64 lib0 f1 ++ tx ","; tx " " ++ q "x" ++ tx ":" ++ show64 lib0 (f_of_Z 2) ++ tx ",";
   tx " " ++ q "in" ++ tx ":{"; tx "  " ++ q "ok" ++ tx ":true,"; tx "  " ++ q "a b" ++ tx ":" ++ quote lib0 (34%N :: tx "y"); tx " },"; tx " " ++ q "none" ++ tx ":{"; tx " }"; tx "},"; q "" ++ tx ":false"]).
Proof. vm_compute. reflexivity. Qed.
Example C70_example_load : object_of tree_ = DObject [(tx "sum", DObject [(tx "x", DNum (f_of_Z 2)); (tx "in", DObject [(tx "ok", DBool true); (tx "a b", DStr (34%N :: tx "y"))]); (tx "none", DObject [])]); ([], DBool false)].
Proof. vm_compute. reflexivity. Qed.

(** ** Refutations *)
(** Read as data, of two members with the same name one is lost: repeated nodes are the usual output of a grammar. *)
Theorem C70_same_name_refuted : exists a b j k, a <> b /\ nests (map t_data a) [(tx "x", MLeaf (LNum f1)); (tx "x", MLeaf (LNum (f_of_Z 2)))] /\ nests (map t_data b) [(tx "x", MLeaf (LNum (f_of_Z 2)))] /\
  json_from_meta_data lib0 (syntax_data a) = Some j /\ json_from_meta_data lib0 (syntax_data b) = Some k /\ load_data lib0 (tx "{" ++ j ++ tx "}") = load_data lib0 (tx "{" ++ k ++ tx "}").
Proof.
  exists [Token 0 1 (MF64 (tx "x") f1); Token 1 1 (MF64 (tx "x") (f_of_Z 2))], [Token 0 1 (MF64 (tx "x") (f_of_Z 2))]. eexists _, _. split; [discriminate|]. split; [apply n_num, n_num, n_nil|]. split; [apply n_num, n_nil|]. split; [vm_compute; reflexivity|]. split; [vm_compute; reflexivity|]. vm_compute. reflexivity.
Qed.
Print Assumptions C70_same_name_refuted.
(** The function is declared for arrays of arrays, and panics for a short array and for an end without a start. *)
Theorem C70_short_refuted : forall L, json_from_meta_data L [DArray []] = None. Proof. reflexivity. Qed.
Theorem C70_order_refuted : forall L a b, json_from_meta_data L (syntax_data [Token 0 0 (MEnd a); Token 0 0 (MStart b)]) = None. Proof. reflexivity. Qed.
Print Assumptions C70_order_refuted.
(** A kind that is not known leaves a comma without a member, which no reader accepts. *)
Theorem C70_kind_refuted : exists j, json_from_meta_data lib0 (syntax_data [Token 0 0 (MBool (tx "a") true)] ++ [DArray [DNum f1; DNum f1; DStr (tx "int"); DStr (tx "b"); DNum f1]] ++ syntax_data [Token 0 0 (MBool (tx "c") true)]) = Some j /\ load_data lib0 (tx "{" ++ j ++ tx "}") = PErr.
Proof. eexists. split; [vm_compute; reflexivity|]. vm_compute. reflexivity. Qed.
Print Assumptions C70_kind_refuted.
(** A number that is not finite is written, and cannot be read. *)
Theorem C70_nan_refuted : exists j, json_from_meta_data lib0 (syntax_data [Token 0 0 (MF64 (tx "a") S754_nan)]) = Some j /\ load_data lib0 (tx "{" ++ j ++ tx "}") = PErr.
Proof. eexists. split; [vm_compute; reflexivity|]. vm_compute. reflexivity. Qed.
Print Assumptions C70_nan_refuted.

(** What a value is made of: the place of the token in the text, its length, its kind, its name, and what it holds. *)
Theorem C70_fields : forall o l m, exists kind name rest,
  syntax_data [Token o l m] = [DArray (DNum (f_of_Z (Z.of_N o)) :: DNum (f_of_Z (Z.of_N l)) :: DStr (tx kind) :: DStr name :: rest)] /\
  match m with
  | MBool n b => kind = "bool"%string /\ name = n /\ rest = [DBool b]
  | MString n v => kind = "str"%string /\ name = n /\ rest = [DStr v]
  | MF64 n x => kind = "f64"%string /\ name = n /\ rest = [DNum x]
  | MStart n => kind = "start"%string /\ name = n /\ rest = []
  | MEnd n => kind = "end"%string /\ name = n /\ rest = []
  end.
Proof. intros o l []; do 3 eexists; (split; [reflexivity|]); repeat split. Qed.
Print Assumptions C70_fields.
(** Nodes are counted with 32 bits. *)
Theorem C70_counts : (forall n, (n < 4294967296)%N -> u32 n = n) /\ forall n, u32 (n + 4294967296) = u32 n.
Proof. unfold u32. split; intros n; [apply N.mod_small|]. intros. rewrite <- (N.mul_1_l 4294967296) at 1. apply N.mod_add. discriminate. Qed.
Print Assumptions C70_counts.
