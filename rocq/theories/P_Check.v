(** * C73: The check of a file as a whole, and its suggestions *)
From Coq Require Import String List Bool Arith ZArith NArith Lia.
From Verif Require Import Syntax Float64 TypeModel LifetimeModel LifetimeSpec TypecheckModel TypecheckSpec TypecheckProofs TypecheckShape TypecheckInv TypecheckClosed P_Typecheck PrintModel NodesModel NodesSpec NodesProofs NodesLayout NodesScope NodesCalls NodesClean NodesFits
  P_Nodes P_Scope LivesModel LivesSpec LivesFits P_Lives TypedSpec TypedFits P_Typed CheckModel.
Import ListNotations.
Local Open Scope string_scope.
Local Open Scope nat_scope.
Local Open Scope list_scope.

(** what is asked of the file [F] with the trees [ts] before it is checked *)
Record checkable (P : type_parser) (sort : fgraph -> fgraph) (K : known) (O : outside) (F : list stx) (ts : list ntree) : Prop := {
  ch_good : good_file P sort F ts;
  ch_lively : lively_file ts;
  ch_typable : typable_file ts;
  ch_outside : good_outside O;
  ch_known : known_fit K O;
  ch_order : forall g, front P sort O (flat_map tokens F) = NOk g -> declared_before g /\ own_fit (checked g) }.

Lemma in_combine_nth : forall A B (l : list A) (k : list B) a b, In (a, b) (combine l k) <-> exists i, nth_error l i = Some a /\ nth_error k i = Some b.
Proof.
  induction l as [|x l IH]; intros [|y k] a b; cbn; split; try contradiction; try (intros ([|i] & X & Y); discriminate).
  - intros [E|E]; [injection E as -> ->; exists 0; auto|]. apply IH in E. destruct E as (i & X & Y). exists (S i). auto.
  - intros ([|i] & X & Y); [injection X as ->; injection Y as ->; auto|]. right. apply IH. eauto.
Qed.
Lemma refined_in : forall g h x t, In (x, t) (refined_rets g h) <-> exists f n, nth_error g f = Some n /\ f_kind n = K_Fn /\ f_name n = Some x /\ ty_at h f = Some t.
Proof.
  intros g h x t. unfold refined_rets. rewrite in_flat_map. split.
  - intros ((n & m) & I & J). apply in_combine_nth in I. destruct I as (f & X & Y). exists f, n. destruct (f_kind n) eqn:KN; try contradiction. destruct (f_name n) as [y|]; [|contradiction]. destruct (g_ty m) as [u|] eqn:TM; [|contradiction].
    destruct J as [J|[]]. injection J as -> ->. do 3 (split; auto). unfold ty_at. now rewrite Y.
  - intros (f & n & X & KN & NX & TY). unfold ty_at in TY. destruct (nth_error h f) as [m|] eqn:Y; [|discriminate]. exists (n, m). split; [apply in_combine_nth; eauto|]. rewrite KN, NX, TY. now left.
Qed.

(** A file that passes the whole check: everything is linked to the right place, nothing is unsafe, and the types are those of
    the rules. The types that are given back are those of the functions, one for each name, and everything that a function
    returns goes with its type. *)
Theorem C73_good : forall P sort K O F ts rounds fuel rets, checkable P sort K O F ts ->
  (forall g, front P sort O (flat_map tokens F) = NOk g -> length g < fuel) ->
  check_core P sort O K rounds fuel (flat_map tokens F) = CGood rets ->
  exists g h, accepted P sort K O F ts g /\ (forall e i, ~ unsafe g e i) /\ typecheck K rounds fuel (checked g) = TOk h /\
    (forall i t, derives K h i t -> ty_at h i = Some t) /\
    (forall x t, In (x, t) rets <-> exists f n, nth_error g f = Some n /\ f_kind n = K_Fn /\ f_name n = Some x /\ ty_at h f = Some t) /\
    (forall x t u, In (x, t) rets -> In (x, u) rets -> t = u) /\
    (forall x t, In (x, t) rets -> exists f, (exists n, nth_error g f = Some n /\ f_kind n = K_Fn /\ f_name n = Some x) /\ forall c r, TypecheckSpec.within h f c -> TypecheckSpec.returns h c r -> goes_with t r = true) /\
    (forall f n x, nth_error g f = Some n -> f_kind n = K_Fn -> f_name n = Some x -> exists t, In (x, t) rets).
Proof.
  intros P sort K O F ts rounds fuel rets [G L T GO KF ORD] FU C. unfold check_core in C. destruct (front P sort O (flat_map tokens F)) as [g|e i| |] eqn:R; try discriminate.
  destruct (check_lives fuel g) as [[]|e i| |] eqn:V; try discriminate. destruct (typecheck K rounds fuel (checked g)) as [h|c i| | |] eqn:TC; try discriminate. injection C as <-.
  destruct (C55_graph _ _ _ _ G) as (g0 & g1 & p & GR & _). destruct (ORD g eq_refl) as [DB OF].
  assert (accepted P sort K O F ts g) as AC by (split; eauto). pose proof (C72_well_formed _ _ _ _ _ _ _ AC) as WF.
  pose proof (C56_linked _ _ _ _ _ _ _ G L GO GR R) as LV. pose proof (C56_verdict g fuel LV (FU g eq_refl)) as VE. rewrite V in VE.
  assert (forall f n x, nth_error g f = Some n -> f_kind n = K_Fn -> f_name n = Some x -> exists m, is_node h f m /\ g_kind m = K_Fn) as SH.
  { intros f n x E KN NX. destruct (typecheck_last _ _ _ _ _ WF TC) as (todo & errs & s & _ & B & _). pose proof (V_shape _ _ _ _ _ _ B) as S.
    destruct (shape_node _ _ f (checked_node n) S) as (u & M); [apply g_node; eauto|]. exists (retype (checked_node n) u). split; [exact M|exact KN]. }
  exists g, h. split; [exact AC|]. split; [exact VE|]. split; [exact TC|]. split; [intros i t D; eapply C51_closed; eauto|]. split; [apply refined_in|]. split; [|split].
  - intros x t u A B. apply refined_in in A, B. destruct A as (f & n & E & KN & NX & TY), B as (f' & n' & E' & KN' & NX' & TY'). enough (f' = f) by congruence.
    pose proof (C55_checked P sort F ts g1 O G GR) as X. cbv zeta in X. destruct X as [(g2 & R2 & _ & RF)|[(e & i & R2 & _)|(R2 & _)]]; try congruence. assert (g2 = g) as -> by congruence.
    pose proof (ri_bare _ _ _ RF) as BA.
    destruct (bare_data g g1 f n BA E) as (m & EM & SM). destruct (bare_data g g1 f' n' BA E') as (m' & EM' & SM'). destruct (strip_fields _ _ SM) as (A1 & A2 & _), (strip_fields _ _ SM') as (B1 & B2 & _).
    apply (ri_functions _ _ _ RF f' f x); [exists m'|exists m]; repeat split; congruence.
  - intros x t A. apply refined_in in A. destruct A as (f & n & E & KN & NX & TY). exists f. split; [eauto|]. destruct (SH f n x E KN NX) as (m & M & KM). destruct (C50_returns _ _ _ _ _ _ _ TC M KM) as (t' & TM & RE & _).
    assert (t' = t) as -> by (unfold ty_at in TY; unfold is_node in M; rewrite M in TY; congruence). exact RE.
  - intros f n x E KN NX. destruct (SH f n x E KN NX) as (m & M & KM). destruct (C50_returns _ _ _ _ _ _ _ TC M KM) as (t' & TM & _). exists t'. apply refined_in. exists f, n. do 3 (split; auto). unfold ty_at. unfold is_node in M. now rewrite M.
Qed.
Print Assumptions C73_good.
(** A file that the passes before the type checker reject has something wrong or unsafe in it at that place. *)
Theorem C73_rejected : forall P sort K O F ts rounds fuel e i, checkable P sort K O F ts ->
  (forall g, front P sort O (flat_map tokens F) = NOk g -> length g < fuel) ->
  (check_core P sort O K rounds fuel (flat_map tokens F) = CNode e i -> e <> N_unsorted -> exists g, graph_of sort ts g /\ wrong O g e i) /\
  forall x, (check_core P sort O K rounds fuel (flat_map tokens F) = CLife x i -> exists g, front P sort O (flat_map tokens F) = NOk g /\ unsafe g x i).
Proof.
  intros P sort K O F ts rounds fuel e i [G L T GO KF ORD] FU. destruct (C55_graph _ _ _ _ G) as (g0 & g1 & p & GR & _). unfold check_core. split; [intros C NU|intros x C].
  - destruct (front P sort O (flat_map tokens F)) as [g|e' i'| |] eqn:R; try discriminate.
    + destruct (check_lives fuel g); try discriminate. destruct (typecheck K rounds fuel (checked g)); discriminate.
    + injection C as -> ->. pose proof (C55_checked P sort F ts g1 O G GR) as X. cbv zeta in X. destruct X as [(g2 & R2 & _)|[(e2 & i2 & R2 & _ & W)|(R2 & _)]]; try congruence. exists g1. split; auto. congruence.
  - destruct (front P sort O (flat_map tokens F)) as [g|e' i'| |] eqn:R; try discriminate. exists g. split; auto. destruct (check_lives fuel g) as [[]|e' i'| |] eqn:V; try discriminate.
    + destruct (typecheck K rounds fuel (checked g)); discriminate.
    + injection C as -> ->. pose proof (C56_verdict g fuel (C56_linked _ _ _ _ _ _ _ G L GO GR R) (FU g eq_refl)) as VE. now rewrite V in VE.
Qed.
Print Assumptions C73_rejected.
Example C73_example : checkable types_ (fun g => g) nothing_ outside_ typed_ typed_t /\
  check_core types_ (fun g => g) outside_ nothing_ 10 100 (flat_map tokens typed_) = CGood [("f", TF64); ("k", TF64)].
Proof.
  destruct C72_example as [A B C D E R DB KF OF]. split; [split; auto; intros g R'; rewrite R in R'; injection R' as <-; auto|]. vm_compute. reflexivity.
Qed.

(** ** Suggestions *)

Lemma starts_with_spec : forall p t, starts_with p t = true <-> exists r, t = p ++ r.
Proof.
  induction p as [|c p IH]; intros t; cbn; [split; eauto|]. destruct t as [|d t]; [split; [discriminate|intros (r & E); discriminate]|].
  rewrite andb_true_iff, N.eqb_eq, IH. split.
  - intros (-> & r & ->). now exists r.
  - intros (r & E). injection E as -> ->. eauto.
Qed.
Lemma paren_none : forall t, paren t = None <-> ~ In 40%N t.
Proof.
  induction t as [|c t IH]; cbn; [tauto|]. destruct (N.eqb_spec c 40%N) as [->|NE]; [split; [discriminate|tauto]|]. destruct (paren t); cbn; split; try discriminate.
  - intros X. exfalso. apply X. right. destruct (in_dec N.eq_dec 40%N t) as [I|I]; [exact I|]. apply IH in I. discriminate.
  - intros _ [E|E]; [congruence|]. now apply (proj1 IH).
  - reflexivity.
Qed.
Lemma paren_at : forall x r, ~ In 40%N x -> paren (x ++ 40%N :: r) = Some (length x).
Proof.
  induction x as [|c x IH]; intros r NI; cbn; auto. destruct (N.eqb_spec c 40%N) as [->|NE]; [destruct NI; now left|]. rewrite IH; auto. intros I. apply NI. now right.
Qed.
Lemma paren_some : forall t p, paren t = Some p -> exists x r, t = x ++ 40%N :: r /\ ~ In 40%N x /\ length x = p.
Proof.
  induction t as [|c t IH]; intros p E; cbn in E; [discriminate|]. destruct (N.eqb_spec c 40%N) as [->|NE].
  - injection E as <-. exists [], t. cbn. auto.
  - destruct (paren t) as [q|]; [|discriminate]. injection E as <-. destruct (IH q eq_refl) as (x & r & -> & NI & L). exists (c :: x), r. cbn. split; auto. split; [intros [I|I]; auto|congruence].
Qed.
(** the number of bytes of a text *)
Definition bytes (t : list N) : nat := fold_right (fun c n => char_bytes c + n) 0 t.
Lemma char_bytes_pos : forall c, 1 <= char_bytes c.
Proof. intros c. unfold char_bytes. destruct (_ <? _)%N; [lia|]. destruct (_ <? _)%N; [lia|]. destruct (_ <? _)%N; lia. Qed.
Lemma slice_step : forall c t k, slice (c :: t) (S k) = if char_bytes c <=? S k then option_map (cons c) (slice t (S k - char_bytes c)) else None.
Proof. reflexivity. Qed.
Lemma slice_spec : forall t k s, slice t k = Some s <-> exists r, t = s ++ r /\ bytes s = k.
Proof.
  induction t as [|c t IH]; intros k s.
  - destruct k as [|k]; cbn; split; try discriminate.
    + intros E. injection E as <-. exists []. auto.
    + intros (r & E & _). symmetry in E. apply app_eq_nil in E. now destruct E as [-> ->].
    + intros (r & E & B). symmetry in E. apply app_eq_nil in E. destruct E as [-> ->]. discriminate.
  - pose proof (char_bytes_pos c). destruct k as [|k].
    + cbn. split; [intros E; injection E as <-; eexists; cbn; auto|]. intros (r & E & B). destruct s as [|d s]; auto. pose proof (char_bytes_pos d). cbn in B. lia.
    + rewrite slice_step. remember (S k) as q eqn:Q. assert (1 <= q) by lia. clear Q k. rename q into k. destruct (Nat.leb_spec (char_bytes c) k) as [LE|GT].
      * destruct (slice t (k - char_bytes c)) as [s'|] eqn:E; cbn [option_map].
        -- apply IH in E. destruct E as (r & -> & B). split.
           ++ intros E. injection E as <-. exists r. cbn. split; auto. unfold bytes in B. lia.
           ++ intros (r' & E & B'). destruct s as [|d s]; [cbn in B'; lia|]. injection E as <- E. cbn in B'. fold (bytes s) in B'. f_equal. f_equal.
              assert (slice (s' ++ r) (k - char_bytes c) = Some s') as X by (apply IH; eauto). assert (slice (s' ++ r) (k - char_bytes c) = Some s) as Y; [|congruence]. apply IH. exists r'. split; auto. lia.
        -- split; [discriminate|]. intros (r' & E' & B'). destruct s as [|d s]; [cbn in B'; lia|]. injection E' as <- ->. cbn in B'. fold (bytes s) in B'.
           assert (slice (s ++ r') (k - char_bytes c) = Some s) as Y; [|rewrite Y in E; discriminate]. apply IH. exists r'. split; auto. lia.
      * split; [discriminate|]. intros (r' & E' & B'). destruct s as [|d s]; [cbn in B'; lia|]. injection E' as <- ->. cbn in B'. lia.
Qed.
(** What is searched for: the beginning of the name with as many bytes as there are characters before the first bracket, but
    one. The search stops the process when nothing is before the bracket, or no beginning of the name has so many bytes. *)
Theorem C73_searched : forall name s,
  search_name name = Some s <->
  (~ In 40%N name /\ s = name) \/
  (exists x c r, name = x ++ c :: 40%N :: r /\ ~ In 40%N (x ++ [c]) /\ (exists q, name = s ++ q) /\ bytes s = length x).
Proof.
  intros name s. unfold search_name. destruct (paren name) as [[|p]|] eqn:E.
  - apply paren_some in E. destruct E as (x & r & -> & NI & L). destruct x; [|discriminate]. split; [discriminate|]. intros [(N & _)|(y & c & q & E & N & _)]; [destruct N; now left|].
    exfalso. apply N. destruct y; injection E as <- _; now left.
  - apply paren_some in E. destruct E as (x & r & -> & NI & L). rewrite slice_spec. split.
    + intros (q & E & B). right. destruct (exists_last (l := x)) as (y & c & ->); [destruct x; [discriminate|congruence]|]. exists y, c, r. rewrite <- app_assoc in *. split; auto. split; auto. split; eauto. rewrite app_length in L. cbn in L. lia.
    + intros [(N & _)|(y & c & q & E & N & (z & Z) & B)]; [destruct N; apply in_or_app; right; now left|]. exists z. split; auto. rewrite B.
      change (c :: 40%N :: q) with ([c] ++ 40%N :: q) in E. rewrite app_assoc in E. pose proof (paren_at x r NI) as P1. pose proof (paren_at (y ++ [c]) q N) as P2. rewrite E, P2 in P1. rewrite app_length in P1. cbn in P1. injection P1 as P1. lia.
  - apply paren_none in E. split; [intros X; injection X as <-; auto|]. intros [(_ & ->)|(x & c & r & -> & _)]; auto. exfalso. apply E. apply in_or_app. right. right. now left.
Qed.
Print Assumptions C73_searched.
(** Exactly the functions of which the names begin with what is searched for are listed. *)
Theorem C73_listed : forall name own prelude l, suggestions name own prelude = Some l ->
  exists s, search_name name = Some s /\ forall f, In f l <-> (In f own \/ In f prelude) /\ exists r, f = s ++ r.
Proof.
  intros name own prelude l E. unfold suggestions in E. destruct (search_name name) as [s|]; [|discriminate]. injection E as <-. exists s. split; auto.
  intros f. rewrite in_app_iff, !filter_In, starts_with_spec. tauto.
Qed.
Print Assumptions C73_listed.
Lemma ascii_bytes : forall x, Forall (fun c => (c < 128)%N) x -> bytes x = length x.
Proof.
  induction 1 as [|c x H _ IH]; auto. cbn. fold (bytes x). rewrite IH. unfold char_bytes. apply N.ltb_lt in H. now rewrite H.
Qed.
(** For a name in ASCII letters: a call without marks in brackets lists the functions of which the names begin with the called
    one, and with [(mut)] those of which the names begin with all but the last letter of what is before the bracket. *)
Theorem C73_suggested : forall own prelude,
  (forall name, ~ In 40%N name -> exists l, suggestions name own prelude = Some l /\ forall f, In f l <-> (In f own \/ In f prelude) /\ exists r, f = name ++ r) /\
  (forall x c r, ~ In 40%N (x ++ [c]) -> Forall (fun c => (c < 128)%N) x -> exists l, suggestions (x ++ c :: 40%N :: r) own prelude = Some l /\
     forall f, In f l <-> (In f own \/ In f prelude) /\ exists r, f = x ++ r).
Proof.
  intros own prelude. split.
  - intros name NI. assert (search_name name = Some name) as E by (apply C73_searched; auto). unfold suggestions. rewrite E. eexists. split; [reflexivity|].
    intros f. rewrite in_app_iff, !filter_In, starts_with_spec. tauto.
  - intros x c r NI AS. assert (search_name (x ++ c :: 40%N :: r) = Some x) as E. { apply C73_searched. right. exists x, c, r. do 2 (split; auto). split; eauto. now apply ascii_bytes. }
    unfold suggestions. rewrite E. eexists. split; [reflexivity|]. intros f. rewrite in_app_iff, !filter_In, starts_with_spec. tauto.
Qed.
Print Assumptions C73_suggested.
Definition chars (s : string) : list N := map Ascii.N_of_ascii (list_ascii_of_string s).
Example C73_example_suggested : suggestions (chars "pusk(mut,_)") [chars "pull"; chars "push_it"] [chars "push(mut,_)"; chars "sin"] = Some [chars "push_it"; chars "push(mut,_)"] /\
  suggestions (chars "pus") [chars "pull"; chars "push_it"] [chars "push(mut,_)"; chars "sin"] = Some [chars "push_it"; chars "push(mut,_)"].
Proof. split; reflexivity. Qed.
(** Not every unknown function is answered by an error: for two letters that are not ASCII and an argument with [mut] there is
    no beginning of one byte, and the search stops the process. The error is built in the thread that checks, of which the
    loader takes the result with [unwrap], so that the host stops as well. *)
Theorem C73_panic_refuted : ~ forall name own prelude, exists l, suggestions name own prelude = Some l.
Proof. intros H. destruct (H ([233; 233]%N ++ chars "(mut)") [] []) as (l & E). discriminate. Qed.
(** Not only functions of a similar name are listed: for a name of one letter and [mut] all functions are. *)
Theorem C73_all_refuted : ~ forall name own prelude l f, name <> [] -> suggestions name own prelude = Some l -> In f l -> exists c r q, name = c :: r /\ f = c :: q.
Proof.
  intros H. destruct (H (chars "f(mut)") [chars "sin"] [] [chars "sin"] (chars "sin")) as (c & r & q & E & F); [discriminate|reflexivity|now left|]. injection E as <- <-. discriminate.
Qed.
