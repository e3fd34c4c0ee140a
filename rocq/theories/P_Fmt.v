(** * C68: formatting a text keeps its content. *)
From Coq Require Import String List ZArith NArith Bool Lia.
From Verif Require Import DataModel FmtModel FmtSpec.
Import ListNotations.
Local Open Scope list_scope.
Local Open Scope N_scope.

Lemma strip_app : forall a b, strip (a ++ b) = strip a ++ strip b.
Proof. intros. apply filter_app. Qed.
Lemma strip_spaces : forall n, strip (repeat 32 n) = [].
Proof. induction n; auto. Qed.
Lemma strip_break : forall b d tab o, line_break b d tab = Some o -> strip o = [].
Proof. intros [|] d tab o H; cbn in H; [|now injection H as <-]. destruct (i32 (d * tab)); [|discriminate]. injection H as <-. cbn. apply strip_spaces. Qed.
Lemma plain_strip : forall tab s nl c ch s' o, plain_step tab s nl c ch = Some (s', o) -> strip o = strip [ch].
Proof.
  unfold plain_step. intros tab s nl c ch s' o H. destruct (blank ch) eqn:B; [injection H as <- <-; cbn; change (is_blank ch) with (blank ch); now rewrite B|].
  destruct (i32 _); [|discriminate]. destruct (line_break _ _ _) eqn:L; [|discriminate]. destruct (i32 _); [|discriminate]. injection H as <- <-.
  rewrite strip_app, (strip_break _ _ _ _ L). cbn [app]. change (ch :: (if ch =? 58 then [32] else [])) with ([ch] ++ (if ch =? 58 then [32] else [])).
  rewrite strip_app. destruct (ch =? 58); cbn; now rewrite ?app_nil_r.
Qed.
Lemma step_strip : forall tab s ch s' o, fmt_step tab s ch = Some (s', o) -> strip o = strip [ch].
Proof.
  unfold fmt_step. intros tab s ch s' o H. destruct ((ch =? 34) && negb (f_escape s)); [now injection H as <- <-|].
  cbn [f_string] in H. destruct (f_string s); [now injection H as <- <-|]. unfold code_step in H. destruct (is_active _); [now injection H as <- <-|].
  eapply plain_strip; exact H.
Qed.
(** Nothing but spaces and line breaks is added or removed, whatever the text is. *)
Theorem C68_content : forall tab t r, fmt tab t = Some r -> strip r = strip t.
Proof.
  unfold fmt. intros tab t. generalize fstart as s. induction t as [|ch t IH]; intros s r H; [now injection H as <-|]. cbn [fmt_go] in H.
  destruct (fmt_step tab s ch) as [[s1 o]|] eqn:S1; [|discriminate]. specialize (IH s1). destruct (fmt_go tab s1 t) as [[s2 r2]|]; [|discriminate].
  injection H as <-. cbn [snd]. rewrite strip_app, (IH r2 eq_refl), (step_strip _ _ _ _ _ S1). change (ch :: t) with ([ch] ++ t). now rewrite strip_app.
Qed.
Print Assumptions C68_content.

(** ** The layout *)
Definition at_ (d : Z) (nl : bool) (c : comment) : fstate := FState d nl c false false.
Lemma go_app : forall tab t s u s' r, fmt_go tab s t = Some (s', r) ->
  fmt_go tab s (t ++ u) = match fmt_go tab s' u with Some (s2, q) => Some (s2, r ++ q) | None => None end.
Proof.
  induction t as [|ch t IH]; intros s u s' r H; [injection H as <- <-; cbn; destruct (fmt_go tab s u) as [[]|]; reflexivity|]. cbn [fmt_go app] in *.
  destruct (fmt_step tab s ch) as [[s1 o]|]; [|discriminate]. destruct (fmt_go tab s1 t) as [[s2 r2]|] eqn:G; [|discriminate]. injection H as <- <-.
  rewrite (IH _ u _ _ G). destruct (fmt_go tab s2 u) as [[]|]; [|reflexivity]. now rewrite app_assoc.
Qed.
(** Inside a string. *)
Lemma go_string : forall tab b d nl c, clean b ->
  fmt_go tab (FState d nl c true false) (b ++ [34]) = Some (at_ d nl c, b ++ [34]).
Proof.
  intros tab b d nl c. remember (length b) as n eqn:En. revert b En. induction n as [n IH] using lt_wf_ind. intros b -> Hb. destruct b as [|x r]; [reflexivity|].
  cbn [clean] in Hb. destruct (x =? 92) eqn:Ex.
  - destruct r as [|y r]; [easy|]. destruct Hb as [-> Hb]. apply N.eqb_eq in Ex. subst x. specialize (IH (length r) ltac:(cbn; lia) r eq_refl Hb). cbn -[fmt_go] in *.
    cbn [fmt_go]. unfold fmt_step; cbn -[fmt_go]. now rewrite IH.
  - destruct Hb as [H34 Hb]. specialize (IH (length r) ltac:(cbn; lia) r eq_refl Hb). cbn [fmt_go app]. unfold fmt_step. apply N.eqb_neq in H34. rewrite H34, Ex. cbn -[fmt_go].
    now rewrite IH.
Qed.
Lemma go_quoted : forall tab b d nl, clean b -> fmt_go tab (at_ d nl CNone) (text1 (Quoted b)) = Some (at_ d nl CNone, text1 (Quoted b)).
Proof. intros. cbn [text1 fmt_go]. unfold fmt_step; cbn -[fmt_go]. now rewrite go_string. Qed.
(** Inside of comments. *)
Lemma go_line : forall tab b d nl, ~ In 10 b -> ~ In 34 b -> fmt_go tab (at_ d nl CLine) b = Some (at_ d nl CLine, b).
Proof.
  induction b as [|x b IH]; intros d nl H1 H2; [reflexivity|]. cbn [fmt_go]. unfold fmt_step. replace (x =? 34) with false by (symmetry; apply N.eqb_neq; intros ->; apply H2; now left).
  cbn -[fmt_go N.eqb]. rewrite andb_false_r. unfold code_step. cbn -[fmt_go N.eqb]. replace (x =? 10) with false by (symmetry; apply N.eqb_neq; intros ->; apply H1; now left).
  cbn -[fmt_go N.eqb]. rewrite orb_false_r. change (FState d nl CLine false false) with (at_ d nl CLine). rewrite IH; [reflexivity| |]; intros F; [apply H1|apply H2]; now right.
Qed.
Lemma go_block : forall tab b d nl, ~ In 34 b -> ~ In 42 b -> ~ In 47 b -> fmt_go tab (at_ d nl (CMulti false CNone)) b = Some (at_ d nl (CMulti false CNone), b).
Proof.
  induction b as [|x b IH]; intros d nl H1 H2 H3; [reflexivity|]. cbn [fmt_go]. unfold fmt_step. replace (x =? 34) with false by (symmetry; apply N.eqb_neq; intros ->; apply H1; now left).
  cbn -[fmt_go N.eqb]. rewrite andb_false_r. unfold code_step. cbn -[fmt_go N.eqb]. replace (x =? 42) with false by (symmetry; apply N.eqb_neq; intros ->; apply H2; now left).
  replace (x =? 47) with false by (symmetry; apply N.eqb_neq; intros ->; apply H3; now left).
  cbn -[fmt_go N.eqb]. rewrite orb_false_r. change (FState d nl (CMulti false CNone) false false) with (at_ d nl (CMulti false CNone)). rewrite IH; [reflexivity| | |]; intros F; [apply H1|apply H2|apply H3]; now right.
Qed.

Lemma i32_ok : forall z, (-2147483648 <= z <= 2147483647)%Z -> i32 z = Some z.
Proof. intros z [A B]. unfold i32. apply Z.leb_le in A, B. now rewrite A, B. Qed.
(** Depth [d] with [n] characters to go. *)
Definition room (tab d : Z) (n : nat) : Prop := fits tab (Z.to_nat (Z.abs d) + n).
Lemma room_d : forall tab d n k, room tab d n -> (Z.abs k <= Z.abs d + Z.of_nat n)%Z -> i32 k = Some k.
Proof. unfold room, fits. intros. apply i32_ok. lia. Qed.
Lemma room_mul : forall tab d n k, room tab d n -> (Z.abs k <= Z.abs d + Z.of_nat n)%Z -> i32 (k * tab) = Some (k * tab)%Z.
Proof.
  unfold room, fits. intros tab d n k [_ H] L. apply i32_ok. assert (Z.abs (k * tab) < 2147483648)%Z; [|lia]. rewrite Z.abs_mul.
  eapply Z.le_lt_trans; [|exact H]. rewrite Z.mul_comm. apply Z.mul_le_mono_nonneg_l; lia.
Qed.
Lemma room_less : forall tab d n d' n', room tab d n -> (Z.abs d' + Z.of_nat n' <= Z.abs d + Z.of_nat n)%Z -> room tab d' n'.
Proof.
  unfold room, fits. intros tab d n d' n' [A B] L. split; [lia|]. eapply Z.le_lt_trans; [|exact B]. apply Z.mul_le_mono_nonneg_l; lia.
Qed.
Definition nls (nl : bool) (tab d : Z) : list piece := if nl then new_line tab d else [].
Lemma text_of_app : forall a b, text_of (a ++ b) = text_of a ++ text_of b.
Proof. intros. unfold text_of. now rewrite map_app, concat_app. Qed.
Lemma text_of_cons : forall p ps, text_of (p :: ps) = text1 p ++ text_of ps. Proof. reflexivity. Qed.
Lemma text_spaces : forall n, text_of (repeat (Blank 32) n) = repeat 32 n.
Proof. induction n; [reflexivity|]. cbn [repeat]. now rewrite text_of_cons, IHn. Qed.
Lemma break_ok : forall nl tab d k n, room tab d n -> (Z.abs k <= Z.abs d + Z.of_nat n)%Z -> line_break nl k tab = Some (text_of (nls nl tab k)).
Proof. intros [|] tab d k n R L; [|reflexivity]. cbn [line_break]. rewrite (room_mul _ _ _ _ R L). unfold nls, new_line. rewrite text_of_cons, text_spaces. reflexivity. Qed.
Lemma closing_spec : forall c, closing c = closes c. Proof. intros. unfold closing, closes. destruct (c =? 93), (c =? 125), (c =? 41); reflexivity. Qed.
Lemma opening_spec : forall c, opening c = opens c. Proof. intros. unfold opening, opens. destruct (c =? 91), (c =? 123), (c =? 40); reflexivity. Qed.
Lemma plain_ok : forall tab d n nl c' c x esc st, room tab d (S n) -> is_blank x = false -> let b := if closes x then (d - 1)%Z else d in
  plain_step tab (FState d nl c' st esc) nl c x = Some (FState (if opens x then b + 1 else b)%Z (opens x || (x =? 44)) c st esc,
    text_of (nls (nl || closes x) tab b ++ Solid x :: (if x =? 58 then [Blank 32] else []))).
Proof.
  intros tab d n nl c' c x esc st R B b. unfold plain_step. cbn [f_tabs f_string f_escape]. change (blank x) with (is_blank x). rewrite B, closing_spec, opening_spec.
  rewrite (room_d _ _ _ _ R) by (destruct (closes x); lia). fold b. rewrite (break_ok _ _ d b (S n) R) by (unfold b; destruct (closes x); lia).
  assert (O : (Z.abs (if opens x then b + 1 else b) <= Z.abs d + Z.of_nat (S n))%Z).
  { unfold b. destruct (opens x), (closes x); lia. }
  rewrite (room_d _ _ _ _ R O). rewrite text_of_app, text_of_cons. cbn [text1 app]. do 4 f_equal. destruct (x =? 58); reflexivity.
Qed.
Lemma go_1 : forall tab s x, fmt_go tab s [x] = match fmt_step tab s x with Some (s, o) => Some (s, o) | None => None end.
Proof. intros. cbn. destruct (fmt_step tab s x) as [[s1 o]|]; [|reflexivity]. now rewrite app_nil_r. Qed.
Lemma step_code : forall tab d nl c x, x <> 34 -> fmt_step tab (at_ d nl c) x = code_step tab (at_ d nl c) x.
Proof. intros tab d nl c x H. unfold fmt_step. apply N.eqb_neq in H. rewrite H. cbn. now rewrite andb_false_r. Qed.
(** A slash that begins a comment. *)
Lemma go_slash : forall tab d n nl, room tab d (S n) -> fmt_step tab (at_ d nl CNone) 47 = Some (at_ d false CFirst, text_of (nls nl tab d) ++ [47]).
Proof.
  intros tab d n nl R. rewrite step_code by discriminate. unfold code_step, at_. cbn [f_comment advance N.eqb Pos.eqb is_terminated is_active f_newline]. rewrite orb_false_r.
  rewrite (plain_ok tab d n nl _ CFirst 47 false false R eq_refl). cbn [closes opens N.eqb Pos.eqb orb]. rewrite orb_false_r, text_of_app. reflexivity.
Qed.
Lemma go_remark : forall tab d n nl b, room tab d (S n) -> ~ In 10 b -> ~ In 34 b ->
  fmt_go tab (at_ d nl CNone) (text1 (Remark b)) = Some (at_ d false CLine, text_of (nls nl tab d ++ [Remark b])).
Proof.
  intros tab d n nl b R H1 H2. cbn [text1 fmt_go]. rewrite (go_slash tab d n nl R), step_code by discriminate. unfold code_step at 1. cbn [at_ f_comment f_newline f_tabs f_string f_escape advance N.eqb Pos.eqb is_terminated is_active orb].
  change (FState d false CLine false false) with (at_ d false CLine). rewrite go_line by assumption. rewrite text_of_app, <- app_assoc. cbn. now rewrite app_nil_r.
Qed.
Lemma go_star : forall tab d n nl b, room tab d (S n) -> ~ In 34 b -> ~ In 42 b -> ~ In 47 b ->
  fmt_go tab (at_ d nl CNone) (text1 (Block b)) = Some (at_ d false (CTerm false), text_of (nls nl tab d ++ [Block b])).
Proof.
  intros tab d n nl b R H1 H2 H3. cbn [text1 fmt_go]. rewrite (go_slash tab d n nl R), step_code by discriminate. unfold code_step at 1. cbn [at_ f_comment f_newline f_tabs f_string f_escape advance N.eqb Pos.eqb is_terminated is_active orb].
  change (FState d false (CMulti false CNone) false false) with (at_ d false (CMulti false CNone)). rewrite (go_app _ _ _ [42; 47] _ _ (go_block tab b d false H1 H2 H3)).
  cbn [fmt_go]. rewrite step_code by discriminate. unfold code_step at 1. cbn [at_ f_comment f_newline f_tabs f_string f_escape advance N.eqb Pos.eqb is_terminated is_active is_none negb orb].
  change (FState d false (CMulti true CNone) false false) with (at_ d false (CMulti true CNone)). rewrite step_code by discriminate. unfold code_step, at_.
  cbn [f_comment f_newline f_tabs f_string f_escape advance N.eqb Pos.eqb is_terminated is_active orb]. rewrite (plain_ok tab d n false _ (CTerm false) 47 false false R eq_refl).
  cbn [closes opens N.eqb Pos.eqb orb nls app]. rewrite !text_of_app. cbn. now rewrite !app_nil_r, <- !app_assoc.
Qed.

(** The state after the pieces read so far, as the next one finds it. *)
Definition pending (c : comment) (nl : bool) (ps : list piece) (nl' : bool) : Prop :=
  (c = CNone /\ nl' = nl) \/
  (c = CLine /\ nl' = true /\ head_is (fun p => p = Blank 10) ps /\ head_is no_string (shown ps)) \/
  (c = CTerm false /\ nl' = true /\ head_is (fun p => match p with Solid _ | Blank _ => True | _ => False end) ps /\ head_is no_string (shown ps)).
Lemma go_solid : forall tab d n nl c nl' x, room tab d (S n) -> is_blank x = false -> x <> 34 -> x <> 47 ->
  (c = CNone /\ nl' = nl) \/ (c = CTerm false /\ nl' = true) -> let b := if closes x then (d - 1)%Z else d in
  fmt_go tab (at_ d nl c) [x] = Some (at_ (if opens x then b + 1 else b)%Z (opens x || (x =? 44)) CNone,
    text_of (nls (nl' || closes x) tab b ++ Solid x :: (if x =? 58 then [Blank 32] else []))).
Proof.
  intros tab d n nl c nl' x R B Q S P b. rewrite go_1, step_code by assumption. unfold code_step. apply N.eqb_neq in S. unfold at_.
  assert (G : forall nl0, plain_step tab (FState d nl c false false) nl0 CNone x = plain_step tab (FState d nl0 c false false) nl0 CNone x) by reflexivity.
  destruct P as [(-> & ->)|(-> & ->)]; cbn [f_comment f_newline f_tabs f_string f_escape advance]; rewrite ?S; cbn [is_terminated is_active]; rewrite ?orb_false_r, ?orb_true_r; try rewrite G;
    rewrite (plain_ok tab d n _ _ CNone x false false R B); reflexivity.
Qed.
Lemma go_blank : forall tab d nl c nl' x, is_blank x = true -> (c = CNone /\ nl' = nl) \/ (c = CTerm false /\ nl' = true) \/ (c = CLine /\ x = 10 /\ nl' = true) ->
  fmt_go tab (at_ d nl c) [x] = Some (at_ d nl' CNone, []).
Proof.
  intros tab d nl c nl' x B P. assert (Q : x = 10 \/ x = 32) by (apply orb_prop in B; destruct B as [B|B]; apply N.eqb_eq in B; auto).
  rewrite go_1, step_code by (destruct Q; subst; discriminate). unfold code_step. destruct P as [(-> & ->)|[(-> & ->)|(-> & -> & ->)]]; [destruct Q; subst x|destruct Q; subst x|];
    cbn [at_ f_comment f_newline f_tabs f_string f_escape advance N.eqb Pos.eqb is_terminated is_active]; rewrite ?orb_false_r, ?orb_true_r; reflexivity.
Qed.
Lemma go_layout : forall tab ps d nl c nl', regular ps -> room tab d (length ps) -> pending c nl ps nl' ->
  exists s', fmt_go tab (at_ d nl c) (text_of ps) = Some (s', text_of (layout tab d nl' ps)).
Proof.
  induction ps as [|p ps IH]; intros d nl c nl' R B P; [now eexists|]. destruct R as (Hp & J & NS & R). rewrite text_of_cons. cbn [length] in B.
  assert (B1 : room tab d (length ps)) by (eapply room_less; [exact B|lia]). destruct p as [x|x|b|b|b]; cbn [piece_ok] in Hp.
  - destruct Hp as (Bx & Q & S). assert (P' : (c = CNone /\ nl' = nl) \/ (c = CTerm false /\ nl' = true)).
    { destruct P as [(-> & ->)|[(-> & -> & F & _)|(-> & -> & _ & _)]]; auto. discriminate F. }
    cbn [text1 layout]. rewrite (go_app _ _ _ _ _ _ (go_solid tab d (length ps) nl c nl' x B Bx Q S P')). set (d1 := if closes x then (d - 1)%Z else d).
    set (d2 := if opens x then (d1 + 1)%Z else d1). destruct (IH d2 (opens x || (x =? 44)) CNone (opens x || (x =? 44)) R) as (s' & E); [|now left|].
    { eapply room_less; [exact B|]. unfold d2, d1. destruct (opens x), (closes x); lia. }
    rewrite E. exists s'. f_equal. f_equal. fold (nls (nl' || closes x) tab d1). rewrite !text_of_app, !text_of_cons, text_of_app. now rewrite <- !app_assoc.
  - cbn [text1 layout]. rewrite (go_app _ _ _ _ _ _ (go_blank tab d nl c nl' x Hp ltac:(destruct P as [P|[(-> & -> & F & _)|(-> & -> & _ & _)]]; [now left| |now auto]; cbn in F; injection F as ->; auto))).
    destruct (IH d nl' CNone nl' R B1) as (s' & E); [now left|]. rewrite E. now exists s'.
  - destruct P as [(-> & ->)|[(-> & -> & F & _)|(-> & -> & [] & _)]]; [|discriminate F]. cbn [layout]. rewrite (go_app _ _ _ _ _ _ (go_quoted tab b d nl Hp)).
    destruct (IH d nl CNone nl R B1) as (s' & E); [now left|]. rewrite E. now exists s'.
  - destruct P as [(-> & ->)|[(-> & -> & F & _)|(-> & -> & [] & _)]]; [|discriminate F]. cbn [layout]. rewrite (go_app _ _ _ _ _ _ (go_remark tab d (length ps) nl b B (proj1 Hp) (proj2 Hp))).
    destruct (IH d false CLine true R B1) as (s' & E); [right; left; repeat split; [destruct ps as [|[] ?]; cbn in *; congruence || easy|now apply NS]|]. rewrite E. exists s'. fold (nls nl tab d).
    rewrite !text_of_app, !text_of_cons. cbn [text_of concat map]. now rewrite app_nil_r, <- !app_assoc.
  - destruct P as [(-> & ->)|[(-> & -> & F & _)|(-> & -> & [] & _)]]; [|discriminate F]. cbn [layout]. destruct Hp as (H1 & H2 & H3). rewrite (go_app _ _ _ _ _ _ (go_star tab d (length ps) nl b B H1 H2 H3)).
    destruct (IH d false (CTerm false) true R B1) as (s' & E); [right; right; repeat split; [destruct ps as [|[] ?]; cbn in *; easy|now apply NS]|]. rewrite E. exists s'. fold (nls nl tab d).
    rewrite !text_of_app, !text_of_cons. cbn [text_of concat map]. now rewrite app_nil_r, <- !app_assoc.
Qed.
(** A regular text is laid out again. *)
Theorem C68_layout : forall tab ps, regular ps -> fits tab (length ps) -> fmt tab (text_of ps) = Some (text_of (layout tab 0 false ps)).
Proof. intros tab ps R F. destruct (go_layout tab ps 0 false CNone false R F) as (s' & E); [now left|]. unfold fmt. change fstart with (at_ 0 false CNone). now rewrite E. Qed.
Print Assumptions C68_layout.

Lemma shown_app : forall a b, shown (a ++ b) = shown a ++ shown b. Proof. intros. apply filter_app. Qed.
Lemma shown_line : forall tab d, shown (new_line tab d) = [].
Proof. intros. unfold new_line. cbn. induction (Z.to_nat (d * tab)); auto. Qed.
Lemma shown_layout : forall tab ps d nl, shown (layout tab d nl ps) = shown ps.
Proof.
  intros tab ps. induction ps as [|p ps IH]; intros d nl; [reflexivity|]. destruct p as [x|x|b|b|b]; cbn [layout].
  - rewrite shown_app. replace (shown (if nl || closes x then _ else _)) with (@nil piece) by (destruct (nl || closes x); [now rewrite shown_line|reflexivity]). cbn [app].
    change (shown (Solid x :: ?l)) with (Solid x :: shown l). cbn. f_equal. destruct (x =? 58); cbn; apply IH.
  - apply IH.
  - cbn. f_equal. apply IH.
  - rewrite shown_app. replace (shown (if nl then _ else _)) with (@nil piece) by (destruct nl; [now rewrite shown_line|reflexivity]). cbn. f_equal. apply IH.
  - rewrite shown_app. replace (shown (if nl then _ else _)) with (@nil piece) by (destruct nl; [now rewrite shown_line|reflexivity]). cbn. f_equal. apply IH.
Qed.
Lemma regular_spaces : forall n ps, regular ps -> regular (repeat (Blank 32) n ++ ps).
Proof. induction n as [|n IH]; intros ps R; [exact R|]. cbn [repeat app regular]. split; [reflexivity|]. split; [now destruct n, ps|]. split; [easy|auto]. Qed.
Lemma regular_line : forall tab d ps, regular ps -> regular (new_line tab d ++ ps).
Proof. intros tab d ps R. unfold new_line. cbn [app regular]. split; [reflexivity|]. split; [now destruct (Z.to_nat (d * tab)), ps|]. split; [easy|now apply regular_spaces]. Qed.
Lemma layout_head : forall tab ps d, head_is no_string (shown ps) -> head_is (fun p => p = Blank 10) (layout tab d true ps).
Proof. induction ps as [|p ps IH]; intros d H; [easy|]. destruct p; cbn [layout new_line orb app head_is]; auto. easy. Qed.
Lemma regular_layout : forall tab ps d nl, regular ps -> regular (layout tab d nl ps).
Proof.
  intros tab ps. induction ps as [|p ps IH]; intros d nl R; [exact R|]. destruct R as (Hp & J & NS & R). destruct p as [x|x|b|b|b]; cbn [layout].
  - assert (G : forall l, regular l -> regular (Solid x :: l)) by (intros l Hl; cbn [regular]; split; [exact Hp|]; split; [now destruct l|]; split; [easy|exact Hl]).
    assert (G2 : forall l, regular l -> regular ((if x =? 58 then [Blank 32] else []) ++ l)) by (intros l Hl; destruct (x =? 58); [exact (regular_spaces 1 l Hl)|exact Hl]).
    destruct (nl || closes x); [apply regular_line|cbn [app]]; auto.
  - auto.
  - cbn [regular]. split; [exact Hp|]. split; [now destruct (layout tab d nl ps)|]. split; [easy|auto].
  - assert (G : regular (Remark b :: layout tab d true ps)).
    { cbn [regular]. split; [exact Hp|]. split; [|split; [intros _; rewrite shown_layout; now apply NS|now apply IH]]. generalize (layout_head tab ps d (NS Logic.I)). destruct (layout tab d true ps); [easy|]. cbn. now intros ->. }
    destruct nl; [now apply regular_line|exact G].
  - assert (G : regular (Block b :: layout tab d true ps)).
    { cbn [regular]. split; [exact Hp|]. split; [|split; [intros _; rewrite shown_layout; now apply NS|now apply IH]]. generalize (layout_head tab ps d (NS Logic.I)). destruct (layout tab d true ps); [easy|]. cbn. now intros ->. }
    destruct nl; [now apply regular_line|exact G].
Qed.
(** Strings, comments and all other characters of a regular text are kept, in order; the result is regular. *)
Theorem C68_pieces_partial : forall tab ps, regular ps -> fits tab (length ps) ->
  exists ps', fmt tab (text_of ps) = Some (text_of ps') /\ shown ps' = shown ps /\ regular ps'.
Proof. intros tab ps R F. exists (layout tab 0 false ps). split; [now apply C68_layout|]. split; [apply shown_layout|now apply regular_layout]. Qed.
Print Assumptions C68_pieces_partial.
Lemma layout_shown : forall tab ps d nl, layout tab d nl (shown ps) = layout tab d nl ps.
Proof. intros tab ps. induction ps as [|p ps IH]; intros d nl; [reflexivity|]. destruct p; cbn; rewrite ?IH; reflexivity. Qed.
(** The blanks of a text do not matter, ... *)
Theorem C68_blanks : forall tab ps qs, regular ps -> regular qs -> fits tab (length ps) -> fits tab (length qs) -> shown ps = shown qs ->
  fmt tab (text_of ps) = fmt tab (text_of qs).
Proof. intros tab ps qs R R' F F' S. rewrite !C68_layout by assumption. do 2 f_equal. rewrite <- (layout_shown tab ps), S. apply layout_shown. Qed.
Print Assumptions C68_blanks.
(** ... and so formatting twice is formatting once. *)
Theorem C68_twice : forall tab ps r, regular ps -> fmt tab (text_of ps) = Some r -> fits tab (length ps) -> fits tab (length r) -> fmt tab r = Some r.
Proof.
  intros tab ps r R E F F'. rewrite C68_layout in E by assumption. injection E as <-. rewrite C68_layout.
  - do 2 f_equal. rewrite <- (layout_shown tab (layout tab 0 false ps)), shown_layout. apply layout_shown.
  - now apply regular_layout.
  - assert (L : forall l, (length l <= length (text_of l))%nat).
    { induction l as [|p l IHl]; [cbn; lia|]. rewrite text_of_cons, app_length. destruct p; cbn [text1 length]; lia. }
    specialize (L (layout tab 0 false ps)). unfold fits in *. destruct F' as [A B]. split; [lia|]. eapply Z.le_lt_trans; [|exact B]. apply Z.mul_le_mono_nonneg_l; lia.
Qed.
Print Assumptions C68_twice.

(** A text that is not too long is formatted, whatever it is. *)
Lemma go_total : forall tab t s, (Z.abs (f_tabs s) + Z.of_nat (length t) < 2147483648 /\ Z.abs tab * (Z.abs (f_tabs s) + Z.of_nat (length t)) < 2147483648)%Z -> fmt_go tab s t <> None.
Proof.
  induction t as [|ch t IH]; intros s (A & B); [discriminate|]. cbn [fmt_go]. cbn [length] in A, B. rewrite Nat2Z.inj_succ in A, B.
  assert (G : exists s1 o, fmt_step tab s ch = Some (s1, o) /\ (Z.abs (f_tabs s1) <= Z.abs (f_tabs s) + 1)%Z).
  { unfold fmt_step. destruct ((ch =? 34)%N && negb (f_escape s)); [eexists _, _; split; [reflexivity|cbn; lia]|]. cbn [f_string].
    destruct (f_string s); [eexists _, _; split; [reflexivity|cbn; lia]|]. unfold code_step. cbn [f_comment f_newline f_tabs f_string f_escape].
    match goal with |- context [if ?b then Some (?x, ?y) else _] => destruct b end; [eexists _, _; split; [reflexivity|cbn; lia]|]. unfold plain_step. cbn [f_tabs f_string f_escape].
    destruct (blank ch); [eexists _, _; split; [reflexivity|cbn; lia]|].
    set (b := (if closing ch then f_tabs s - 1 else f_tabs s)%Z). assert (Hb : (Z.abs b <= Z.abs (f_tabs s) + 1)%Z) by (unfold b; destruct (closing ch); lia).
    assert (I32 : forall z, (Z.abs z < 2147483648)%Z -> i32 z = Some z) by (intros z Hz; unfold i32; destruct (Z.leb_spec (-2147483648) z), (Z.leb_spec z 2147483647); cbn; auto; lia).
    rewrite I32 by lia. unfold line_break.
    assert (M : (Z.abs (b * tab) < 2147483648)%Z). { rewrite Z.abs_mul, Z.mul_comm. eapply Z.le_lt_trans; [|exact B]. apply Z.mul_le_mono_nonneg_l; lia. }
    rewrite (I32 (b * tab)%Z) by exact M.
    assert (Ha : (Z.abs (if opening ch then b + 1 else b) <= Z.abs (f_tabs s) + 1)%Z).
    { unfold b in *. destruct (closing ch) eqn:C, (opening ch) eqn:O; try lia. }
    match goal with |- context [if ?n then Some (10%N :: _) else _] => destruct n end; rewrite I32 by lia; eexists _, _; (split; [reflexivity|exact Ha]). }
  destruct G as (s1 & o & -> & H). specialize (IH s1). destruct (fmt_go tab s1 t) as [[s2 r]|]; [discriminate|]. intros _. apply IH; [|reflexivity].
  split; [lia|]. eapply Z.le_lt_trans; [|exact B]. apply Z.mul_le_mono_nonneg_l; lia.
Qed.
Theorem C68_total : forall tab t, fits tab (length t) -> exists r, fmt tab t = Some r.
Proof.
  intros tab t F. pose proof (go_total tab t fstart F) as H. unfold fmt. destruct (fmt_go tab fstart t) as [[s r]|]; [|congruence]. cbn. eauto.
Qed.
Print Assumptions C68_total.

(** ** Examples: a text with brackets, strings and both kinds of comments. *)
Definition pieces : list piece :=
  [Block (tx " head "); Blank 10%N; Solid 120%N; Solid 61%N; Solid 123%N; Solid 97%N; Solid 58%N; Quoted (tx "b  {,\" ++ 34%N :: tx " c"); Solid 44%N;
   Remark (tx " note, [1]"); Blank 10%N; Blank 32%N; Solid 98%N; Solid 58%N; Solid 91%N; Solid 49%N; Solid 44%N; Blank 32%N; Solid 50%N; Solid 93%N; Solid 125%N].
Example C68_example_regular : regular pieces /\ fits 4 (length pieces).
Proof. split; [|split; reflexivity]. cbn. repeat split; try discriminate; intuition discriminate. Qed.
Definition formatted (tab : Z) (s : text) : text := match fmt tab s with Some r => r | None => [] end.
Example C68_example_layout : fmt 2 (text_of pieces) = Some (tx "/* head */" ++ 10%N :: tx "x={" ++ 10%N :: tx "  a: " ++ 34%N :: tx "b  {,\" ++ 34%N :: tx " c" ++ 34%N :: tx "," ++ 10%N :: tx "  // note, [1]" ++
  10%N :: tx "  b: [" ++ 10%N :: tx "    1," ++ 10%N :: tx "    2" ++ 10%N :: tx "  ]" ++ 10%N :: tx "}").
Proof. vm_compute. reflexivity. Qed.
Example C68_example_blanks : regular (Blank 32%N :: pieces) /\ shown (Blank 32%N :: pieces) = shown pieces /\ fmt 2 (text_of (Blank 32%N :: pieces)) = fmt 2 (text_of pieces).
Proof. split; [|split; [reflexivity|vm_compute; reflexivity]]. cbn. repeat split; try discriminate; intuition discriminate. Qed.
Example C68_example_twice : fmt 2 (formatted 2 (text_of pieces)) = Some (formatted 2 (text_of pieces)).
Proof. vm_compute. reflexivity. Qed.
Example C68_example_total : fits 4 (length (tx "])}" ++ tx "((")) /\ fmt 4 (tx "])}((") <> None.
Proof. split; [split; reflexivity|vm_compute; discriminate]. Qed.

(** ** Refutations *)

(** A string after one with an escape other than a quote loses its spaces. *)
Definition q (t : text) : text := 34%N :: t ++ [34%N].
Theorem C68_string_refuted : fmt 2 (q (tx "a\n") ++ q (tx "c d")) = Some (q (tx "a\n") ++ q (tx "cd")).
Proof. vm_compute. reflexivity. Qed.
Print Assumptions C68_string_refuted.
(** A string on the line after a remark becomes part of the remark. *)
Theorem C68_remark_refuted : fmt 2 (tx "// a" ++ 10%N :: q (tx "b")) = Some (tx "// a" ++ q (tx "b")).
Proof. vm_compute. reflexivity. Qed.
Print Assumptions C68_remark_refuted.
(** A quote in a remark: what follows is left as it is, up to the next quote. *)
Theorem C68_quote_refuted : fmt 2 (tx "// a " ++ 34%N :: 10%N :: tx "b  c") = Some (tx "// a " ++ 34%N :: 10%N :: tx "b  c") /\ fmt 2 (tx "// a " ++ 10%N :: tx "b  c") = Some (tx "// a " ++ 10%N :: tx "bc").
Proof. split; vm_compute; reflexivity. Qed.
Print Assumptions C68_quote_refuted.
(** Two slashes with a space between become a remark, and formatting again gives another text. *)
Theorem C68_slash_refuted : fmt 2 (tx "a/ /b c,") = Some (tx "a//bc,") /\ fmt 2 (tx "a/ /b" ++ 10%N :: tx "c d") = Some (tx "a//bcd").
Proof. split; vm_compute; reflexivity. Qed.
Print Assumptions C68_slash_refuted.
(** Comments in comments are kept in one piece when a character follows the inner one. *)
Example C68_example_nested : fmt 2 (tx "[/* a /* b */ c */ 1, 2 3]") = Some (tx "[" ++ 10%N :: tx "  /* a /* b */ c */" ++ 10%N :: tx "  1," ++ 10%N :: tx "  23" ++ 10%N :: tx "]").
Proof. vm_compute. reflexivity. Qed.
(** A comment that ends with two stars, or with the end of a comment in it, has no end: the rest is copied. *)
Theorem C68_stars_refuted : fmt 2 (tx "[/* a **/ 1, 2 3]") = Some (tx "[" ++ 10%N :: tx "  /* a **/ 1, 2 3]") /\ fmt 2 (tx "[/* /* b */*/ 1, 2 3]") = Some (tx "[" ++ 10%N :: tx "  /* /* b */*/ 1, 2 3]").
Proof. split; vm_compute; reflexivity. Qed.
Print Assumptions C68_stars_refuted.
(** Words run together: code does not mean the same. *)
Theorem C68_words_refuted : fmt 2 (tx "return x") = Some (tx "returnx").
Proof. vm_compute. reflexivity. Qed.
Print Assumptions C68_words_refuted.
(** With a large width of the tab, it stops with an overflow. *)
Theorem C68_width_refuted : forall tab, (1073741824 <= tab <= 2147483647)%Z -> fmt tab (tx "[[1]]") = None.
Proof.
  intros tab H. assert (E1 : i32 (1 * tab) = Some tab) by (unfold i32; destruct (Z.leb_spec (-2147483648) (1 * tab)), (Z.leb_spec (1 * tab) 2147483647); cbn [andb]; try lia; f_equal; lia).
  assert (E2 : i32 (2 * tab) = None) by (unfold i32; destruct (Z.leb_spec (2 * tab) 2147483647); [lia|now rewrite andb_false_r]).
  unfold fmt. change (tx "[[1]]") with [91; 91; 49; 93; 93]%N. cbn [fmt_go].
  change (fmt_step tab fstart 91) with (Some (at_ 1 true CNone, [91%N])). cbv iota beta. cbn [fmt_go].
  replace (fmt_step tab (at_ 1 true CNone) 91) with (Some (at_ 2 true CNone, (10%N :: repeat 32%N (Z.to_nat tab)) ++ [91%N])).
  2:{ unfold fmt_step, code_step, plain_step. cbn -[i32 Z.mul]. change (i32 1) with (Some 1%Z). cbv iota beta. unfold line_break. rewrite E1. reflexivity. }
  cbv iota beta. replace (fmt_step tab (at_ 2 true CNone) 49) with (@None (fstate * text)); [reflexivity|].
  unfold fmt_step, code_step, plain_step. cbn -[i32 Z.mul]. change (i32 2) with (Some 2%Z). cbv iota beta. unfold line_break. rewrite E2. reflexivity.
Qed.
Print Assumptions C68_width_refuted.
