(** * Lemmas about types as texts. *)
From Coq Require Import String Ascii List Bool Arith Lia.
From Verif Require Import TypeModel NodesModel NodesSpec AstSpec TypeTextModel TypeTextSpec.
Import ListNotations.
Local Open Scope string_scope.
Local Open Scope nat_scope.
Local Open Scope list_scope.

Lemma app_assoc_s : forall a b c : string, ((a ++ b) ++ c = a ++ (b ++ c))%string.
Proof. induction a as [|x a IH]; intros b c; [reflexivity|]. cbn. now rewrite IH. Qed.
Lemma length_app_s : forall a b : string, String.length (a ++ b) = String.length a + String.length b.
Proof. induction a as [|x a IH]; intros b; [reflexivity|]. cbn. now rewrite IH. Qed.
Lemma follows_tag : forall r, follows r -> tag "[" (skip r) = None.
Proof.
  induction r as [|c r IH]; intros H; [reflexivity|]. cbn [follows skip] in *. destruct (white c); [auto|]. cbn [tag]. destruct (Ascii.eqb_spec "[" c) as [E|]; [congruence|reflexivity].
Qed.

(** The first character of a type. *)
Definition head_ok (d : string) : Prop := exists c r, d = String c r /\ white c = false /\ c <> "]"%char /\ c <> ")"%char.
Lemma skip_head : forall d r, head_ok d -> skip (d ++ r)%string = (d ++ r)%string.
Proof. intros d r (c & s & -> & W & _). cbn [append skip]. now rewrite W. Qed.
Lemma name_ok : forall c, name_char c -> stops c = false /\ head_ok (String c "").
Proof.
  intros c H. assert (A : forallb (fun c => negb (stops c)) (list_ascii_of_string "abcdefghijklmnopqrstuvwxyzABCDEFGHIJKLMNOPQRSTUVWXYZ0123456789_") = true) by reflexivity.
  pose proof (proj1 (forallb_forall _ _) A c H) as S. apply negb_true_iff in S. split; [exact S|]. unfold stops in S. apply orb_false_elim in S. destruct S as [W S]. exists c, "". split; [reflexivity|]. split; [exact W|]. split; intros ->; discriminate.
Qed.
Lemma until_name : forall x r, Forall name_char (list_ascii_of_string x) -> until (x ++ " " ++ r)%string = (x, (" " ++ r)%string).
Proof.
  induction x as [|c x IH]; intros r H; [reflexivity|]. cbn [list_ascii_of_string] in H. inversion H as [|? ? Hc Hx]; subst. cbn [append until]. destruct (name_ok c Hc) as [-> _]. change (String " " r) with (" " ++ r)%string. now rewrite (IH r Hx).
Qed.
Lemma tag_name : forall k x r, ~ In " "%char (list_ascii_of_string k) -> prefix k x = false -> tag k (x ++ " " ++ r)%string = None.
Proof.
  induction k as [|a k IH]; intros x r Hk H; [destruct x; discriminate|]. cbn [list_ascii_of_string] in Hk. destruct x as [|b x].
  - cbn [append tag]. destruct (Ascii.eqb_spec a " ") as [E|]; [exfalso; apply Hk; now left|reflexivity].
  - cbn [prefix append tag] in *. destruct (ascii_dec a b) as [->|N]; [rewrite Ascii.eqb_refl; apply IH; auto; intros I; apply Hk; now right|]. destruct (Ascii.eqb_spec a b); [contradiction|reflexivity].
Qed.
Lemma keyword_space : forall k, In k keywords -> ~ In " "%char (list_ascii_of_string k).
Proof. intros k H. cbn in H. repeat (destruct H as [<-|H]; [cbn; intuition discriminate|]). destruct H. Qed.

Definition reads (t : ty) (d : string) : Prop :=
  head_ok d /\ exists b, type_body b t /\ forall n rest, String.length d < n -> follows rest -> type_rule n (d ++ rest)%string = ROk b rest.

Lemma atom_reads : forall d t w, In (d, t, w) [("any", TAny, "any"); ("bool", TBool, "bool"); ("f64", TF64, "f64"); ("str", TStr, "str"); ("vec4", TVec4, "vec4"); ("mat4", TMat4, "mat4"); ("link", TLink, "link");
  ("sec[bool]", TSecret TBool, "sec_bool"); ("sec[f64]", TSecret TF64, "sec_f64"); ("[]", TArray TAny, "arr_any"); ("{}", TObject, "obj_any")] -> reads t d.
Proof.
  intros d t w H. split.
  - cbn in H. repeat (destruct H as [H|H]; [injection H as <- <- <-; eexists _, _; split; [reflexivity|]; split; [reflexivity|]; split; discriminate|]). destruct H.
  - exists [flag w]. split.
    + apply Tb_word. cbn in H. repeat (destruct H as [H|H]; [injection H as <- <- <-; simpl; auto 20|]). destruct H.
    + intros [|n] rest Hn F; [lia|]. cbn in H. repeat (destruct H as [H|H]; [injection H as <- <- <-; reflexivity|]). destruct H.
Qed.
(** Alternatives that do not fit, by computation. *)
Ltac fails := repeat match goal with |- orelse ?a ?x = _ => change a with RFail; change (orelse RFail x) with x end.
Lemma wrapped_bare : forall R k w rest, tag k (k ++ rest)%string = Some rest -> follows rest -> wrapped R k w (k ++ rest)%string = RFail.
Proof. intros R k w rest E F. unfold wrapped. rewrite E. now rewrite (follows_tag rest F). Qed.
Lemma wrapped_yes : forall R k w d rest b, tag k (k ++ "[" ++ d ++ "]" ++ rest)%string = Some ("[" ++ d ++ "]" ++ rest)%string -> R (skip (d ++ "]" ++ rest)) = ROk b ("]" ++ rest)%string ->
  wrapped R k w (k ++ "[" ++ d ++ "]" ++ rest)%string = ROk [SNode w b] rest.
Proof. intros R k w d rest b E F. unfold wrapped. rewrite E. change (tag "[" (skip ("[" ++ d ++ "]" ++ rest))) with (Some (d ++ "]" ++ rest)%string). cbv iota beta. rewrite F. reflexivity. Qed.
(** `opt` and the like without a type *)
Lemma bare_reads : forall d t w, In (d, t, w) [("opt", TOption TAny, "opt_any"); ("res", TResult TAny, "res_any"); ("thr", TThread TAny, "thr_any"); ("in", TIn TAny, "in_any")] -> reads t d.
Proof.
  intros d t w H. split.
  - cbn in H. repeat (destruct H as [H|H]; [injection H as <- <- <-; eexists _, _; split; [reflexivity|]; split; [reflexivity|]; split; discriminate|]). destruct H.
  - exists [flag w]. split.
    + apply Tb_word. cbn in H. repeat (destruct H as [H|H]; [injection H as <- <- <-; simpl; auto 20|]). destruct H.
    + intros [|n] rest Hn F; [lia|]. cbn [In] in H.
      repeat (destruct H as [H|H]; [injection H as <- <- <-; cbn [type_rule]; fails; rewrite wrapped_bare by (try exact F; reflexivity); reflexivity|]). destruct H.
Qed.
Lemma array_not_bare : forall c s r w, c <> "]"%char -> word "[]" w ("" ++ "[" ++ String c s ++ r)%string = RFail.
Proof. intros c s r w N. unfold word. cbn [append tag]. rewrite Ascii.eqb_refl. destruct (Ascii.eqb_spec "]" c); [congruence|reflexivity]. Qed.
Lemma wrap_reads : forall k f t d w, In (k, f, w) [("", TArray, "arr"); ("opt", TOption, "opt"); ("res", TResult, "res"); ("thr", TThread, "thr"); ("in", TIn, "in")] ->
  reads t d -> reads (f t) (k ++ "[" ++ d ++ "]")%string.
Proof.
  intros k f t d w H (Hd & b & B & R). split.
  - cbn in H. repeat (destruct H as [H|H]; [injection H as <- <- <-; eexists _, _; split; [reflexivity|]; split; [reflexivity|]; split; discriminate|]). destruct H.
  - exists [SNode w b]. split; [apply Tb_node; [cbn in H|exact B]; repeat (destruct H as [H|H]; [injection H as <- <- <-; simpl; auto 20|]); destruct H|].
    intros [|n] rest Hn F; [lia|]. rewrite !length_app_s in Hn. cbn [String.length] in Hn.
    assert (E : forall r, type_rule n (skip (d ++ "]" ++ r)) = ROk b ("]" ++ r)%string) by (intros r; rewrite skip_head by exact Hd; apply R; [lia|cbn; discriminate]).
    destruct Hd as (c & s & -> & W & C1 & C2). rewrite !app_assoc_s. specialize (E rest).
    cbn [In] in H. repeat (destruct H as [H|H]; [injection H as <- <- <-; cbn [type_rule]; fails; try rewrite array_not_bare by assumption; fails;
      match goal with |- orelse (wrapped ?R ?k ?w _) _ = _ => rewrite (wrapped_yes R k w (String c s) rest b) by (try exact E; reflexivity) end; reflexivity|]). destruct H.
Qed.

Lemma until_name_ad_hoc : forall x d r, Forall name_char (list_ascii_of_string x) -> until (x ++ " " ++ d ++ r)%string = (x, (" " ++ d ++ r)%string).
Proof. intros. now apply until_name. Qed.
Lemma ad_hoc_reads : forall x t d, good_name x -> reads t d -> reads (TAdHoc x t) (x ++ " " ++ d)%string.
Proof.
  intros x t d (Nx & Cx & Kx) (Hd & b & B & R). assert (H0 : exists c s, x = String c s /\ name_char c) by (destruct x as [|c s]; [congruence|]; inversion Cx; eauto). destruct H0 as (c & s & Ex & Hc).
  destruct (name_ok c Hc) as (St & Hh). split; [destruct Hh as (c' & r' & E & W); injection E as <- <-; exists c, (s ++ " " ++ d)%string; split; [now rewrite Ex|exact W]|].
  exists [str "ad_hoc" x; SNode "ad_hoc_ty" b]. split; [now apply Tb_ad_hoc_of|]. intros [|n] rest Hn F; [lia|]. rewrite !length_app_s in Hn. cbn [String.length] in Hn. assert (Lx : 1 <= String.length x) by (rewrite Ex; cbn; lia).
  rewrite !app_assoc_s. set (T := (x ++ " " ++ d ++ rest)%string).
  assert (K : forall k, In k keywords -> tag k T = None) by (intros k Hk; apply tag_name; [now apply keyword_space|auto]).
  assert (W : forall k w, In k keywords -> word k w T = RFail) by (intros k w Hk; unfold word; now rewrite (K k Hk)).
  assert (V : forall Q k w, In k keywords -> wrapped Q k w T = RFail) by (intros Q k w Hk; unfold wrapped; now rewrite (K k Hk)).
  assert (N : forall a p, stops a = true -> tag (String a p) T = None). { intros a p Ha. unfold T. rewrite Ex. cbn [append tag]. destruct (Ascii.eqb_spec a c); [congruence|reflexivity]. }
  assert (Sk : skip T = T). { unfold T. rewrite Ex. cbn [append skip]. destruct Hh as (c' & r' & E & Wc & _). injection E as <- <-. now rewrite Wc. }
  cbn [type_rule]. repeat match goal with |- context [word ?k ?w T] => rewrite (W k w) by (simpl; auto 20) | |- context [wrapped ?Q ?k ?w T] => rewrite (V Q k w) by (simpl; auto 20) end. unfold secret. rewrite (K "sec") by (simpl; auto 20).
  unfold word at 1 2. rewrite !N by reflexivity. unfold wrapped at 1. change (tag "" T) with (Some T). cbv iota beta. rewrite Sk. rewrite (N "["%char "" eq_refl). unfold closure_rule. rewrite (N "\"%char "(" eq_refl). cbn [orelse].
  unfold ad_hoc_rule. rewrite (K "sec") by (simpl; auto 20). unfold T. rewrite until_name_ad_hoc by exact Cx. rewrite Ex at 1. change (skip (" " ++ d ++ rest)) with (skip (d ++ rest)). rewrite skip_head by exact Hd. rewrite R by (auto; lia). now rewrite Ex.
Qed.
(** The arguments of a closure. *)
Lemma fails_closing : forall n r, type_rule (S n) (")" ++ r) = RFail.
Proof. intros n r. reflexivity. Qed.
Lemma cl_list_reads : forall ts ds, Forall2 reads ts ds -> forall a, comma_list (map Some ds) = Some a ->
  length ds <= String.length a /\ exists l, type_args l ts /\
  forall n k rest, String.length a < n -> length ds < k -> cl_list k (type_rule n) (skip (a ++ ")" ++ rest)) = ROk l (")" ++ rest)%string.
Proof.
  intros ts ds H. induction H as [|t d ts ds (Hd & b & B & R) F IH]; intros a E.
  - injection E as <-. split; [cbn; lia|]. exists []. split; [constructor|]. intros [|n] [|k] rest Hn Hk; cbn [length] in *; try lia. reflexivity.
  - assert (Ld : 1 <= String.length d) by (destruct Hd as (c & s & -> & _); cbn; lia). destruct ds as [|d2 ds].
    + inversion F; subst. injection E as <-. split; [exact Ld|]. exists [SNode "cl_arg" b]. split; [constructor; [exact B|constructor]|]. intros n [|k] rest Hn Hk; [lia|]. cbn [cl_list]. rewrite skip_head by exact Hd. rewrite R by (auto; cbn; discriminate). reflexivity.
    + cbn [map] in E, IH. change (match comma_list (Some d2 :: map Some ds) with Some r => Some (d ++ ", " ++ r)%string | None => None end = Some a) in E.
      destruct (comma_list (Some d2 :: map Some ds)) as [a2|] eqn:E2; [|discriminate]. injection E as <-. destruct (IH a2 eq_refl) as (L2 & l & Al & Rl). rewrite !length_app_s. cbn [String.length].
      split; [cbn [length] in *; lia|]. exists (SNode "cl_arg" b :: l). split; [now constructor|]. intros n [|k] rest Hn Hk; [lia|]. cbn [cl_list]. rewrite !app_assoc_s. rewrite skip_head by exact Hd. rewrite R by (try lia; cbn; discriminate).
      change (String "," (String " " a2) ++ ")" ++ rest)%string with (", " ++ a2 ++ ")" ++ rest)%string. change (tag "," (skip (", " ++ a2 ++ ")" ++ rest))) with (Some (" " ++ a2 ++ ")" ++ rest)%string). cbv iota beta. change (skip (" " ++ a2 ++ ")" ++ rest)) with (skip (a2 ++ ")" ++ rest)). rewrite ?length_app_s in Hn. cbn [length String.length] in Hk, Hn, L2. rewrite Rl by (cbn [length]; lia). reflexivity.
Qed.
Lemma closure_reads : forall ts ds r a d, Forall2 reads ts ds -> comma_list (map Some ds) = Some a -> reads r d -> reads (TClosure ts r) ("\(" ++ a ++ ") -> " ++ d)%string.
Proof.
  intros ts ds r a d F E (Hd & b & B & R). split; [eexists _, _; split; [reflexivity|]; split; [reflexivity|]; split; discriminate|]. destruct (cl_list_reads ts ds F a E) as (La & l & Al & Rl).
  exists [SNode "closure_type" (l ++ [SNode "cl_ret" b])]. split; [now apply Tb_closure|]. intros [|n] rest Hn Fo; [lia|]. rewrite !length_app_s in Hn. cbn [String.length] in Hn. rewrite !app_assoc_s.
  cbn [type_rule]. fails. unfold closure_rule. change (tag "\(" ("\(" ++ a ++ ") -> " ++ d ++ rest)) with (Some (a ++ ") -> " ++ d ++ rest)%string). cbv iota beta.
  change (a ++ ") -> " ++ d ++ rest)%string with (a ++ ")" ++ (" -> " ++ d ++ rest))%string. rewrite Rl by lia.
  change (tag ")" (skip (")" ++ " -> " ++ d ++ rest))) with (Some (" -> " ++ d ++ rest)%string). cbv iota beta. change (tag "->" (skip (" -> " ++ d ++ rest))) with (Some (" " ++ d ++ rest)%string). cbv iota beta.
  change (skip (" " ++ d ++ rest)) with (skip (d ++ rest)). rewrite skip_head by exact Hd. rewrite R by (auto; lia). reflexivity.
Qed.
Lemma sayable_reads : forall k t, TypeModel.size t < k -> sayable t -> exists d, description t = Some d /\ reads t d.
Proof.
  induction k as [|k IH]; intros t Hk S; [lia|].
  assert (BR : forall word f w t empty, TypeModel.size t < k -> sayable t -> In (word, f, w) [("", TArray, "arr"); ("opt", TOption, "opt"); ("res", TResult, "res"); ("thr", TThread, "thr"); ("in", TIn, "in")] ->
    reads (f TAny) empty -> exists d, bracketed word t (description t) empty = Some d /\ reads (f t) d).
  { intros word f w u empty Hu Su I Re. destruct (IH u Hu Su) as (d & E & Rd). destruct u; try (cbn [bracketed]; rewrite E; eexists; split; [reflexivity|]; eapply wrap_reads; [exact I|exact Rd]). exists empty. auto. }
  inversion S; subst; cbn [TypeModel.size] in Hk.
  - eexists. split; [reflexivity|]. apply atom_reads with "any". simpl. auto 20.
  - eexists. split; [reflexivity|]. apply atom_reads with "bool". simpl. auto 20.
  - eexists. split; [reflexivity|]. apply atom_reads with "f64". simpl. auto 20.
  - eexists. split; [reflexivity|]. apply atom_reads with "vec4". simpl. auto 20.
  - eexists. split; [reflexivity|]. apply atom_reads with "mat4". simpl. auto 20.
  - eexists. split; [reflexivity|]. apply atom_reads with "str". simpl. auto 20.
  - eexists. split; [reflexivity|]. apply atom_reads with "link". simpl. auto 20.
  - eexists. split; [reflexivity|]. apply atom_reads with "obj_any". simpl. auto 20.
  - eexists. split; [reflexivity|]. apply atom_reads with "sec_bool". simpl. auto 20.
  - eexists. split; [reflexivity|]. apply atom_reads with "sec_f64". simpl. auto 20.
  - apply (BR "" TArray "arr"); [lia|auto|simpl; auto|]. apply atom_reads with "arr_any". simpl. auto 20.
  - apply (BR "opt" TOption "opt"); [lia|auto|simpl; auto|]. apply bare_reads with "opt_any". simpl. auto 20.
  - apply (BR "res" TResult "res"); [lia|auto|simpl; auto|]. apply bare_reads with "res_any". simpl. auto 20.
  - apply (BR "thr" TThread "thr"); [lia|auto|simpl; auto|]. apply bare_reads with "thr_any". simpl. auto 20.
  - apply (BR "in" TIn "in"); [lia|auto|simpl; auto 10|]. apply bare_reads with "in_any". simpl. auto 20.
  - destruct (IH t0) as (d & E & R); [lia|auto|]. cbn [description]. rewrite E. eexists. split; [reflexivity|]. now apply ad_hoc_reads.
  - destruct (IH r) as (d & E & R); [lia|auto|]. assert (A : exists ds, map description ts = map Some ds /\ Forall2 reads ts ds).
    { assert (Hs : fold_right (fun a n => TypeModel.size a + n) 0 ts < k) by lia. clear - IH H Hs. induction H as [|t ts Ht F IHF]; [exists []; auto|]. cbn [fold_right] in Hs. destruct (IH t) as (d & E & R); [lia|auto|]. destruct IHF as (ds & Em & Rs); [lia|]. exists (d :: ds). cbn [map]. rewrite E, Em. auto. }
    destruct A as (ds & Em & Rs). cbn [description]. rewrite Em, E.
    assert (C : forall ds : list string, exists a, comma_list (map Some ds) = Some a).
    { clear. induction ds as [|d [|d2 ds] IH]; [cbn; eauto|cbn; eauto|]. destruct IH as (a & Ea). cbn [map] in *. exists (d ++ ", " ++ a)%string. change (match comma_list (Some d2 :: map Some ds) with Some r => Some (d ++ ", " ++ r)%string | None => None end = Some (d ++ ", " ++ a)%string). now rewrite Ea. }
    destruct (C ds) as (a & Ea). rewrite Ea. eexists. split; [reflexivity|]. eapply closure_reads; eauto.
Qed.
