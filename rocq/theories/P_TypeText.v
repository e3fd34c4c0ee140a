(** * C69: a type is written so that it is read as the same type, and the list of functions is complete and sorted. *)
From Coq Require Import String Ascii List Bool Arith NArith Lia Sorted Permutation.
From Verif Require Import TypeModel LifetimeModel NodesModel NodesSpec AstModel AstSpec AstProofs P_Ast TypeTextModel TypeTextSpec TypeTextProofs StdModel PreludeModel.
Import ListNotations.
Local Open Scope string_scope.
Local Open Scope nat_scope.
Local Open Scope list_scope.

(** What is written for a type is read by the grammar up to its end, and converted to that type by the interpreter. *)
Theorem C69_read : forall t rest, sayable t -> follows rest ->
  exists d b, description t = Some d /\ read_type (d ++ rest) = ROk b rest /\ forall name ms, type_of name (tokens (SNode name b) ++ ms) = AOk t ms [].
Proof.
  intros t rest S F. destruct (sayable_reads (Datatypes.S (TypeModel.size t)) t) as (d & E & Hd & b & B & R); [lia|exact S|]. exists d, b. split; [exact E|]. split.
  - apply R; [rewrite length_app_s; lia|exact F].
  - intros name ms. now apply C60_type.
Qed.
Print Assumptions C69_read.
(** Hence no two types are written alike. *)
Theorem C69_unique : forall t u, sayable t -> sayable u -> description t = description u -> t = u.
Proof.
  intros t u St Su E. destruct (C69_read t "" St) as (d & b & D & R & T); [exact Logic.I|]. destruct (C69_read u "" Su) as (d2 & b2 & D2 & R2 & T2); [exact Logic.I|].
  rewrite D, D2 in E. injection E as <-. rewrite R in R2. injection R2 as <-. specialize (T "t" []). rewrite T2 in T. now injection T as <-.
Qed.
Print Assumptions C69_unique.
(** There is a text for exactly the types without secrets of other types than `bool` and `f64`. *)
Lemma comma_some : forall l a, comma_list l = Some a -> Forall (fun d => d <> None) l.
Proof.
  induction l as [|d [|e l] IH]; intros a H; [constructor|cbn in H; constructor; [congruence|constructor]|].
  change (match d, comma_list (e :: l) with Some d, Some r => Some (d ++ ", " ++ r)%string | _, _ => None end = Some a) in H. destruct d; [|discriminate]. destruct (comma_list (e :: l)) as [r|]; [|discriminate]. constructor; [discriminate|eauto].
Qed.
Lemma comma_all : forall l, Forall (fun d => d <> None) l -> comma_list l <> None.
Proof.
  induction l as [|d [|e l] IH]; intros H; [discriminate|inversion H; auto|]. inversion H; subst.
  change (match d, comma_list (e :: l) with Some d, Some r => Some (d ++ ", " ++ r)%string | _, _ => None end <> None). destruct d; [|congruence]. destruct (comma_list (e :: l)); [discriminate|]. exfalso. now apply IH.
Qed.
Lemma bracketed_some : forall w t d e, (t = TAny -> d <> None) -> bracketed w t d e <> None <-> d <> None.
Proof. intros w t d e H. destruct t; cbn [bracketed]; destruct d; split; intros; try discriminate; auto. Qed.
Lemma described : forall k t, TypeModel.size t < k -> description t <> None <-> secrets_ok t.
Proof.
  induction k as [|k IH]; intros t Hk; [lia|].
  assert (A : forall t, In t [TUnreachable; TVoid; TAny; TBool; TF64; TVec4; TMat4; TStr; TLink; TObject] -> description t <> None <-> secrets_ok t).
  { intros u H. split; [intros _; apply So_atom; simpl in *; tauto|]. intros _. simpl in H. repeat (destruct H as [<-|H]; [discriminate|]). destruct H. }
  assert (W : forall f u, In f [TArray; TOption; TResult; TThread; TIn] -> secrets_ok (f u) -> secrets_ok u).
  { intros f u Hf H. inversion H as [x Hx|g v Hg Hv|x v Hv|ts r Hts Hr]; subst; simpl in *.
    - repeat (destruct Hf as [<-|Hf]; [repeat (destruct Hx as [Hx|Hx]; [discriminate|]); destruct Hx|]). destruct Hf.
    - repeat (destruct Hf as [<-|Hf]; [repeat (destruct Hg as [<-|Hg]; [try discriminate; match goal with E : _ _ = _ _ |- _ => injection E as ->; exact Hv end|]); destruct Hg|]). destruct Hf.
    - repeat (destruct Hf as [<-|Hf]; [discriminate|]). destruct Hf.
    - repeat (destruct Hf as [<-|Hf]; [discriminate|]). destruct Hf. }
  destruct t; cbn [TypeModel.size] in Hk; try (apply A; simpl; auto 12; fail).
  1-3, 5-6: cbn [description]; rewrite bracketed_some by (intros ->; discriminate); rewrite IH by lia; split; intros H; [eapply So_wrap; [simpl; auto 10|exact H]|eapply W; [|exact H]; simpl; auto 10].
  - cbn [description]. split; intros H.
    + apply So_atom. destruct t; try (exfalso; now apply H); simpl; auto 20.
    + inversion H as [x Hx| | |]; subst; try (match goal with E : In _ [TArray; _; _; _; _] |- _ => simpl in E; repeat (destruct E as [<-|E]; [discriminate|]); destruct E end).
      simpl in Hx. repeat (destruct Hx as [Hx|Hx]; [try discriminate; injection Hx as <-; discriminate|]). destruct Hx.
  - cbn [description]. specialize (IH t). destruct (description t) as [d|].
    + split; [|discriminate]. intros _. apply So_ad_hoc. apply IH; [lia|discriminate].
    + split; [congruence|]. intros H. inversion H as [x Hx|g v Hg Hv|x v Hv|]; subst.
      * simpl in Hx. repeat (destruct Hx as [Hx|Hx]; [discriminate|]). destruct Hx.
      * simpl in Hg. repeat (destruct Hg as [<-|Hg]; [discriminate|]). destruct Hg.
      * apply IH in Hv; [congruence|lia].
  - cbn [description].
    assert (B : Forall (fun d => d <> None) (map description args) <-> Forall secrets_ok args).
    { assert (Hs : fold_right (fun a n => TypeModel.size a + n) 0 args < k) by lia. clear - IH Hs. induction args as [|t ts IHt]; [split; constructor|]. cbn [fold_right map] in *.
      split; intros H; inversion H; subst; constructor; try (apply IH; [lia|assumption]); apply IHt; auto; lia. }
    assert (Rr : description t <> None <-> secrets_ok t) by (apply IH; lia).
    split.
    + intros H. destruct (comma_list (map description args)) as [a|] eqn:E; [|congruence]. destruct (description t) as [d|]; [|congruence]. apply So_closure; [apply B; now apply comma_some with a|apply Rr; discriminate].
    + intros H. inversion H as [x Hx|g v Hg Hv|x v Hv|ts r Hts Hr]; subst.
      * simpl in Hx. repeat (destruct Hx as [Hx|Hx]; [discriminate|]). destruct Hx.
      * simpl in Hg. repeat (destruct Hg as [<-|Hg]; [discriminate|]). destruct Hg.
      * apply B in Hts. apply comma_all in Hts. destruct (comma_list (map description args)); [|congruence]. apply Rr in Hr. destruct (description t); [discriminate|congruence].
Qed.
Theorem C69_total : forall t, description t <> None <-> secrets_ok t.
Proof. intros t. apply (described (S (TypeModel.size t))). lia. Qed.
Print Assumptions C69_total.

(** Every type that the grammar reads is converted, and has a text. *)
Lemma orelse_ok : forall a b x r, orelse a b = ROk x r -> a = ROk x r \/ b = ROk x r.
Proof. intros [y s| |] b x r H; cbn in H; auto; discriminate. Qed.
Definition fine (R : string -> rres) : Prop := forall t b r, R t = ROk b r -> exists u, type_body b u /\ secrets_ok u.
Lemma word_fine : forall k w u t b r, In (w, u) type_words -> secrets_ok u -> word k w t = ROk b r -> exists u, type_body b u /\ secrets_ok u.
Proof. intros k w u t b r H S E. unfold word in E. destruct (tag k t); [|discriminate]. injection E as <- <-. exists u. split; [now apply Tb_word|exact S]. Qed.
Lemma wrapped_fine : forall R k w f t b r, fine R -> In (w, f) type_nodes -> In f [TArray; TOption; TResult; TThread; TIn] -> wrapped R k w t = ROk b r -> exists u, type_body b u /\ secrets_ok u.
Proof.
  intros R k w f t b r HR Hw Hf E. unfold wrapped in E. destruct (tag k t) as [s|]; [|discriminate]. destruct (tag "[" (skip s)) as [s2|]; [|discriminate]. destruct (R (skip s2)) as [b2 r2| |] eqn:E2; try discriminate.
  destruct (tag "]" (skip r2)); [|discriminate]. injection E as <- <-. destruct (HR _ _ _ E2) as (u & B & S). exists (f u). split; [now apply Tb_node|]. now apply So_wrap.
Qed.
Lemma secret_fine : fine secret.
Proof.
  intros t b r E. unfold secret in E. destruct (tag "sec" t) as [s|]; [|discriminate]. destruct (tag "[" (skip s)) as [s2|]; [|discriminate].
  destruct (orelse (word "bool" "sec_bool" (skip s2)) (word "f64" "sec_f64" (skip s2))) as [b2 r2| |] eqn:E2; try discriminate. destruct (tag "]" (skip r2)); [|discriminate]. injection E as <- <-.
  apply orelse_ok in E2. destruct E2 as [E2|E2]; (eapply word_fine; [| |exact E2]; [simpl; auto 20|apply So_atom; simpl; auto 20]).
Qed.
Lemma cl_list_fine : forall R, fine R -> forall k t l r, cl_list k R t = ROk l r -> exists ts, type_args l ts /\ Forall secrets_ok ts.
Proof.
  intros R HR. induction k as [|k IH]; intros t l r E; [discriminate|]. cbn [cl_list] in E. destruct (R t) as [b s| |] eqn:E1; [|injection E as <- <-; exists []; split; constructor|discriminate].
  destruct (HR _ _ _ E1) as (u & B & S). destruct (tag "," (skip s)) as [s2|].
  - destruct (cl_list k R (skip s2)) as [l2 r2| |] eqn:E2; try discriminate. injection E as <- <-. destruct (IH _ _ _ E2) as (ts & A & F). exists (u :: ts). split; constructor; auto.
  - injection E as <- <-. exists [u]. split; [constructor; [exact B|constructor]|constructor; [exact S|constructor]].
Qed.
Lemma closure_fine : forall R k, fine R -> fine (closure_rule R k).
Proof.
  intros R k HR t b r E. unfold closure_rule in E. destruct (tag "\(" t) as [s|]; [|discriminate]. destruct (cl_list k R (skip s)) as [l s2| |] eqn:E1; try discriminate. destruct (tag ")" (skip s2)) as [s3|]; [|discriminate].
  destruct (tag "->" (skip s3)) as [s4|]; [|discriminate]. destruct (R (skip s4)) as [b2 r2| |] eqn:E2; try discriminate. injection E as <- <-. destruct (HR _ _ _ E2) as (u & B & S). destruct (cl_list_fine R HR _ _ _ _ E1) as (ts & A & F).
  exists (TClosure ts u). split; [now apply Tb_closure|now apply So_closure].
Qed.
Lemma ad_hoc_fine : forall R, fine R -> fine (ad_hoc_rule R).
Proof.
  intros R HR t b r E. unfold ad_hoc_rule in E. destruct (tag "sec" t); [discriminate|]. destruct (until t) as [[|c x] s]; [discriminate|]. destruct (R (skip s)) as [b2 r2| |] eqn:E2; [|injection E as <- <-|discriminate].
  - injection E as <- <-. destruct (HR _ _ _ E2) as (u & B & S). exists (TAdHoc (String c x) u). split; [now apply Tb_ad_hoc_of|now apply So_ad_hoc].
  - exists (TAdHoc (String c x) TObject). split; [apply Tb_ad_hoc|apply So_ad_hoc, So_atom; simpl; auto 20].
Qed.
Lemma any_ok : forall f, In f [TArray; TOption; TResult; TThread; TIn] -> secrets_ok (f TAny). Proof. intros f H. apply So_wrap; [exact H|apply So_atom; simpl; auto 20]. Qed.
Lemma type_rule_fine : forall n, fine (type_rule n).
Proof.
  induction n as [|n IH]; intros t b r E; [discriminate|]. cbn [type_rule] in E.
  repeat (apply orelse_ok in E; destruct E as [E|E];
    [first [eapply word_fine; [| |exact E]; [simpl; auto 20|first [solve [apply So_atom; simpl; auto 20]|solve [apply any_ok; simpl; auto 10]]]
           |eapply wrapped_fine; [exact IH| | |exact E]; [simpl; auto 10|simpl; auto 10]
           |exact (secret_fine _ _ _ E)
           |exact (closure_fine _ _ IH _ _ _ E)]|]).
  exact (ad_hoc_fine _ IH _ _ _ E).
Qed.
Theorem C69_source : forall t b r, read_type t = ROk b r -> exists u d, (forall name ms, type_of name (tokens (SNode name b) ++ ms) = AOk u ms []) /\ description u = Some d.
Proof.
  intros t b r E. destruct (type_rule_fine _ _ _ _ E) as (u & B & S). apply C69_total in S. destruct (description u) as [d|] eqn:D; [|congruence]. exists u, d. split; [|exact D]. intros name ms. now apply C60_type.
Qed.
Print Assumptions C69_source.

(** ** The list of functions *)
Lemma put_perm : forall x l, Permutation (x :: l) (put x l).
Proof. intros x. induction l as [|y l IH]; [reflexivity|]. cbn [put]. destruct (not_after x y); [reflexivity|]. etransitivity; [apply perm_swap|]. now apply perm_skip. Qed.
Lemma sort_perm : forall l, Permutation l (sort_names l).
Proof. induction l as [|x l IH]; [reflexivity|]. change (sort_names (x :: l)) with (put x (sort_names l)). etransitivity; [apply perm_skip; exact IH|apply put_perm]. Qed.
Lemma compare_trans : forall a b c, String.compare a b <> Gt -> String.compare b c <> Gt -> String.compare a c <> Gt.
Proof.
  induction a as [|x a IH]; intros b c H1 H2; [destruct c; discriminate|]. destruct b as [|y b]; [cbn in H1; congruence|]. destruct c as [|z c]; [cbn in H2; congruence|].
  cbn [String.compare] in *. unfold Ascii.compare in *. destruct (N.compare_spec (N_of_ascii x) (N_of_ascii y)) as [E|E|E]; [| |congruence]; destruct (N.compare_spec (N_of_ascii y) (N_of_ascii z)) as [E'|E'|E']; try congruence.
  - rewrite E, E', N.compare_refl. eauto.
  - assert (N.compare (N_of_ascii x) (N_of_ascii z) = Lt) as -> by (apply N.compare_lt_iff; lia). discriminate.
  - assert (N.compare (N_of_ascii x) (N_of_ascii z) = Lt) as -> by (apply N.compare_lt_iff; lia). discriminate.
  - assert (N.compare (N_of_ascii x) (N_of_ascii z) = Lt) as -> by (apply N.compare_lt_iff; lia). discriminate.
Qed.
Lemma leb_gt : forall a b, String.leb a b = true <-> String.compare a b <> Gt.
Proof. intros a b. unfold String.leb. destruct (String.compare a b); split; congruence. Qed.
Lemma put_sorted : forall x l, sorted_names l -> sorted_names (put x l).
Proof.
  intros x l H. induction H as [|y l S IH F]; [repeat constructor|]. cbn [put]. unfold not_after. destruct (String.compare (f_name x) (f_name y)) eqn:C.
  - constructor; [constructor; assumption|]. constructor; [apply leb_gt; congruence|]. eapply Forall_impl; [|exact F]. intros z Hz. apply leb_gt. apply leb_gt in Hz. apply compare_trans with (f_name y); congruence.
  - constructor; [constructor; assumption|]. constructor; [apply leb_gt; congruence|]. eapply Forall_impl; [|exact F]. intros z Hz. apply leb_gt. apply leb_gt in Hz. apply compare_trans with (f_name y); congruence.
  - constructor; [exact IH|]. apply (Permutation_Forall (put_perm x l)). constructor; [|exact F]. destruct (String.leb_total (f_name x) (f_name y)) as [T|T]; [|exact T]. apply leb_gt in T. congruence.
Qed.
Lemma put_same : forall n x l, same_name n (put x l) = same_name n (x :: l).
Proof.
  intros n x. induction l as [|y l IH]; [reflexivity|]. cbn [put]. unfold not_after. destruct (String.compare (f_name x) (f_name y)) eqn:C; try reflexivity.
  unfold same_name in *. cbn [filter] in *. rewrite IH. destruct (String.eqb_spec (f_name x) n) as [E1|], (String.eqb_spec (f_name y) n) as [E2|]; try reflexivity.
  exfalso. rewrite E1, E2 in C. assert (String.compare n n = Eq) as Q; [|congruence]. clear. induction n as [|c n IH]; [reflexivity|]. cbn [String.compare]. unfold Ascii.compare. now rewrite N.compare_refl.
Qed.
Lemma all_some_forall : forall A (l : list (option A)) r, all_some l = Some r -> l = map Some r.
Proof. intros A. induction l as [|[x|] l IH]; intros r H; [now injection H as <-| |discriminate]. cbn [all_some] in H. destruct (all_some l) as [s|]; [|discriminate]. injection H as <-. cbn. now rewrite (IH s eq_refl). Qed.
Lemma all_some_map2 : forall A B (f : A -> option B) l r, all_some (map f l) = Some r -> Forall2 (fun x y => f x = Some y) l r.
Proof. intros A B f. induction l as [|x l IH]; intros r H; [injection H as <-; constructor|]. cbn [map all_some] in H. destruct (f x) as [y|] eqn:E; [|discriminate]. destruct (all_some (map f l)) as [s|]; [|discriminate]. injection H as <-. constructor; auto. Qed.
Lemma numbered_nth : forall A B (f : nat -> A -> B) l k i, nth_error (numbered f k l) i = option_map (f (k + i)) (nth_error l i).
Proof. intros A B f. induction l as [|x l IH]; intros k [|i]; cbn [numbered nth_error]; auto; [now rewrite Nat.add_0_r|]. rewrite IH. f_equal. f_equal. lia. Qed.
Lemma digit_text : forall i, i < 10 -> exists c, digit i = String c "" /\ nth_error digits i = Some c.
Proof. intros i H. do 10 (destruct i as [|i]; [eexists; split; reflexivity|]). lia. Qed.
Lemma decimal_text : forall k n, n < k -> number_text n (decimal_ k n).
Proof.
  induction k as [|k IH]; intros n H; [lia|]. cbn [decimal_]. destruct (Nat.ltb_spec n 10) as [L|L].
  - destruct (digit_text n L) as (c & -> & E). now apply Nt_digit.
  - destruct (digit_text (n mod 10)) as (c & -> & E); [apply Nat.mod_upper_bound; lia|]. rewrite (Nat.div_mod n 10) at 1 by lia. apply Nt_more; [|apply IH|exact E].
    + intros Z. apply Nat.div_small_iff in Z; lia.
    + assert (n / 10 < n) by (apply Nat.div_lt; lia). lia.
Qed.
Lemma arg_n_name : forall i, arg_name i (arg_n i).
Proof. intros i. exists (decimal i). split; [reflexivity|]. apply decimal_text. lia. Qed.
Lemma list_ext_describes : forall f e, list_ext f = Some e -> describes_ext f e.
Proof.
  intros f e H. unfold list_ext in H. destruct (description (x_ret f)) as [d|] eqn:D; [|discriminate]. destruct (all_some (numbered (list_ext_arg (x_tys f)) 0 (x_lts f))) as [args|] eqn:A; [|discriminate]. injection H as <-.
  apply all_some_forall in A. split; [reflexivity|]. split; [reflexivity|]. split; [exact D|]. cbn [f_arguments]. split.
  - rewrite <- (map_length Some), <- A. clear. generalize 0. induction (x_lts f) as [|x l IH]; intros n; [reflexivity|]. cbn. now rewrite IH.
  - intros i l Hl. pose proof (numbered_nth _ _ (list_ext_arg (x_tys f)) (x_lts f) 0 i) as N. rewrite A, Hl in N. cbn [option_map Nat.add] in N. rewrite nth_error_map in N. destruct (nth_error args i) as [g|] eqn:G; [|discriminate].
    injection N as N. unfold list_ext_arg in N. destruct (nth_error (x_tys f) i) as [t|] eqn:T; [|discriminate]. destruct (description t) as [dt|] eqn:Dt; [|discriminate]. injection N as ->. eexists t, _. split; [reflexivity|]. split; [reflexivity|]. cbn [g_name g_takes g_lifetime]. split; [apply arg_n_name|]. split; [exact Dt|]. destruct l; [eexists; split; [reflexivity|apply arg_n_name]|reflexivity|reflexivity].
Qed.
Lemma list_loaded_describes : forall f e, list_loaded f = Some e -> describes_loaded f e.
Proof.
  intros f e H. unfold list_loaded in H. destruct (description (l_ret f)) as [d|] eqn:D; [|discriminate].
  match type of H with match ?x with _ => _ end = _ => destruct x as [args|] eqn:A; [|discriminate] end. injection H as <-. apply all_some_map2 in A. split; [reflexivity|]. split; [reflexivity|]. split; [exact D|]. cbn [f_arguments].
  induction A as [|a g l r Ha F IH]; constructor; auto. destruct (description (a_ty a)) as [dt|] eqn:Dt; [|discriminate]. injection Ha as <-. cbn. auto.
Qed.
Lemma Forall2_weaken : forall A B (P Q : A -> B -> Prop), (forall x y, P x y -> Q x y) -> forall l r, Forall2 P l r -> Forall2 Q l r.
Proof. intros A B P Q H l r F. induction F; constructor; auto. Qed.
(** One entry for every function, by name; functions of the same name stand in the order of their declarations. *)
Theorem C69_list : forall exts fns l, list_functions exts fns = Some l ->
  sorted_names l /\ exists a b, Forall2 describes_ext exts a /\ Forall2 describes_loaded fns b /\ Permutation (a ++ b) l /\ forall n, same_name n l = same_name n (a ++ b).
Proof.
  intros exts fns l H. unfold list_functions in H. destruct (all_some (map list_ext exts)) as [a|] eqn:A; [|discriminate]. destruct (all_some (map list_loaded fns)) as [b|] eqn:B; [|discriminate]. injection H as <-.
  apply all_some_map2 in A. apply all_some_map2 in B. split; [|exists a, b; split; [|split; [|split]]].
  - generalize (a ++ b). intros l. induction l as [|x l IH]; [constructor|]. now apply put_sorted.
  - clear B. eapply Forall2_weaken; [|exact A]; apply list_ext_describes.
  - clear A. eapply Forall2_weaken; [|exact B]; apply list_loaded_describes.
  - apply sort_perm.
  - intros n. generalize (a ++ b). intros l. induction l as [|x l IH]; [reflexivity|]. change (sort_names (x :: l)) with (put x (sort_names l)). rewrite put_same. unfold same_name in IH |- *. cbn [filter]. now rewrite IH.
Qed.
Print Assumptions C69_list.
(** It is made for every module whose types have texts. *)
Definition listable (exts : list ext_fn) (fns : list loaded_fn) : Prop :=
  (forall f, In f exts -> secrets_ok (x_ret f) /\ Forall secrets_ok (x_tys f) /\ length (x_lts f) <= length (x_tys f)) /\
  (forall f, In f fns -> secrets_ok (l_ret f) /\ forall a, In a (l_args f) -> secrets_ok (a_ty a)).
Lemma all_some_total : forall A (l : list (option A)), (forall x, In x l -> x <> None) -> exists r, all_some l = Some r.
Proof. intros A. induction l as [|[x|] l IH]; intros H; [exists []; reflexivity| |exfalso; apply (H None); simpl; auto]. destruct IH as (r & E); [intros; apply H; now right|]. exists (x :: r). cbn. now rewrite E. Qed.
Theorem C69_list_total : forall exts fns, listable exts fns -> exists l, list_functions exts fns = Some l.
Proof.
  intros exts fns (HE & HF). unfold list_functions. destruct (all_some_total _ (map list_ext exts)) as (a & ->).
  - intros x Hx. apply in_map_iff in Hx. destruct Hx as (f & <- & Hf). destruct (HE f Hf) as (S & T & N). unfold list_ext. apply C69_total in S. destruct (description (x_ret f)); [|congruence].
    destruct (all_some_total _ (numbered (list_ext_arg (x_tys f)) 0 (x_lts f))) as (r & ->); [|discriminate]. intros y Hy. apply In_nth_error in Hy. destruct Hy as (i & Hi). rewrite numbered_nth in Hi. destruct (nth_error (x_lts f) i) as [l|] eqn:E; [|discriminate].
    injection Hi as <-. unfold list_ext_arg. cbn [Nat.add]. destruct (nth_error (x_tys f) i) as [t|] eqn:E2; [|apply nth_error_None in E2; assert (i < length (x_lts f)) by (apply nth_error_Some; congruence); lia].
    apply nth_error_In in E2. pose proof (proj1 (Forall_forall _ _) T t E2) as St. apply C69_total in St. destruct (description t); [discriminate|congruence].
  - destruct (all_some_total _ (map list_loaded fns)) as (b & ->); [|eauto]. intros x Hx. apply in_map_iff in Hx. destruct Hx as (f & <- & Hf). destruct (HF f Hf) as (S & T). unfold list_loaded. apply C69_total in S. destruct (description (l_ret f)); [|congruence].
    match goal with |- match all_some ?l with _ => _ end <> None => destruct (all_some_total _ l) as (r & ->); [|discriminate] end. intros y Hy. apply in_map_iff in Hy. destruct Hy as (g & <- & Hg). specialize (T g Hg). apply C69_total in T. destruct (description (a_ty g)); [discriminate|congruence].
Qed.
Print Assumptions C69_list_total.
(** The standard library. *)
Definition std_exts (O : math) (L : libm) (n : nat) : list ext_fn := map (fun e => ExtFn (PreludeModel.e_name e) (p_lts (e_decl e)) (p_tys (e_decl e)) (p_ret (e_decl e))) (std O L n).
Definition sayable_b : ty -> bool :=
  fix go t := match t with
  | TAny | TBool | TF64 | TVec4 | TMat4 | TStr | TLink | TObject | TSecret TBool | TSecret TF64 => true
  | TArray t | TOption t | TResult t | TThread t | TIn t => go t
  | _ => false
  end.
Lemma sayable_b_ok : forall t, sayable_b t = true -> sayable t /\ secrets_ok t.
Proof.
  induction t; intros H; try discriminate; try (split; [constructor|apply So_atom; simpl; auto 20]; fail); try (destruct (IHt H); split; [constructor; assumption|eapply So_wrap; [simpl; auto 10|assumption]]).
  destruct t; try discriminate; (split; [constructor|apply So_atom; simpl; auto 20]).
Qed.
Theorem C69_std : forall O L n, listable (std_exts O L n) [] /\
  forall f t, In f (std_exts O L n) -> In t (x_ret f :: x_tys f) -> t = TVoid \/ sayable t.
Proof.
  intros O L n. assert (H : forallb (fun f => forallb (fun t => sayable_b t || match t with TVoid => true | _ => false end) (x_ret f :: x_tys f) && (length (x_lts f) <=? length (x_tys f))) (std_exts O L n) = true) by (vm_compute; reflexivity).
  assert (K : forall f, In f (std_exts O L n) -> (forall t, In t (x_ret f :: x_tys f) -> (t = TVoid \/ sayable t) /\ secrets_ok t) /\ length (x_lts f) <= length (x_tys f)).
  { intros f Hf. apply (proj1 (forallb_forall _ _) H) in Hf. apply andb_prop in Hf. destruct Hf as [A B]. split; [|now apply Nat.leb_le in B]. intros t Ht. apply (proj1 (forallb_forall _ _) A) in Ht. apply orb_prop in Ht. destruct Ht as [Ht|Ht].
    - destruct (sayable_b_ok t Ht). auto.
    - destruct t; try discriminate. split; [now left|apply So_atom; simpl; auto]. }
  split; [split; [|intros f []]|intros f t Hf Ht; now apply K with f]. intros f Hf. destruct (K f Hf) as [A B]. split; [apply A; now left|]. split; [apply Forall_forall; intros t Ht; apply A; now right|exact B].
Qed.
Print Assumptions C69_std.

(** Names end at punctuation, and any blank separates the parts of a type. *)
Theorem C69_ends : forall c, In c (list_ascii_of_string "(){}[],.:;=<>*+-/%^?~|&!\" ++ [ascii_of_nat 34]) ->
  read_type ("Foo" ++ String c "x") = ROk [str "ad_hoc" "Foo"] (String c "x").
Proof. intros c H. cbn in H. repeat (destruct H as [<-|H]; [vm_compute; reflexivity|]). destruct H. Qed.
Print Assumptions C69_ends.
Theorem C69_blanks : forall n, In n [9; 10; 11; 12; 13; 32] -> let c := ascii_of_nat n in
  read_type (String "[" (String c ("Foo" ++ String c ("f64" ++ String c "] more")))) = ROk [SNode "arr" [str "ad_hoc" "Foo"; SNode "ad_hoc_ty" [flag "f64"]]] " more".
Proof. intros n H. cbn in H. repeat (destruct H as [<-|H]; [vm_compute; reflexivity|]). destruct H. Qed.
Print Assumptions C69_blanks.

(** ** Examples *)
Definition a_type : ty := TClosure [TArray (TAdHoc "Meters" TF64); TOption TAny] (TResult (TAdHoc "Foo" TObject)).
Lemma good_names : good_name "Meters" /\ good_name "Foo".
Proof.
  split; (split; [discriminate|split; [cbn; repeat (constructor; [unfold name_char; cbn; tauto|]); constructor|]]); intros k H; cbn in H; repeat (destruct H as [<-|H]; [reflexivity|]); destruct H.
Qed.
Example C69_example_sayable : sayable a_type /\ follows ") -> { x[0] }".
Proof. split; [|cbn; discriminate]. destruct good_names as [M F].
  apply Sy_closure; [|apply Sy_result, Sy_ad_hoc; [exact F|apply Sy_object]].
  constructor; [apply Sy_array, Sy_ad_hoc; [exact M|apply Sy_f64]|]. constructor; [apply Sy_option, Sy_any|constructor].
Qed.
Example C69_example : description a_type = Some "\([Meters f64], opt) -> res[Foo {}]" /\
  read_type "\( [ Meters f64 ] , opt,) -> res[Foo {}], more" = ROk [SNode "closure_type" [SNode "cl_arg" [SNode "arr" [str "ad_hoc" "Meters"; SNode "ad_hoc_ty" [flag "f64"]]]; SNode "cl_arg" [flag "opt_any"];
    SNode "cl_ret" [SNode "res" [str "ad_hoc" "Foo"; SNode "ad_hoc_ty" [flag "obj_any"]]]]] ", more".
Proof. split; vm_compute; reflexivity. Qed.
Example C69_example_list : list_functions [ExtFn "sin" [LtDefault] [TF64] TF64; ExtFn "b" [] [] TVoid; ExtFn "push_ref(mut,_)" [LtDefault; LtArg 0] [TArray TAny; TAny] TVoid]
    [LoadedFn "b" [LoadedArg "x" (Some "return") (TSecret TBool)] TAny; LoadedFn "B" [] TVoid] =
  Some [Listed "B" false "void" []; Listed "b" true "void" []; Listed "b" false "any" [ListedArg "x" (Some "return") "sec[bool]"];
        Listed "push_ref(mut,_)" true "void" [ListedArg "arg0" None "[]"; ListedArg "arg1" (Some "arg0") "any"]; Listed "sin" true "f64" [ListedArg "arg0" None "f64"]].
Proof. vm_compute. reflexivity. Qed.

(** ** Refutations *)

(** An ad-hoc type whose name starts with a word of the grammar is read as that type, and what is left is no text. *)
Theorem C69_prefix_refuted : description (TAdHoc "inner" TF64) = Some "inner f64" /\ read_type "inner f64" = ROk [flag "in_any"] "ner f64" /\
  read_type "string" = ROk [flag "str"] "ing" /\ read_type "seconds f64" = RFail.
Proof. repeat split; vm_compute; reflexivity. Qed.
Print Assumptions C69_prefix_refuted.
(** `void` is read as an ad-hoc type. *)
Theorem C69_void_refuted : description TVoid = Some "void" /\ exists b, read_type "void" = ROk b "" /\ type_body b (TAdHoc "void" TObject).
Proof. split; [reflexivity|]. eexists. split; [vm_compute; reflexivity|apply Tb_ad_hoc]. Qed.
Print Assumptions C69_void_refuted.
(** A secret of another type has no text. *)
Theorem C69_secret_refuted : description (TSecret TStr) = None /\ list_functions [ExtFn "f" [] [] (TSecret TStr)] [] = None.
Proof. split; reflexivity. Qed.
Print Assumptions C69_secret_refuted.
(** A function that gives an ad-hoc type and has an empty body: the body is taken for the type inside. *)
Theorem C69_body_refuted : read_type "Foo {}" = ROk [str "ad_hoc" "Foo"; SNode "ad_hoc_ty" [flag "obj_any"]] "" /\ read_type "Foo { x }" = ROk [str "ad_hoc" "Foo"] " { x }".
Proof. split; vm_compute; reflexivity. Qed.
Print Assumptions C69_body_refuted.
