(** * C76: The functions of the string library do what they say. *)
From Coq Require Import String List NArith Bool Arith Lia.
From Verif Require Import StringModel StringSpec.
Import ListNotations.
Local Open Scope nat_scope.
Local Open Scope list_scope.

(** ** Cutting *)

Lemma split_by_some : forall p t, exists x l, split_by p t = x :: l.
Proof. induction t as [|c t (x & l & E)]; cbn; [eauto|]. rewrite E. destruct (p c); eauto. Qed.
Lemma split_by_cut : forall p t, cut (fun c => p c = true) t (split_by p t).
Proof.
  induction t as [|c t (ds & L & S & N & W)]; cbn; [exists []; cbn; repeat constructor|].
  destruct (p c) eqn:E.
  - exists (c :: ds). cbn. rewrite L, <- W. repeat split; auto.
  - destruct (split_by_some p t) as (x & l & X). rewrite X in *. inversion N; subst. exists ds. repeat split; auto.
    + constructor; auto. constructor; auto. now rewrite E.
    + destruct ds; reflexivity.
Qed.
Lemma cut_split_by : forall p t l, cut (fun c => p c = true) t l -> l = split_by p t.
Proof.
  induction t as [|c t IH]; intros [|x l] (ds & L & S & N & W); try discriminate.
  - destruct ds as [|d ds]; cbn in W; [subst x; destruct l; [reflexivity|discriminate]|destruct x; discriminate].
  - inversion N as [|? ? N1 N2]; subst. destruct x as [|y x].
    + destruct ds as [|d ds]; cbn in W; [discriminate|]. injection W as <- W. inversion S; subst. cbn. rewrite H1. f_equal. apply IH. exists ds. cbn in L. repeat split; auto.
    + assert (c = y /\ t = weave (x :: l) ds) as (<- & W') by (destruct ds; cbn in W |- *; injection W as -> W; auto).
      inversion N1 as [|c0 x0 PC PX]; clear W. cbn [split_by]. destruct (p c); [now destruct PC|]. rewrite <- (IH (x :: l)); [reflexivity|]. exists ds. repeat split; auto.
Qed.
Lemma cut_ext : forall (s s' : N -> Prop) t l, (forall c, s c <-> s' c) -> cut s t l -> cut s' t l.
Proof.
  intros s s' t l E (ds & L & S & N & W). exists ds. repeat split; auto; [eapply Forall_impl; [|exact S]; firstorder|]. eapply Forall_impl; [|exact N]. intros x H. eapply Forall_impl; [|exact H]. firstorder.
Qed.

(** ** Lines *)

Lemma chomp_last : forall x, chomp (x ++ [cr]) = x.
Proof. induction x as [|c x IH]; [reflexivity|]. cbn. rewrite IH. destruct x; reflexivity. Qed.
Lemma chomp_cases : forall x, (x = chomp x ++ [cr]) \/ (~ returns x /\ chomp x = x).
Proof.
  induction x as [|c x IH]; [right; split; [intros (y & E); destruct y; discriminate|reflexivity]|]. destruct x as [|d x].
  - cbn. destruct (N.eqb_spec c cr) as [->|NE]; [now left|]. right. split; auto. intros ([|y z] & E); [injection E; auto|destruct z; discriminate].
  - change (chomp (c :: d :: x)) with (c :: chomp (d :: x)). destruct IH as [E|(N & E)]; [left; cbn [app]; congruence|right; split; [|congruence]].
    intros ([|y z] & F); [discriminate|]. injection F as -> F. apply N. now exists z.
Qed.
Lemma app_one_line : forall x y, one_line (x ++ y) <-> one_line x /\ one_line y.
Proof. intros x y. unfold one_line. rewrite in_app_iff. tauto. Qed.
Lemma lines_are : forall pattern (R : outer pattern) l ds, length l = S (length ds) -> Forall (fun c => c = lf) ds -> Forall one_line l ->
  are_lines (keeps_cr _ R) (weave l ds) (lines_of _ R l).
Proof.
  induction l as [|x l IH]; intros ds L D N; [discriminate|]. inversion N as [|? ? N1 N2]; subst. destruct l as [|y l].
  - destruct ds; [|discriminate]. cbn. destruct x as [|c x]; [constructor|]. destruct (keeps_cr pattern R) eqn:K; [apply Al_last; auto; discriminate|].
    destruct (chomp_cases (c :: x)) as [E|(NR & E)]; [|rewrite E; apply Al_last; auto; discriminate].
    rewrite E at 1. apply Al_last_cr; auto. rewrite E in N1. now apply app_one_line in N1.
  - destruct ds as [|d ds]; [discriminate|]. inversion D; subst. change (lines_of pattern R (x :: y :: l)) with (chomp x :: lines_of pattern R (y :: l)). cbn [weave].
    assert (are_lines (keeps_cr pattern R) (weave (y :: l) ds) (lines_of pattern R (y :: l))) as H by (apply IH; auto).
    destruct (chomp_cases x) as [E|(NR & E)].
    + rewrite E at 1. rewrite <- app_assoc. cbn [app]. apply Al_crlf; auto. rewrite E in N1. now apply app_one_line in N1.
    + rewrite E. now apply Al_lf.
Qed.
Lemma split_line : forall x t, one_line x -> split_by (N.eqb lf) (x ++ lf :: t) = x :: split_by (N.eqb lf) t.
Proof.
  induction x as [|c x IH]; intros t N; cbn [app split_by]; [reflexivity|]. destruct (N.eqb_spec lf c) as [<-|NE]; [destruct N; now left|].
  rewrite IH; auto. intros I. apply N. now right.
Qed.
Lemma split_one : forall x, one_line x -> split_by (N.eqb lf) x = [x].
Proof.
  induction x as [|c x IH]; intros N; cbn [split_by]; [reflexivity|]. destruct (N.eqb_spec lf c) as [<-|NE]; [destruct N; now left|].
  rewrite IH; auto. intros I. apply N. now right.
Qed.
Lemma not_returns : forall x, ~ returns x -> chomp x = x.
Proof. intros x N. destruct (chomp_cases x) as [E|(_ & E)]; auto. destruct N. eexists. exact E. Qed.
Lemma lines_unique : forall pattern (R : outer pattern) t l, are_lines (keeps_cr _ R) t l -> l = lines _ R t.
Proof.
  intros pattern R t l H. unfold lines. induction H as [|x t l N NR H IH|x t l N H IH|x N NE K|x N K].
  - reflexivity.
  - rewrite split_line by exact N. destruct (split_by_some (N.eqb lf) t) as (y & k & E). rewrite E in *. change (x :: l = chomp x :: lines_of pattern R (y :: k)). rewrite <- IH. f_equal. symmetry. now apply not_returns.
  - replace (x ++ cr :: lf :: t) with ((x ++ [cr]) ++ lf :: t) by (rewrite <- app_assoc; reflexivity). rewrite split_line by (apply app_one_line; split; auto; intros [E|[]]; discriminate).
    destruct (split_by_some (N.eqb lf) t) as (y & k & E). rewrite E in *. change (x :: l = chomp (x ++ [cr]) :: lines_of pattern R (y :: k)). rewrite <- IH. f_equal. symmetry. apply chomp_last.
  - rewrite split_one by exact N. cbn. destruct x as [|c x]; [congruence|]. destruct (keeps_cr pattern R); auto. destruct K as [K|K]; [discriminate|]. now rewrite not_returns.
  - rewrite split_one by (apply app_one_line; split; auto; intros [E|[]]; discriminate). cbn. rewrite K, chomp_last. destruct x; reflexivity.
Qed.

(** ** Prefixes, suffixes, ASCII *)

Lemma starts_spec : forall p t, starts_with t p = true <-> exists r, t = p ++ r.
Proof.
  induction p as [|c p IH]; intros t.
  - split; [intros _; exists t; reflexivity|intros _; destruct t; reflexivity].
  - destruct t as [|d t]; cbn.
    + split; [discriminate|]. intros (r & E). discriminate.
    + rewrite andb_true_iff, N.eqb_eq, IH. split.
      * intros (-> & r & ->). eauto.
      * intros (r & E). injection E as -> ->. eauto.
Qed.
Lemma ends_spec : forall p t, ends_with t p = true <-> exists r, t = r ++ p.
Proof.
  intros p t. unfold ends_with. rewrite starts_spec. split; intros (r & E).
  - exists (rev r). rewrite <- (rev_involutive t), E, rev_app_distr, rev_involutive. reflexivity.
  - exists (rev r). now rewrite E, rev_app_distr.
Qed.

(** ** Arguments *)

Section Args.
Variable pattern : Type.
Notation sval := (sval pattern).
Variable R : outer pattern.

Lemma pop_arg : forall stk v w, arg pattern stk v w -> pop pattern (stk ++ [v]) = Gives _ (w, stk).
Proof. intros stk v w H. unfold pop. rewrite rev_app_distr. cbn [rev app]. rewrite rev_involutive. inversion H; subst; [destruct w; auto; now destruct (H0 i)|now rewrite H0]. Qed.
Lemma pop_text_arg : forall stk v t, arg pattern stk v (SText _ t) -> pop_text pattern (stk ++ [v]) = Gives _ (t, stk).
Proof. intros stk v t H. unfold pop_text. now rewrite (pop_arg _ _ _ H). Qed.

Definition sval_ind' (P : sval -> Prop) (HA : forall l, Forall P l -> P (SArray _ l)) (HO : forall v, (forall l, v <> SArray _ l) -> P v) : forall v, P v :=
  fix go v := match v with
              | SArray _ l => HA l ((fix all l := match l return Forall P l with [] => Forall_nil P | v :: l => Forall_cons v (go v) (all l) end) l)
              | v => HO v ltac:(discriminate)
              end.
Definition all_deep (f : sval -> out sval) : list sval -> list sval -> out sval :=
  fix all l r := match l with [] => Gives _ (SArray _ (rev r)) | v :: l => sbind (f v) (fun v => all l (v :: r)) end.
Lemma deep_array : forall n stk l, deep pattern n stk (SArray _ l) = all_deep (deep pattern n stk) l [].
Proof. intros n stk l. destruct n; reflexivity. Qed.
Lemma array_ok : forall n stk l, Forall (fun v => exists w, deep pattern n stk v = Gives _ w /\ means pattern stk v w) l ->
  exists w, deep pattern n stk (SArray _ l) = Gives _ w /\ means pattern stk (SArray _ l) w.
Proof.
  intros n stk l F. rewrite deep_array. assert (forall r, exists k, all_deep (deep pattern n stk) l r = Gives _ (SArray _ (rev r ++ k)) /\ Forall2 (means pattern stk) l k) as H.
  { induction F as [|v l (w & D & M) F IH]; intros r.
    - exists []. rewrite app_nil_r. auto.
    - destruct (IH (w :: r)) as (k & E & K). exists (w :: k). split; [|auto]. change (sbind (deep pattern n stk v) (fun v => all_deep (deep pattern n stk) l (v :: r)) = Gives _ (SArray _ (rev r ++ w :: k))).
      rewrite D. cbn [sbind]. rewrite E. cbn [rev]. rewrite <- app_assoc. reflexivity. }
  destruct (H []) as (k & -> & K). exists (SArray _ k). split; auto. now constructor.
Qed.
Lemma deep_ok : forall n stk, ordered pattern stk -> forall v m, m <= n -> below pattern m v -> m <= length stk -> exists w, deep pattern n stk v = Gives _ w /\ means pattern stk v w.
Proof.
  induction n as [|n IH]; intros stk O v; pattern v; revert v; apply sval_ind'.
  1, 3: intros l F m Hm B Hl; inversion B as [|l' B'|v N1 N2]; subst; [|now destruct (N2 l)]; apply array_ok; rewrite Forall_forall in *; intros v I; apply (F v I m); auto.
  - intros v NA m Hm B Hl. assert (m = 0) as -> by lia. inversion B as [i L|l' B'|v' N1 N2]; subst; [lia|now destruct (NA l')|]. exists v. split; [destruct v; auto; [now destruct (N1 i)|now destruct (N2 l)]|now constructor].
  - intros v NA m Hm B Hl. inversion B as [i L|l' B'|v' N1 N2]; subst; [|now destruct (NA l')|].
    + destruct (nth_error stk i) as [v|] eqn:E; [|apply nth_error_None in E; lia]. cbn [deep]. rewrite E. destruct (IH stk O v i) as (w & D & M); [lia|now apply O|lia|]. exists w. split; auto. econstructor; eauto.
    + exists v. split; [destruct v; auto; [now destruct (N1 i)|now destruct (N2 l)]|now constructor].
Qed.
Lemma means_text : forall stk v t w, means pattern stk v (SText _ t) -> means pattern stk v w -> w = SText _ t.
Proof.
  intros stk v t w H. remember (SText pattern t) as u eqn:E. induction H as [i v u X H IH|l k F|v N1 N2]; intros M; subst; try discriminate.
  - inversion M as [i' v' w' X' M'| |v' N1 N2]; subst; [|now destruct (N1 i)]. rewrite X in X'. injection X' as <-. auto.
  - inversion M; subst; auto.
Qed.
Lemma separates_spec : forall stk l k c, Forall2 (means pattern stk) l k -> separates pattern k c = true <-> exists v r, In v l /\ means pattern stk v (SText _ (c :: r)).
Proof.
  intros stk l k c F. unfold separates. induction F as [|v w l k M F IH]; cbn; [split; [discriminate|intros (v & r & [] & _)]|]. rewrite orb_true_iff, IH. split.
  - intros [H|(u & r & I & X)]; [|eauto]. destruct w as [|[|d r]| | | | | | |]; try discriminate. apply N.eqb_eq in H. subst d. exists v, r. auto.
  - intros (u & r & [<-|I] & X); [left|right; eauto]. rewrite (means_text _ _ _ _ X M). apply N.eqb_refl.
Qed.
Lemma below_more : forall i n, i <= n -> forall v, below pattern i v -> below pattern n v.
Proof.
  intros i n L. apply (sval_ind' (fun v => below pattern i v -> below pattern n v)).
  - intros k FA B. inversion B as [|k' FB|v' N1 N2]; subst; [|now destruct (N2 k)]. constructor. rewrite Forall_forall in *. auto.
  - intros v NA B. inversion B as [j LJ|k FB|v' N1 N2]; subst; [constructor; lia|now destruct (NA k)|now apply Be_value].
Qed.
Lemma arg_below : forall s v w, ordered pattern s -> below pattern (length s) v -> arg pattern s v w -> below pattern (length s) w.
Proof.
  intros s v w O B A. inversion A as [v' NR|i v' E]; subst; auto. apply (below_more i); [|now apply O]. apply Nat.lt_le_incl. apply nth_error_Some. congruence.
Qed.
Lemma pop_any_ok : forall s b w, ordered pattern s -> arg pattern s b w -> below pattern (length s) b -> exists k, pop_any pattern (s ++ [b]) = Gives _ (k, s) /\ means pattern s w k.
Proof.
  intros s b w O A B. unfold pop_any. rewrite (pop_arg _ _ _ A). cbn [sbind]. destruct (deep_ok (length s) s O w (length s)) as (k & -> & M); auto; [now apply (arg_below s b)|]. exists k. auto.
Qed.
Lemma pop_array : forall stk a b l, ordered pattern (stk ++ [a]) -> arg pattern (stk ++ [a]) b (SArray _ l) -> below pattern (length (stk ++ [a])) b ->
  exists k, pop_any pattern (stk ++ [a; b]) = Gives _ (SArray _ k, stk ++ [a]) /\ Forall2 (means pattern (stk ++ [a])) l k.
Proof.
  intros stk a b l O A B. replace (stk ++ [a; b]) with ((stk ++ [a]) ++ [b]) by (rewrite <- app_assoc; reflexivity). destruct (pop_any_ok _ _ _ O A B) as (w & -> & M).
  inversion M as [|l' k F|v N1 N2]; subst; [exists k; auto|now destruct (N2 l)].
Qed.

(** [split]: exactly the cut at the first characters of the separators *)
Theorem C76_split : forall stk a b t l, ordered pattern (stk ++ [a]) -> below pattern (length (stk ++ [a])) b ->
  arg pattern stk a (SText _ t) -> arg pattern (stk ++ [a]) b (SArray _ l) ->
  exists parts, run pattern R FSplit (stk ++ [a; b]) = Gives _ (texts pattern parts, stk) /\
    forall k, cut (fun c => exists v r, In v l /\ means pattern (stk ++ [a]) v (SText _ (c :: r))) t k <-> k = parts.
Proof.
  intros stk a b t l O B A A'. destruct (pop_array _ _ _ _ O A' B) as (k & E & F). cbn [run]. rewrite E. cbn [sbind]. unfold of_text. rewrite (pop_text_arg _ _ _ A). cbn [sbind split].
  eexists. split; [reflexivity|]. intros parts. split.
  - intros C. apply cut_split_by. eapply cut_ext; [|exact C]. intros c. symmetry. now apply separates_spec.
  - intros ->. eapply cut_ext; [|apply split_by_cut]. intros c. now apply separates_spec.
Qed.
(** [lines]: exactly the lines *)
Theorem C76_lines : forall stk a t, arg pattern stk a (SText _ t) ->
  exists l, run pattern R FLines (stk ++ [a]) = Gives _ (texts pattern l, stk) /\ forall k, are_lines (keeps_cr _ R) t k <-> k = l.
Proof.
  intros stk a t A. cbn [run]. unfold of_text. rewrite (pop_text_arg _ _ _ A). eexists. split; [reflexivity|]. intros k. split; [apply lines_unique|]. intros ->.
  destruct (split_by_cut (N.eqb lf) t) as (ds & L & S & N & W). unfold lines. rewrite W at 1. apply lines_are; auto.
  - eapply Forall_impl; [|exact S]. intros c H. apply N.eqb_eq in H. auto.
  - eapply Forall_impl; [|exact N]. intros x H I. rewrite Forall_forall in H. apply (H _ I). apply N.eqb_refl.
Qed.
(** [starts_with], [ends_with]: the first argument is the text, the second the beginning or the end. *)
Theorem C76_ends : forall stk a b t p, arg pattern stk a (SText _ t) -> arg pattern (stk ++ [a]) b (SText _ p) ->
  (exists x, run pattern R FStartsWith (stk ++ [a; b]) = Gives _ (SBool _ x, stk) /\ (x = true <-> exists r, t = p ++ r)) /\
  (exists x, run pattern R FEndsWith (stk ++ [a; b]) = Gives _ (SBool _ x, stk) /\ (x = true <-> exists r, t = r ++ p)).
Proof.
  intros stk a b t p A B. replace (stk ++ [a; b]) with ((stk ++ [a]) ++ [b]) by (rewrite <- app_assoc; reflexivity). cbn [run]. unfold of_texts. rewrite (pop_text_arg _ _ _ B). cbn [sbind]. rewrite (pop_text_arg _ _ _ A). cbn [sbind].
  split; (eexists; split; [reflexivity|]); [apply starts_spec|apply ends_spec].
Qed.
(** The functions for ASCII change letters of ASCII and nothing else. *)
Theorem C76_ascii : forall stk a t, arg pattern stk a (SText _ t) ->
  (exists x, run pattern R FIsAscii (stk ++ [a]) = Gives _ (SBool _ x, stk) /\ (x = true <-> Forall (fun c => (c < 128)%N) t)) /\
  (exists u, run pattern R FAsciiLower (stk ++ [a]) = Gives _ (SText _ u, stk) /\ Forall2 (fun c d => (capital c /\ d = c + 32)%N \/ (~ capital c /\ d = c)) t u) /\
  (exists u, run pattern R FAsciiUpper (stk ++ [a]) = Gives _ (SText _ u, stk) /\ Forall2 (fun c d => (small c /\ c = d + 32)%N \/ (~ small c /\ d = c)) t u).
Proof.
  intros stk a t A. cbn [run]. unfold of_text. rewrite (pop_text_arg _ _ _ A). cbn [sbind]. split; [|split]; (eexists; split; [reflexivity|]).
  - unfold is_ascii. rewrite forallb_forall, Forall_forall. split; intros H c I; apply N.ltb_lt; auto.
  - clear A. induction t as [|c t IH]; cbn [to_ascii_lower map]; constructor; auto. unfold capital. destruct (N.leb_spec 65 c), (N.leb_spec c 90); cbn; lia.
  - clear A. induction t as [|c t IH]; cbn [to_ascii_upper map]; constructor; auto. unfold small. destruct (N.leb_spec 97 c), (N.leb_spec c 122); cbn; lia.
Qed.
(** The other two functions for letters are those of the Unicode tables. *)
Theorem C76_case : forall stk a t, arg pattern stk a (SText _ t) ->
  run pattern R FLower (stk ++ [a]) = Gives _ (SText _ (lower _ R t), stk) /\ run pattern R FUpper (stk ++ [a]) = Gives _ (SText _ (upper _ R t), stk).
Proof. intros stk a t A. cbn [run]. unfold of_text. rewrite (pop_text_arg _ _ _ A). split; reflexivity. Qed.
(** A pattern that was compiled is matched; another value is an error, another Rust object a panic. *)
Theorem C76_matches : forall stk a b w t, arg pattern stk a w -> arg pattern (stk ++ [a]) b (SText _ t) ->
  run pattern R FMatches (stk ++ [a; b]) = match w with SPattern _ p => Gives _ (SBool _ (matches _ R p t), stk) | SRust _ => Panics _ | _ => Fails _ end.
Proof.
  intros stk a b w t A B. replace (stk ++ [a; b]) with ((stk ++ [a]) ++ [b]) by (rewrite <- app_assoc; reflexivity). cbn [run]. rewrite (pop_text_arg _ _ _ B). cbn [sbind]. rewrite (pop_arg _ _ _ A). reflexivity.
Qed.
Theorem C76_compiled : forall stk a b t u p, arg pattern stk a (SText _ t) -> compile _ R t = Some p -> run pattern R FRegex (stk ++ [a]) = Gives _ (SOk _ (SPattern _ p), stk) /\
  (arg pattern (stk ++ [SPattern _ p]) b (SText _ u) -> run pattern R FMatches (stk ++ [SPattern _ p; b]) = Gives _ (SBool _ (matches _ R p u), stk)).
Proof.
  intros stk a b t u p A C. split.
  - cbn [run]. unfold of_text. rewrite (pop_text_arg _ _ _ A). cbn [sbind]. now rewrite C.
  - intros B. rewrite (C76_matches _ _ _ (SPattern _ p) u); auto. constructor. discriminate.
Qed.
Lemma ordered_app : forall stk args, ordered pattern (stk ++ args) -> ordered pattern stk.
Proof. intros stk args O i v E. apply O. rewrite nth_error_app1; auto. apply nth_error_Some. congruence. Qed.
Lemma ordered_last : forall stk v, ordered pattern (stk ++ [v]) -> below pattern (length stk) v.
Proof. intros stk v O. apply O. rewrite nth_error_app2, Nat.sub_diag; auto. Qed.
(** With arguments of the declared types, every function but [regex_matches] gives a value of the declared type, and the
    arguments are gone. *)
Theorem C76_typed : forall f stk args, f <> FMatches -> ordered pattern (stk ++ args) -> fit_all pattern stk args (fst (declared f)) ->
  exists v, run pattern R f (stk ++ args) = Gives _ (v, stk) /\ fits pattern [] v (snd (declared f)).
Proof.
  assert (forall (g : text -> sval) stk args, fit_all pattern stk args [YText] -> exists t, of_text pattern g (stk ++ args) = Gives _ (g t, stk)) as T1.
  { intros g stk [|a [|b args]] F; cbn in F; try tauto. destruct F as ((t & A) & _). exists t. unfold of_text. now rewrite (pop_text_arg _ _ _ A). }
  assert (forall (g : text -> text -> bool) stk args, fit_all pattern stk args [YText; YText] -> exists x, of_texts pattern g (stk ++ args) = Gives _ (SBool _ x, stk)) as T2.
  { intros g stk [|a [|b [|c args]]] F; cbn in F; try tauto. destruct F as ((t & A) & (u & B) & _). replace (stk ++ [a; b]) with ((stk ++ [a]) ++ [b]) by (rewrite <- app_assoc; reflexivity).
    exists (g t u). unfold of_texts. rewrite (pop_text_arg _ _ _ B). cbn [sbind]. now rewrite (pop_text_arg _ _ _ A). }
  assert (forall t, fits pattern [] (SText _ t) YText) as FT by (intros t; exists t; constructor; discriminate).
  assert (forall b, fits pattern [] (SBool _ b) YBool) as FB by (intros b; exists b; constructor; discriminate).
  assert (forall l, fits pattern [] (texts pattern l) YTexts) as FL.
  { intros l. exists (map (SText pattern) l). split; [constructor; discriminate|]. apply Forall_forall. intros v I. apply in_map_iff in I. destruct I as (t & <- & _). exists t. constructor; discriminate. }
  intros f stk args NM O F. destruct f; cbn [declared fst snd] in F |- *; cbn [run]; try congruence.
  all: try (destruct (T2 starts_with stk args F) as (x & E); exists (SBool _ x); split; [exact E|apply FB]).
  all: try (destruct (T2 ends_with stk args F) as (x & E); exists (SBool _ x); split; [exact E|apply FB]).
  all: try (match goal with |- exists v, of_text _ ?g _ = _ /\ _ => destruct (T1 g stk args F) as (t & E); exists (g t); split; [exact E|]; first [apply FL|apply FT|apply FB|exact Logic.I] end).
  destruct args as [|a [|b [|c args]]]; cbn in F; try tauto. destruct F as ((t & A) & (l & B & _) & _).
  assert (ordered pattern ((stk ++ [a]) ++ [b])) as O2 by (rewrite <- app_assoc; exact O). destruct (pop_array stk a b l) as (k & E & _); auto; [now apply ordered_app in O2|now apply ordered_last in O2|].
  rewrite E. cbn [sbind]. unfold of_text. rewrite (pop_text_arg _ _ _ A). eexists. split; [reflexivity|]. apply FL.
Qed.
(** Whatever the arguments are, nothing panics but [regex_matches] with a Rust object that is no pattern. *)
Theorem C76_safe : forall f stk args, ordered pattern (stk ++ args) -> length args = length (fst (declared f)) ->
  (exists v, run pattern R f (stk ++ args) = Gives _ (v, stk)) \/ run pattern R f (stk ++ args) = Fails _ \/
  (f = FMatches /\ exists a b, args = [a; b] /\ arg pattern stk a (SRust _) /\ run pattern R f (stk ++ args) = Panics _).
Proof.
  assert (forall stk v, ordered pattern (stk ++ [v]) -> exists w, arg pattern stk v w) as AE.
  { intros stk v O. apply ordered_last in O. inversion O as [i L|l F|v' N1 N2]; subst.
    - destruct (nth_error stk i) as [w|] eqn:E; [exists w; now constructor|apply nth_error_None in E; lia].
    - eexists. constructor. discriminate.
    - exists v. now constructor. }
  assert (forall stk v, ordered pattern (stk ++ [v]) -> pop_text pattern (stk ++ [v]) = Fails _ \/ exists t, pop_text pattern (stk ++ [v]) = Gives _ (t, stk)) as PT.
  { intros stk v O. destruct (AE stk v O) as (w & A). unfold pop_text. rewrite (pop_arg _ _ _ A). cbn [sbind]. destruct w; eauto. }
  assert (forall g stk args, ordered pattern (stk ++ args) -> length args = 1 -> (exists v, of_text pattern g (stk ++ args) = Gives _ (v, stk)) \/ of_text pattern g (stk ++ args) = Fails _) as T1.
  { intros g stk [|a [|b args]] O L; try discriminate. unfold of_text. destruct (PT stk a O) as [-> |(t & ->)]; cbn; eauto. }
  assert (forall g stk args, ordered pattern (stk ++ args) -> length args = 2 -> (exists v, of_texts pattern g (stk ++ args) = Gives _ (v, stk)) \/ of_texts pattern g (stk ++ args) = Fails _) as T2.
  { intros g stk [|a [|b [|c args]]] O L; try discriminate. replace (stk ++ [a; b]) with ((stk ++ [a]) ++ [b]) in * by (rewrite <- app_assoc; reflexivity). unfold of_texts.
    destruct (PT _ b O) as [-> |(t & ->)]; cbn; eauto. destruct (PT _ a (ordered_app _ _ O)) as [-> |(u & ->)]; cbn; eauto. }
  intros f stk args O L. destruct f; cbn [declared fst length] in L; cbn [run].
  all: try (match goal with |- context [of_text _ ?g _] => destruct (T1 g stk args O L) as [H|H]; auto; fail end).
  all: try (match goal with |- context [of_texts _ ?g _] => destruct (T2 g stk args O L) as [H|H]; auto; fail end).
  - destruct args as [|a [|b [|c args]]]; try discriminate. replace (stk ++ [a; b]) with ((stk ++ [a]) ++ [b]) in * by (rewrite <- app_assoc; reflexivity).
    destruct (AE _ b O) as (w & B). destruct (pop_any_ok _ _ _ (ordered_app _ _ O) B (ordered_last _ _ O)) as (k & -> & _). cbn [sbind].
    destruct (T1 (fun t => texts pattern (split pattern t k)) stk [a] (ordered_app _ _ O) eq_refl) as [H|H]; auto.
  - destruct args as [|a [|b [|c args]]]; try discriminate. replace (stk ++ [a; b]) with ((stk ++ [a]) ++ [b]) in * by (rewrite <- app_assoc; reflexivity).
    destruct (PT _ b O) as [-> |(t & ->)]; cbn [sbind]; auto. destruct (AE _ a (ordered_app _ _ O)) as (w & A). rewrite (pop_arg _ _ _ A). cbn [sbind].
    destruct w; eauto. right. right. split; auto. exists a, b. auto.
Qed.
End Args.
Print Assumptions C76_split. Print Assumptions C76_lines. Print Assumptions C76_ends. Print Assumptions C76_ascii.
Print Assumptions C76_case. Print Assumptions C76_matches. Print Assumptions C76_compiled. Print Assumptions C76_typed. Print Assumptions C76_safe.

(** ** Examples

    On a stack with a text and a separator: [split("a,b;c\r\n", [";", x])] where [x] refers to the separator. *)
Definition plain_ : outer nat := Outer nat (fun t => t) (fun t => t) (fun t => match t with [] => None | _ => Some (length t) end) (fun n t => n <=? length t) true.
Definition stack_ : list (sval nat) := [SOther _; SText _ [44; 99]%N; SText _ [97; 44; 98; 59; 99; 13; 10]%N].
Definition seps_ : sval nat := SArray _ [SText _ [59]%N; SRef _ 1; SText _ []; SOther _].
Example C76_example_split : ordered nat (stack_ ++ [SRef _ 2]) /\ below nat 4 seps_ /\ arg nat stack_ (SRef _ 2) (SText _ [97; 44; 98; 59; 99; 13; 10]%N) /\
  run nat plain_ FSplit (stack_ ++ [SRef _ 2; seps_]) = Gives _ (texts nat [[97]; [98]; [99; 13; 10]]%N, stack_) /\
  run nat plain_ FLines (stack_ ++ [SRef _ 2]) = Gives _ (texts nat [[97; 44; 98; 59; 99]]%N, stack_).
Proof.
  split.
  { intros [|[|[|[|i]]]] v E; cbn in E; try (injection E as <-); try (constructor; (discriminate || lia)). destruct i; discriminate. }
  split. { constructor. repeat constructor; try discriminate; apply Be_value; discriminate. }
  split; [now constructor|]. split; vm_compute; reflexivity.
Qed.
Example C76_example_lines : lines nat plain_ [97; 10; 10; 98; 13; 10; 99; 13]%N = [[97]; []; [98]; [99; 13]]%N /\
  lines nat (Outer nat (fun t => t) (fun t => t) (fun _ => None) (fun _ _ => true) false) [97; 10; 10; 98; 13; 10; 99; 13]%N = [[97]; []; [98]; [99]]%N /\ lines nat plain_ [10]%N = [[]].
Proof. repeat split; vm_compute; reflexivity. Qed.
Example C76_example_typed : fit_all nat stack_ [SRef _ 2; SArray _ [SRef _ 1]] (fst (declared FSplit)) /\
  run nat plain_ FEndsWith (stack_ ++ [SRef _ 2; SText _ [13; 10]%N]) = Gives _ (SBool _ true, stack_) /\
  run nat plain_ FStartsWith (stack_ ++ [SRef _ 2; SText _ [13; 10]%N]) = Gives _ (SBool _ false, stack_) /\
  run nat plain_ FRegex [SText _ [97]%N] = Gives _ (SOk _ (SPattern _ 1), []) /\ run nat plain_ FMatches [SPattern _ 1; SText _ []] = Gives _ (SBool _ false, []).
Proof.
  split; [|repeat split; vm_compute; reflexivity]. cbn. split; [eexists; now constructor|]. split; [|exact Logic.I]. exists [SRef nat 1]. split; [constructor; discriminate|].
  constructor; [|constructor]. exists [44; 99]%N. econstructor; [reflexivity|]. constructor; discriminate.
Qed.

(** ** What does not hold

    [regex_matches] is declared for any value, and panics for a Rust object that is no pattern. *)
Theorem C76_object_refuted : ~ forall f stk args, ordered nat (stk ++ args) -> fit_all nat stk args (fst (declared f)) -> run nat plain_ f (stk ++ args) <> Panics _.
Proof.
  intros H. apply (H FMatches [] [SRust _; SText _ []]); [|repeat split; eexists; constructor; discriminate|reflexivity].
  intros [|[|i]] v E; cbn in E; [injection E as <-; constructor; discriminate|injection E as <-; constructor; discriminate|destruct i; discriminate].
Qed.
(** A separator of more than one character cuts at its first one. *)
Theorem C76_separator_refuted : ~ forall t sep parts, run nat plain_ FSplit [SText _ t; SArray _ [SText _ sep]] = Gives _ (texts nat parts, []) ->
  (forall x y, t <> x ++ sep ++ y) -> parts = [t].
Proof.
  intros H. specialize (H [97; 44; 98]%N [44; 32]%N [[97]; [98]]%N eq_refl). enough (forall x y, [97; 44; 98]%N <> x ++ [44; 32]%N ++ y) as N by (specialize (H N); discriminate).
  intros x y E. destruct x as [|? [|? [|? [|? x]]]]; discriminate.
Qed.
