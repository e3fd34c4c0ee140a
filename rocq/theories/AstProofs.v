(** * Lemmas: the loops of the conversion read the pieces of a node one after another. *)
From Coq Require Import String List Bool Arith ZArith Lia.
From Verif Require Import PrintModel ColorModel Float64 TypeModel LifetimeModel NodesModel FoldModel TransformModel NodesSpec Syntax AstModel AstSpec.
Import ListNotations.
Local Open Scope string_scope.
Local Open Scope nat_scope.
Local Open Scope list_scope.

(** ** Loops *)

(** [runs name step tail s cs s']: the loop of the node [name] reads the pieces [cs] in front of [tail], one in each round *)
Definition opens (name : string) (c : list meta) : Prop := match c with [] => False | MEnd n :: _ => n <> name | _ => True end.
Inductive runs {St} (name : string) (step : St -> list meta -> sres St) (tail : list meta) : St -> list (list meta) -> St -> Prop :=
| Ru_nil s : runs name step tail s [] s
| Ru_cons s c cs s1 s2 : opens name c -> step s (c ++ concat cs ++ tail) = SNext s1 (concat cs ++ tail) [] ->
    runs name step tail s1 cs s2 -> runs name step tail s (c :: cs) s2.

Lemma also_nil : forall {A} (r : ares A), also [] r = r.
Proof. intros A [a l i|i| |]; reflexivity. Qed.

Lemma loop_runs : forall St name step rest s cs (s' : St), runs name step (MEnd name :: rest) s cs s' -> forall k, length cs < k ->
  loop k name step s (concat cs ++ MEnd name :: rest) = AOk s' rest [].
Proof.
  intros St name step rest s cs s' R. induction R as [s|s c cs s1 s2 O H R IH]; intros k L.
  - destruct k; [simpl in L; lia|]. simpl. now rewrite String.eqb_refl.
  - destruct k; [simpl in L; lia|]. simpl in L. cbn [concat loop]. rewrite <- app_assoc, H, also_nil, IH by lia.
    destruct c as [|[] c]; simpl in *; try reflexivity; try contradiction.
    destruct (String.eqb_spec name0 name); [contradiction|reflexivity].
Qed.
Lemma chunks_length : forall {St} name step tail (s : St) cs s', runs name step tail s cs s' -> length cs <= length (concat cs).
Proof.
  intros St name step tail s cs s' R. induction R as [|s c cs s1 s2 O H R IH]; simpl; auto. rewrite app_length.
  destruct c; simpl in *; [contradiction|lia].
Qed.
Lemma node_ok : forall St A name step (s s' : St) fin (a : A) cs body rest, concat cs = flat_map tokens body ->
  runs name step (MEnd name :: rest) s cs s' -> fin s' = FSome a ->
  node name step s fin (MStart name :: (flat_map tokens body ++ [MEnd name]) ++ rest) = AOk a rest [].
Proof.
  intros St A name step s s' fin a cs body rest C R F. unfold node. rewrite String.eqb_refl, <- C, <- app_assoc. simpl ([_] ++ _).
  rewrite (loop_runs _ _ _ _ _ _ _ R), F; auto. rewrite app_length. simpl. pose proof (chunks_length _ _ _ _ _ _ R). lia.
Qed.
Lemma concat_tokens : forall l, concat (map tokens l) = flat_map tokens l.
Proof. intros l. now rewrite flat_map_concat_map. Qed.
Lemma runs_app : forall St name step tail (s s1 s2 : St) cs cs', runs name step (concat cs' ++ tail) s cs s1 -> runs name step tail s1 cs' s2 ->
  runs name step tail s (cs ++ cs') s2.
Proof.
  intros St name step tail s s1 s2 cs cs' R R'. induction R as [s|s c cs s1 s3 O H R IH]; simpl; auto.
  econstructor; [exact O| |apply IH, R']. rewrite concat_app, <- app_assoc. exact H.
Qed.
Lemma tokens_opens : forall n b name, opens name (tokens (SNode n b)).
Proof. intros. exact I. Qed.

(** ** Types *)
Definition len (l : list stx) : nat := length (flat_map tokens l).
Lemma len_cons : forall t l, len (t :: l) = length (tokens t) + len l.
Proof. intros. unfold len. simpl. now rewrite app_length. Qed.
Lemma len_node : forall n b, length (tokens (SNode n b)) = 2 + len b.
Proof. intros. simpl. rewrite app_length. simpl. unfold len. lia. Qed.
Lemma len_app : forall l l', len (l ++ l') = len l + len l'.
Proof. intros. unfold len. now rewrite flat_map_app, app_length. Qed.
Lemma len_nil : len [] = 0.
Proof. reflexivity. Qed.
Lemma len_value : forall m, length (tokens (SValue m)) = 1.
Proof. reflexivity. Qed.
Lemma len_type : forall n l, length (tokens (SType n l)) = 2 + length l.
Proof. intros. simpl. rewrite app_length. simpl. lia. Qed.
Ltac lens := repeat (rewrite ?len_cons, ?len_node, ?len_app, ?len_value, ?len_type, ?len_nil in *); try lia.

Definition good {A} (E : string -> list meta -> ares A) (b : list stx) (e : A) : Prop :=
  forall name rest, E name (MStart name :: (flat_map tokens b ++ [MEnd name]) ++ rest) = AOk e rest [].

Lemma cl_args_ok : forall (T : string -> list meta -> ares ty) N, (forall b t, type_body b t -> len b < N -> good T b t) ->
  (forall x, T "cl_arg" (MStart "cl_ret" :: x) = AErr []) -> forall l ts, type_args l ts -> len l <= N -> forall r k, length l < k ->
  cl_args k T (flat_map tokens l ++ MStart "cl_ret" :: r) = AOk ts (MStart "cl_ret" :: r) [].
Proof.
  intros T N G X l ts A. induction A as [|b t l ts B A IH]; intros L r k K.
  - destruct k; [simpl in K; lia|]. simpl. now rewrite X.
  - destruct k; [simpl in K; lia|]. simpl in K. cbn [flat_map]. lens. rewrite <- app_assoc. cbn [tokens app cl_args].
    rewrite (G b t B) by lia. rewrite IH by lia. reflexivity.
Qed.
Lemma len_length : forall l ts, type_args l ts -> length l <= len l.
Proof. intros l ts A. induction A as [|b t l ts B A IH]; simpl; auto. lens. Qed.

Lemma one_chunk : forall St name step tail (s s' : St) t, opens name (tokens t) ->
  step s (tokens t ++ tail) = SNext s' tail [] -> runs name step tail s [tokens t] s'.
Proof. intros. econstructor; [assumption| |constructor]. exact H0. Qed.

Lemma type_good : forall n b t, type_body b t -> len b < n -> good (type_ n) b t.
Proof.
  induction n as [|n IH]; intros b t B L; [lia|]. intros name rest. cbn [type_].
  assert (len_pos : forall n l, 0 < length (tokens (SNode n l))) by (intros; simpl; lia).
  destruct B.
  - apply node_ok with (cs := [tokens (flag w)]) (s' := Some t); [reflexivity| |reflexivity]. apply one_chunk; [exact I|].
    cbn [tokens app type_step flag]. assert (assoc w atoms = Some t) as ->; [|reflexivity].
    simpl in H. repeat destruct H as [H|H]; try (injection H as <- <-; reflexivity). contradiction.
  - lens. apply node_ok with (cs := [tokens (SNode w b)]) (s' := Some (f t)); [reflexivity| |reflexivity]. apply one_chunk; [exact I|].
    cbn [tokens app type_step]. assert (assoc w wraps = Some f) as ->.
    { simpl in H. repeat destruct H as [H|H]; try (injection H as <- <-; reflexivity). contradiction. }
    rewrite (IH b t B) by lia. reflexivity.
  - apply node_ok with (cs := [tokens (str "ad_hoc" x)]) (s' := Some (TAdHoc x TObject)); [reflexivity| |reflexivity]. apply one_chunk; [exact I|].
    destruct n; [unfold len in L; simpl in L; lia|]. reflexivity.
  - lens. apply node_ok with (cs := [tokens (str "ad_hoc" x) ++ tokens (SNode "ad_hoc_ty" b)]) (s' := Some (TAdHoc x t)); [|  |reflexivity].
    { simpl. now rewrite !app_nil_r. }
    econstructor; [exact I| |constructor]. cbn [tokens app type_step str concat]. cbn [String.eqb Ascii.eqb Bool.eqb].
    rewrite (IH b t B) by (unfold str in *; lens). reflexivity.
  - lens. apply node_ok with (cs := [tokens (SNode "closure_type" (l ++ [SNode "cl_ret" b]))]) (s' := Some (TClosure ts r)); [reflexivity| |reflexivity].
    apply one_chunk; [exact I|]. cbn [tokens app type_step]. change (assoc "closure_type" wraps) with (@None (ty -> ty)).
    cbn [String.eqb Ascii.eqb Bool.eqb]. rewrite flat_map_app, <- !app_assoc. cbn [flat_map tokens app].
    rewrite app_nil_r. rewrite (cl_args_ok (type_ n) n) with (ts := ts); auto; try lia.
    + rewrite <- app_assoc. simpl ([_] ++ _). simpl ([_; _] ++ _).
      replace (flat_map tokens b ++ MEnd "cl_ret" :: MEnd "closure_type" :: MEnd name :: rest)
        with ((flat_map tokens b ++ [MEnd "cl_ret"]) ++ MEnd "closure_type" :: MEnd name :: rest) by (rewrite <- app_assoc; reflexivity).
      rewrite (IH b r ltac:(assumption)) by lia. reflexivity.
    + destruct n; [lia|]. reflexivity.
    + rewrite !app_length. pose proof (len_length _ _ H). unfold len in *. simpl. lia.
Qed.
Lemma type_of_good : forall b t, type_body b t -> good type_of b t.
Proof. intros b t B name rest. unfold type_of. apply type_good; auto. simpl. rewrite !app_length. unfold len. lia. Qed.

(** ** Strings *)
Lemma sapp_assoc : forall a b c : string, ((a ++ b) ++ c = a ++ (b ++ c))%string.
Proof. induction a as [|x a IH]; intros b c; simpl; [reflexivity|]. now rewrite IH. Qed.
Lemma sapp_nil : forall a : string, (a ++ "" = a)%string.
Proof. induction a as [|x a IH]; simpl; [reflexivity|]. now rewrite IH. Qed.
Lemma sapp_empty : forall a b : string, (a ++ b = "")%string -> a = "" /\ b = "".
Proof. intros [|x a] b H; simpl in H; [auto|discriminate]. Qed.

Lemma with_marks_name : forall x l, with_marks x l = full_name x l.
Proof.
  intros x l. unfold with_marks, full_name. change (fun b : bool => b) with (@id bool). destruct (existsb id l) eqn:B; [|reflexivity].
  destruct l as [|b l]; [discriminate|]. cbn [fold_left marked fst snd]. do 2 f_equal. clear B.
  change ("" ++ "" ++ (if b then "mut" else "_"))%string with (mark b). generalize (mark b). induction l as [|b' l IH]; intros s; [reflexivity|].
  cbn [fold_left fst snd]. rewrite IH. reflexivity.
Qed.

(** ** Operators *)
Lemma into_applied : forall e es r, applied e es r -> forall items ops, into_expression items ops = FSome e ->
  into_expression (rev (map snd es) ++ items) (rev (map fst es) ++ ops) = FSome r.
Proof.
  intros e es r A. induction A as [e|e o f e' l r I A IH]; intros items ops H; [exact H|].
  cbn [map rev fst snd]. rewrite <- !app_assoc. apply IH. destruct items as [|i items]; [discriminate|].
  change (fbind (into_expression (i :: items) ops) (fun l => FSome (call (op_function o) [l; e'])) = FSome (apply f [e; e'])). rewrite H. simpl.
  assert (op_function o = f) as ->; [|reflexivity]. simpl in I. repeat destruct I as [I|I]; try (injection I as <- <-; reflexivity); contradiction.
Qed.
Lemma loops_create : forall k label l body e, loops k label l body e -> for_n_create k label l body = Some e.
Proof.
  intros k label l body e H. induction H as [label x a b e body H|label x a b e i l body inner L IH H].
  - cbn [for_n_create]. destruct H as [e|e ->]; reflexivity.
  - cbn [for_n_create] in *. rewrite IH. destruct H as [e|e ->]; reflexivity.
Qed.
Lemma assoc_symbols : forall s o, In (s, o) symbols -> assoc s seq_symbols = Some o.
Proof. intros s o H. simpl in H. repeat destruct H as [H|H]; try (injection H as <- <-; reflexivity). contradiction. Qed.
Lemma assoc_assignments : forall s o, In (s, o) assignments -> assoc s assign_symbols = Some o.
Proof. intros s o H. simpl in H. repeat destruct H as [H|H]; try (injection H as <- <-; reflexivity). contradiction. Qed.

(** ** Words *)
Lemma last_words : forall w ids, last_word w ids = match rev ids with IdStr x :: r => rev r ++ [IdStr (x ++ "__" ++ w)%string] | _ => ids end.
Proof.
  intros w ids. induction ids as [|i ids IH] using rev_ind; [reflexivity|]. rewrite rev_app_distr. simpl. clear IH.
  assert (H : forall j ids, last_word w (j :: ids ++ [i]) = j :: last_word w (ids ++ [i])).
  { intros j l. destruct l; destruct j; reflexivity. }
  induction ids as [|j ids IH]; [destruct i; reflexivity|]. simpl app. rewrite H, IH. destruct i; simpl; try reflexivity.
  now rewrite rev_app_distr.
Qed.
Lemma with_words : forall ws it, with_word (String.concat "_" ws) it = words_item ws it.
Proof.
  intros ws [n sid c t ids tr]. unfold with_word, words_item. destruct ids as [|i ids]; [reflexivity|].
  rewrite last_words. destruct (rev (i :: ids)) as [|j r] eqn:R; [apply (f_equal (@rev _)) in R; rewrite rev_involutive in R; discriminate|].
  destruct j; reflexivity.
Qed.
Definition join (w v : string) : string := if (w =? "")%string then v else (w ++ "_" ++ v)%string.
Lemma join_nonempty : forall ws w, w <> "" -> fold_left join ws w = (w ++ String.concat "" (map (fun v => "_" ++ v) ws))%string.
Proof.
  induction ws as [|v ws IH]; intros w H; cbn [fold_left map]; [now rewrite sapp_nil|].
  unfold join at 2. destruct (String.eqb_spec w ""); [contradiction|]. rewrite IH.
  - rewrite sapp_assoc. f_equal. simpl. destruct ws; simpl; rewrite ?sapp_nil; reflexivity.
  - intros K. apply sapp_empty in K. tauto.
Qed.
Lemma join_concat : forall ws, Forall (fun w => w <> "") ws -> fold_left join ws "" = String.concat "_" ws.
Proof.
  intros ws H. destruct ws as [|w ws]; [reflexivity|]. inversion_clear H. cbn [fold_left]. change (join "" w) with w.
  rewrite join_nonempty by assumption. clear. revert w. induction ws as [|v ws IH]; intros w; [simpl; apply sapp_nil|].
  change (String.concat "_" (w :: v :: ws)) with (w ++ "_" ++ String.concat "_" (v :: ws))%string. rewrite <- IH. f_equal. simpl.
  destruct ws; simpl; rewrite ?sapp_nil; reflexivity.
Qed.

Lemma drop_trimmed : forall l l', trimmed l l' -> drop_empty l = l'.
Proof.
  assert (Z : forall l, Forall (fun x => x = @nil lazy) l -> drop_empty l = []).
  { intros l H. induction H as [|x l -> H IH]; simpl; [reflexivity|]. now rewrite IH. }
  intros l l' [l0 H|l0 x r X H]; [auto|]. induction l0 as [|y l0 IH]; simpl.
  - rewrite Z by assumption. destruct x; [contradiction|reflexivity].
  - rewrite IH. destruct l0, y; reflexivity.
Qed.
(** tokens with every start matched by an end *)
Inductive nested : list meta -> Prop :=
| Ne_nil : nested []
| Ne_string n v l : nested l -> nested (MString n v :: l)
| Ne_bool n v l : nested l -> nested (MBool n v :: l)
| Ne_f64 n v l : nested l -> nested (MF64 n v :: l)
| Ne_node n n' l l' : nested l -> nested l' -> nested (MStart n :: l ++ MEnd n' :: l').
Lemma nested_app : forall l, nested l -> forall l', nested l' -> nested (l ++ l').
Proof. intros l H. induction H as [| | | |n n' l l' H IH H' IH']; intros m M; simpl; try constructor; auto. rewrite <- app_assoc. simpl. constructor; auto. Qed.
Scheme type_body_mut := Minimality for type_body Sort Prop with type_args_mut := Minimality for type_args Sort Prop.
Lemma type_nested : forall b t, type_body b t -> nested (flat_map tokens b).
Proof.
  apply (type_body_mut (fun b _ => nested (flat_map tokens b)) (fun l _ => nested (flat_map tokens l))); intros; cbn [flat_map tokens app]; rewrite ?app_nil_r.
  - repeat constructor.
  - apply (Ne_node w w _ []); [assumption|constructor].
  - repeat constructor.
  - apply Ne_string, (Ne_node _ _ _ []); [assumption|constructor].
  - apply (Ne_node _ _ _ []); [|constructor]. rewrite flat_map_app. apply nested_app; [assumption|]. cbn [flat_map tokens app]. rewrite app_nil_r.
    apply (Ne_node _ _ _ []); [assumption|constructor].
  - constructor.
  - rewrite <- app_assoc. apply Ne_node; assumption.
Qed.
Lemma signature_tokens : forall t, signature t -> exists inner, tokens t = MStart "ty" :: inner ++ [MEnd "ty"] /\ nested inner.
Proof.
  intros t [vars l b r A B]. eexists. split; [reflexivity|]. rewrite !flat_map_app. apply nested_app; [|apply nested_app].
  - induction vars; simpl; constructor; assumption.
  - induction A as [|s l (c & u & C & ->) A IH]; [constructor|]. cbn [flat_map tokens]. cbn [app]. rewrite <- app_assoc. apply Ne_node; [exact (type_nested _ _ C)|exact IH].
  - cbn [flat_map tokens app]. rewrite app_nil_r. apply (Ne_node _ _ _ []); [exact (type_nested _ _ B)|constructor].
Qed.
Lemma ignore_nested : forall l, nested l -> forall d rest a b, ignore (S d) rest = Some (a, b) -> ignore (S d) (l ++ rest) = Some (l ++ a, b).
Proof.
  intros l H. induction H as [|n v l H IH|n v l H IH|n v l H IH|n n' l l' H IH H' IH']; intros d rest a b I; [exact I| | | |].
  - simpl. now rewrite (IH _ _ _ _ I).
  - simpl. now rewrite (IH _ _ _ _ I).
  - simpl. now rewrite (IH _ _ _ _ I).
  - cbn [app ignore]. rewrite <- !app_assoc. rewrite (IH (S d) ((MEnd n' :: l') ++ rest) (MEnd n' :: l' ++ a) b); [|simpl; now rewrite (IH' _ _ _ _ I)].
    reflexivity.
Qed.
Lemma ignore_ty : forall inner rest, nested inner -> ignore 0 (MStart "ty" :: inner ++ MEnd "ty" :: rest) = Some (MStart "ty" :: inner ++ [MEnd "ty"], rest).
Proof.
  intros inner rest H. cbn [ignore].
  rewrite (ignore_nested inner H 0 (MEnd "ty" :: rest) [MEnd "ty"] rest) by reflexivity. reflexivity.
Qed.
