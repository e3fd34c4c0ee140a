(** * Lemmas: expressions, functions and files are converted to what they mean. *)
From Coq Require Import String List Bool Arith ZArith Lia.
From Verif Require Import PrintModel ColorModel Float64 TypeModel LifetimeModel NodesModel FoldModel TransformModel NodesSpec Syntax AstModel AstSpec AstProofs AstParts.
Import ListNotations.
Local Open Scope string_scope.
Local Open Scope nat_scope.
Local Open Scope list_scope.

Section File.
Context (in_of : option string -> string -> callee) (alloc : Z -> bool).

Lemma expression_rejects : forall n, 0 < n -> forall name m ms, m <> MStart name -> expression_ in_of alloc n name (m :: ms) = AErr [].
Proof.
  intros [|n] L name m ms H; [lia|]. cbn [expression_]. unfold node. destruct m; try reflexivity.
  destruct (String.eqb_spec name0 name); [congruence|reflexivity].
Qed.
Lemma expression_good : forall n b m e, arg_body in_of alloc b m e -> len b < n -> good (expression_ in_of alloc n) b e.
Proof.
  induction n as [|n IH]; intros b m e B L; [lia|]. intros name rest. cbn [expression_].
  apply node_map with (s' := Some e); [|reflexivity]. eapply arg_body_ok with (N := n); [exact IH|apply expression_rejects|exact B|lia].
Qed.
Lemma expression_ok : forall b m e, arg_body in_of alloc b m e -> good (expression in_of alloc) b e.
Proof. intros b m e B name rest. unfold expression. eapply expression_good; eauto. simpl. rewrite !app_length. unfold len. lia. Qed.
Lemma expression_rejects_ : forall name m ms, m <> MStart name -> expression in_of alloc name (m :: ms) = AErr [].
Proof. intros. unfold expression. apply expression_rejects; auto. lia. Qed.

Lemma signatures_ok : forall l, extra_signatures l -> forall name tail s, runs name (fn_step alloc (expression in_of alloc) true) tail s (map tokens l) s.
Proof.
  induction l as [|t l IH]; intros X name tail s; [constructor|]. inversion_clear X as [|? ? Y Z]. destruct (signature_tokens _ Y) as (inner & T & D).
  eapply runs_map_cons; [rewrite T; exact I| |apply IH; exact Z].
  intros rest. rewrite T. cbn [app fn_step]. rewrite <- app_assoc. cbn [app].
  change ("ty" =? "arg")%string with false. change ("ty" =? "current")%string with false. change ("ty" =? "ret_type")%string with false.
  change ("ty" =? "block")%string with false. change ("ty" =? "expr")%string with false. change ("ty" =? "ty")%string with true. cbn [andb].
  rewrite ignore_ty by assumption. reflexivity.
Qed.
Lemma function_ok : forall t f rest, function_means in_of alloc t f -> function in_of alloc (tokens t ++ rest) = AOk f rest [].
Proof.
  intros t f rest H.
  assert (G : forall N b m e, arg_body in_of alloc b m e -> len b < N -> good (expression in_of alloc) b e) by (intros; eapply expression_ok; eauto).
  assert (R : forall N, 0 < N -> forall name m ms, m <> MStart name -> expression in_of alloc name (m :: ms) = AErr []) by (intros; now apply expression_rejects_).
  assert (C : forall (xs : list arg) (lz : list (list lazy)), length xs = length lz ->
    map (fun a => r_mut (fst a)) (combine xs lz) = map r_mut xs /\ map fst (combine xs lz) = xs /\ map snd (combine xs lz) = lz).
  { clear. induction xs as [|x xs IH]; intros [|z lz] K; try discriminate; [auto|]. injection K as K. destruct (IH _ K) as (A & B & D).
    simpl. now rewrite A, B, D. }
  destruct H as [x args currents T t l tys xs lz lz' cs es A U P B X Z|x args currents l tys xs lz lz' cs es A U B X Z|x args currents b xs lz lz' cs e A U B Z].
  - pose proof (args_ok in_of alloc _ (len args) (G _) (R _) _ _ _ A (le_n _)) as Q. pose proof (proj2 (Q true [] "" fn_start)) as K.
    destruct (C xs lz K) as (C1 & C2 & C3). cbn [tokens app]. eapply node_map.
    + eapply runs_map_cons; [exact I|intros; reflexivity|]. rewrite !map_app. eapply runs_app; [apply Q|]. eapply runs_app; [apply currents_ok; eassumption|].
      eapply runs_map_cons; [exact I|intros; reflexivity|]. rewrite map_app.
      apply runs_app with (s1 := Fnst (Some x) (combine xs lz) cs (Some (match t with Some t => t | None => TAny end)) None None).
      * destruct (type_step_ok _ _ _ P) as [[-> ->]|(t' & -> & H)]; [constructor|].
        destruct (H []) as (T' & -> & HH & _). eapply runs_map_cons; [rewrite HH; exact I| |constructor].
        intros rest0. destruct (H rest0) as (T'' & EQ & _ & H'). injection EQ as <-. rewrite HH in *. cbn [app] in *. cbn [fn_step].
        change ("ret_type" =? "arg")%string with false. change ("ret_type" =? "current")%string with false. change ("ret_type" =? "ret_type")%string with true.
        cbv iota. rewrite H'. reflexivity.
      * eapply runs_map_cons; [exact I| |apply signatures_ok; assumption]. intros rest0. cbn [tokens app fn_step].
        change ("block" =? "arg")%string with false. change ("block" =? "current")%string with false. change ("block" =? "ret_type")%string with false.
        change ("block" =? "block")%string with true. cbv iota. cbn [andb]. rewrite (block_ok in_of alloc _ (len l) (G _) (R _) _ _ _ _ B) by lia. reflexivity.
    + unfold fn_finish. cbn [g_name g_expr g_block g_ret g_args g_currents need fbind]. rewrite C1, C2, C3, with_marks_name, (drop_trimmed _ _ Z). reflexivity.
  - pose proof (args_ok in_of alloc _ (len args) (G _) (R _) _ _ _ A (le_n _)) as Q. pose proof (proj2 (Q true [] "" fn_start)) as K.
    destruct (C xs lz K) as (C1 & C2 & C3). cbn [tokens app]. eapply node_map.
    + eapply runs_map_cons; [exact I|intros; reflexivity|]. rewrite !map_app. eapply runs_app; [apply Q|]. eapply runs_app; [apply currents_ok; eassumption|].
      eapply runs_map_cons; [exact I|intros; reflexivity|].
      eapply runs_map_cons; [exact I| |apply signatures_ok; assumption]. intros rest0. cbn [tokens app fn_step].
      change ("block" =? "arg")%string with false. change ("block" =? "current")%string with false. change ("block" =? "ret_type")%string with false.
      change ("block" =? "block")%string with true. cbv iota. cbn [andb]. rewrite (block_ok in_of alloc _ (len l) (G _) (R _) _ _ _ _ B) by lia. reflexivity.
    + unfold fn_finish. cbn [fn_start g_name g_expr g_block g_ret g_args g_currents need fbind app]. rewrite C1, C2, C3, with_marks_name, (drop_trimmed _ _ Z). reflexivity.
  - pose proof (args_ok in_of alloc _ (len args) (G _) (R _) _ _ _ A (le_n _)) as Q. pose proof (proj2 (Q true [] "" fn_start)) as K.
    destruct (C xs lz K) as (C1 & C2 & C3). cbn [tokens app]. eapply node_map.
    + eapply runs_map_cons; [exact I|intros; reflexivity|]. rewrite !map_app. eapply runs_app; [apply Q|]. eapply runs_app; [apply currents_ok; eassumption|].
      eapply runs_map_cons; [exact I| |constructor]. intros rest0. cbn [tokens app fn_step].
      change ("expr" =? "arg")%string with false. change ("expr" =? "current")%string with false. change ("expr" =? "ret_type")%string with false.
      change ("expr" =? "block")%string with false. change ("expr" =? "expr")%string with true. cbv iota. cbn [andb].
      rewrite (expression_ok _ false e (Ab_expr in_of alloc b e B)). reflexivity.
    + unfold fn_finish. cbn [fn_start g_name g_expr g_block g_ret g_args g_currents need fbind app]. rewrite C1, C2, C3, with_marks_name, (drop_trimmed _ _ Z). reflexivity.
Qed.

Lemma names_ok : forall name ns s tail, runs name names_step tail s (map tokens (map (str "name") ns)) (s ++ ns).
Proof.
  intros name. induction ns as [|n ns IH]; intros s tail; [rewrite app_nil_r; constructor|].
  cbn [map]. eapply runs_map_cons; [exact I|intros; reflexivity|]. cbn beta. rewrite (app_assoc s [n] ns : s ++ n :: ns = _). apply IH.
Qed.
Lemma use_ok : forall t u rest, use_means t u -> use_import (tokens t ++ rest) = AOk u rest [].
Proof.
  intros t u rest [names fns a]. cbn [tokens app].
  eapply node_ok with (cs := map tokens (map (str "name") names)
      ++ map (fun f => flat_map tokens (str "use_fn" (fst f) :: strs "use_fn_alias" (snd f))) fns ++ [tokens (str "alias" a)])
    (s' := (names, fns, Some a)).
  - rewrite !concat_app, concat_tokens, !flat_map_app. simpl. f_equal. f_equal. clear. induction fns as [|f fns IH]; [reflexivity|].
    cbn [map concat flat_map]. rewrite IH, flat_map_app. reflexivity.
  - assert (N : forall names s0 fns0 al tail, runs "use" use_step tail (s0, fns0, al) (map tokens (map (str "name") names)) (s0 ++ names, fns0, al)).
    { clear. induction names as [|n ns IH]; intros s0 fns0 al tail; [rewrite app_nil_r; constructor|].
      cbn [map]. eapply runs_map_cons; [exact I|intros; reflexivity|]. rewrite (app_assoc s0 [n] ns : s0 ++ n :: ns = _). apply IH. }
    eapply runs_app; [apply N|]. eapply runs_app.
    + instantiate (1 := (names, fns, None)). change ([] ++ names) with names.
      set (tail := MEnd "use" :: rest). change (concat [tokens (str "alias" a)]) with [MString "alias" a].
      assert (Q : forall fns fns0, runs "use" use_step ([MString "alias" a] ++ tail) (names, fns0, None)
                (map (fun f => flat_map tokens (str "use_fn" (fst f) :: strs "use_fn_alias" (snd f))) fns) (names, fns0 ++ fns, None)).
      { clear. induction fns as [|[f o] fns IH]; intros fns0; [rewrite app_nil_r; constructor|]. cbn [map].
        rewrite (app_assoc fns0 [(f, o)] fns : fns0 ++ (f, o) :: fns = _). econstructor; [exact I| |apply IH].
        destruct o as [w|]; [reflexivity|]. destruct fns as [|[f' [w'|]] fns]; reflexivity. }
      exact (Q fns []).
    + econstructor; [exact I|reflexivity|constructor].
  - reflexivity.
Qed.
Lemma uses_ok : forall l us rest, Forall2 use_means l us -> uses (MStart "uses" :: (flat_map tokens l ++ [MEnd "uses"]) ++ rest) = AOk us rest [].
Proof.
  intros l us rest F. apply node_map with (s' := us); [|reflexivity].
  assert (Q : forall tail s, runs "uses" uses_step tail s (map tokens l) (s ++ us)); [|exact (Q _ [])].
  induction F as [|t u l us H F IH]; intros tail s; [rewrite app_nil_r; constructor|].
  rewrite (app_assoc s [u] us : s ++ u :: us = _). eapply runs_map_cons; [destruct H; exact I| |apply IH].
  intros rest0. pose proof (use_ok _ _ rest0 H) as K. destruct H. cbn [tokens app uses_step] in *. change ("use" =? "use")%string with true. cbv iota.
  rewrite K. reflexivity.
Qed.
Lemma function_head : forall t f, function_means in_of alloc t f -> exists b, t = SNode "fn" b.
Proof. intros t f H. destruct H; eauto. Qed.
Lemma functions_ok : forall l fs, Forall2 (function_means in_of alloc) l fs -> forall k, length l < k ->
  functions in_of alloc k (flat_map tokens l) = (fs, [], Done).
Proof.
  intros l fs F. induction F as [|t f l fs H F IH]; intros k L; (destruct k; [simpl in L; lia|]); [reflexivity|]. simpl in L.
  cbn [flat_map functions]. rewrite (function_ok _ _ _ H), IH by lia. reflexivity.
Qed.
Lemma file_ok : forall F f, file_means in_of alloc F f -> convert in_of alloc (flat_map tokens F) = (f, [], Done).
Proof.
  intros F f [N U ns us l us' fs HN HU Hus Hfs].
  assert (LL : length l <= length (flat_map tokens l)).
  { clear - Hfs. induction Hfs as [|t f l fs H F IH]; simpl; auto. destruct (function_head _ _ H) as [b ->]. simpl. rewrite !app_length. simpl. lia. }
  rewrite !flat_map_app. unfold convert.
  assert (A : or_none [] (namespace (flat_map tokens N ++ flat_map tokens U ++ flat_map tokens l)) (flat_map tokens N ++ flat_map tokens U ++ flat_map tokens l)
    = AOk ns (flat_map tokens U ++ flat_map tokens l) []).
  { destruct HN as [[-> ->]| ->].
    - cbn [flat_map app]. destruct HU as [[-> _]| ->]; [|reflexivity]. cbn [flat_map app].
      destruct Hfs as [|t0 f0 l0 fs0 H Hfs]; [reflexivity|]. destruct (function_head _ _ H) as [b ->]. reflexivity.
    - cbn [flat_map tokens]. rewrite app_nil_r. cbn [app]. unfold namespace. rewrite (node_map _ _ "ns" names_step [] ns (@FSome _) ns); [reflexivity| |reflexivity].
      apply (names_ok "ns" ns []). }
  rewrite A.
  assert (B : or_none [] (uses (flat_map tokens U ++ flat_map tokens l)) (flat_map tokens U ++ flat_map tokens l) = AOk us' (flat_map tokens l) []).
  { destruct HU as [[-> ->]| ->].
    - cbn [flat_map app]. destruct Hfs as [|t0 f0 l0 fs0 H Hfs]; [reflexivity|]. destruct (function_head _ _ H) as [b ->]. reflexivity.
    - cbn [flat_map tokens]. rewrite app_nil_r. cbn [app]. rewrite uses_ok with (us := us'); [reflexivity|assumption]. }
  rewrite B, (functions_ok _ _ Hfs) by lia. reflexivity.
Qed.
End File.

(** The parser of types that the checker uses (lifetime/mod.rs, see NodesModel.v) *)
Definition parse_type (name : string) (ms : list meta) : option (nat * ty) :=
  match type_of name ms with AOk t rest _ => Some (length ms - length rest, t) | _ => None end.
Lemma parse_type_ok : forall name b t, type_body b t -> type_is parse_type name (flat_map tokens b) t.
Proof.
  intros name b t B rest. unfold parse_type. pose proof (type_of_good _ _ B name rest) as H. rewrite <- app_assoc in H. simpl in H. rewrite H.
  replace (_ - length rest) with (length (flat_map tokens b) + 2); [reflexivity|].
  cbn [length]. rewrite app_length. cbn [length]. lia.
Qed.
