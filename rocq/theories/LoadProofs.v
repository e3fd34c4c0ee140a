(** * Programs whose variables are known are well-scoped. *)
From Coq Require Import String List ZArith Bool Arith Lia.
From Verif Require Import PrintModel Float64 TypeModel LifetimeModel NodesModel NodesSpec Syntax SyntaxProofs InterpModel WfSpec ResolveSpec AstModel VisibleSpec LoadModel LoadSpec.
Import ListNotations.
Local Open Scope string_scope.
Local Open Scope nat_scope.
Local Open Scope list_scope.

(** ** Scopes *)
Definition found_in (cs : scope) (x : string) : Prop := exists k, find_var x cs = Some k.
Lemma found_app : forall p cs x, found_in cs x -> found_in (p ++ cs) x.
Proof.
  induction p as [|[y|] p IH]; intros cs x F; [exact F| |]; destruct (IH cs x F) as [k E]; unfold found_in; cbn [app find_var].
  - destruct (String.eqb y x); [eauto|]. rewrite E. eauto.
  - rewrite E. eauto.
Qed.
Lemma found_hide : forall cs x, x <> "return" -> found_in cs x -> found_in (hide cs) x.
Proof.
  intros cs x N [k E]. exists k. revert k E. induction cs as [|[y|] cs IH]; intros k E; [discriminate| |]; cbn [hide map find_var] in *; fold (hide cs).
  - destruct (String.eqb y "return") eqn:R; cbn [find_var].
    + apply String.eqb_eq in R. subst y. destruct (String.eqb "return" x) eqn:R'; [apply String.eqb_eq in R'; congruence|].
      destruct (find_var x cs) as [k'|]; [|discriminate]. now rewrite (IH k' eq_refl).
    + destruct (String.eqb y x); [exact E|]. destruct (find_var x cs) as [k'|]; [|discriminate]. now rewrite (IH k' eq_refl).
  - destruct (find_var x cs) as [k'|]; [|discriminate]. now rewrite (IH k' eq_refl).
Qed.
Lemma found_in_list : forall l x, In x l -> found_in (map Some l) x.
Proof.
  induction l as [|y l IH]; intros x I; [destruct I|]. unfold found_in. cbn [map find_var]. destruct (String.eqb y x) eqn:R; [eauto|].
  destruct I as [->|I]; [rewrite String.eqb_refl in R; discriminate|]. destruct (IH x I) as [k ->]. eauto.
Qed.
Record knows (V : list string) (cs : scope) (ret : bool) : Prop := {
  kn_var : forall x, In x V -> x <> "return" -> found_in cs x;
  kn_ret : ret = true -> found_in cs "return" }.
Lemma knows_app : forall V cs ret p, knows V cs ret -> knows V (p ++ cs) ret.
Proof. intros V cs ret p [A B]. split; intros; apply found_app; auto. Qed.
Lemma knows_name : forall V cs ret x, knows V cs ret -> knows (x :: V) (Some x :: cs) ret.
Proof.
  intros V cs ret x [A B]. split.
  - intros y [->|I] N; [exists 1; cbn [find_var]; now rewrite String.eqb_refl|apply (found_app [_]); auto].
  - intros R. apply (found_app [_]); auto.
Qed.
Lemma knows_declared : forall V cs ret e, knows V cs ret -> knows (declared_by e ++ V) (adds e ++ cs) ret.
Proof.
  intros V cs ret e K. destruct e as [ | | | | | | | | | | | |op l r| | | | | | | | | | | | | | ]; try (apply knows_app; exact K); try exact K.
  destruct op; try exact K. destruct l as [ | | | | | | | | | | |it| | | | | | | | | | | | | | | ]; try exact K. destruct it as [x sid c t [|i ids] ti]; [apply knows_name, K|exact K].
Qed.
Lemma knows_hidden : forall V cs ret, knows V cs ret -> knows V (None :: hide cs) false.
Proof. intros V cs ret [A B]. split; [|discriminate]. intros x I N. apply (found_app [_]), found_hide; auto. Qed.
Lemma knows_entry : forall ret args currents, knows (args ++ currents) (entry ret args currents) ret.
Proof.
  intros ret args currents. unfold entry. rewrite <- map_rev. split.
  - intros x I _. apply found_in_list. rewrite <- in_rev. apply in_or_app. now right.
  - intros ->. apply found_in_list. rewrite <- in_rev. now left.
Qed.

Section Loaded.
Context (E : env) (arity : string -> nat) (md fi : nat) (m : modl) (callable : string -> nat -> Prop).
Context (CALLS : forall x n, callable x n ->
  match find_function m x fi with
  | FNone => False
  | FLoaded i => exists g, target E md fi i = Some g /\ length (fn_args g) = n
  | FUn _ => n = 1
  | FBin _ => n = 2
  | FVoid g | FRet g | FLazy g => arity g = n
  end).
Notation fc := (find_calls m fi).
Notation visible := (visible callable).
Notation shaped := (shaped E md fi).
Notation scoped := (scoped E arity md fi).

Lemma adds_calls : forall e, adds (fc e) = adds e.
Proof.
  intros e. destruct e as [ | | | | | | | | | | | |op l r| | | | | | | | | |c| | | | ]; try reflexivity; [|destruct c; reflexivity]. destruct op; try reflexivity.
  destruct l as [ | | | | | | | | | | |it| | | | | | | | | | |c| | | | ]; try reflexivity; [destruct it as [x sid c t [|i ids] ti]; reflexivity|destruct c; reflexivity].
Qed.
Lemma declared_calls : forall e, declared_by (fc e) = declared_by e.
Proof.
  intros e. destruct e as [ | | | | | | | | | | | |op l r| | | | | | | | | |c| | | | ]; try reflexivity; [|destruct c; reflexivity]. destruct op; try reflexivity.
  destruct l as [ | | | | | | | | | | |it| | | | | | | | | | |c| | | | ]; try reflexivity; [destruct it as [x sid c t [|i ids] ti]; reflexivity|destruct c; reflexivity].
Qed.
Lemma width_calls : forall e, width (fc e) = width e.
Proof. intros e. destruct e; try reflexivity. now destruct c. Qed.
Lemma values_widths : forall l, values_of l = widths (map fc l).
Proof. induction l as [|e l IH]; [reflexivity|]. cbn [map widths fold_right]. fold (widths (map fc l)). rewrite width_calls, <- IH. destruct e; reflexivity. Qed.
Lemma plain_widths : forall l, all_ok (fun e => is_swizzle e = false) l -> widths l = length l.
Proof.
  induction l as [|e l IH]; [reflexivity|]. intros [A B]. cbn [widths fold_right length]. fold (widths l). rewrite IH by exact B. destruct e; try reflexivity. discriminate.
Qed.

Definition Pe (e : expr) : Prop := forall V cs ret outer, visible V e -> built e -> shaped ret (fc e) -> knows V cs ret -> scoped outer cs (fc e).
Definition Pi (it : item) : Prop := forall V cs ret outer, visible_item callable V it -> built_item it -> shaped_item E md fi ret (find_calls_item m fi it) -> knows V cs ret ->
  scoped_item E arity md fi outer cs (find_calls_item m fi it).
Definition Px (i : idx) : Prop := forall V cs ret outer, visible_idx callable V i -> built_idx i -> shaped_idx E md fi ret (find_calls_idx m fi i) -> knows V cs ret ->
  scoped_idx E arity md fi outer cs (find_calls_idx m fi i).
Definition Pc (c : closure) : Prop := forall V ret outer, visible V (EClosure c) -> built (EClosure c) -> shaped ret (fc (EClosure c)) -> scoped outer [] (fc (EClosure c)) /\
  forall cs, scoped outer cs (fc (EClosure c)).

Lemma seq_s : forall l, Forall Pe l -> forall V cs ret outer, in_turn visible V l -> all_ok built l -> seq_all (shaped ret) (map fc l) -> knows V cs ret -> seq_ok (scoped outer) cs (map fc l).
Proof.
  induction 1 as [|e l He Hl IH]; intros V cs ret outer A D B K; [exact I|]. destruct A as [A1 A2]. destruct D as [D1 D2]. destruct B as (B1 & B2 & B3). cbn [map].
  split; [exact (He V cs ret outer A1 D1 B1 K)|]. split; [exact B2|]. apply (IH (declared_by e ++ V) (adds (fc e) ++ cs) ret outer A2 D2 B3). rewrite adds_calls. now apply knows_declared.
Qed.
Lemma all_s : forall l, Forall Pe l -> forall V cs ret outer, all_in visible V l -> all_ok built l -> all_ok (shaped ret) (map fc l) -> knows V cs ret -> all_ok (scoped outer cs) (map fc l).
Proof.
  induction 1 as [|e l He Hl IH]; intros V cs ret outer A D B K; [exact I|]. destruct A as [A1 A2]. destruct D as [D1 D2]. destruct B as [B1 B2]. cbn [map].
  split; [exact (He V cs ret outer A1 D1 B1 K)|exact (IH V cs ret outer A2 D2 B2 K)].
Qed.
Lemma thread_s : forall l, Forall Pe l -> forall V cs ret outer, all_in visible V l -> all_ok built l -> all_ok (shaped ret) (map fc l) -> knows V cs ret -> thread_ok (scoped outer) temps cs (map fc l).
Proof.
  induction 1 as [|e l He Hl IH]; intros V cs ret outer A D B K; [exact I|]. destruct A as [A1 A2]. destruct D as [D1 D2]. destruct B as [B1 B2]. cbn [map].
  split; [exact (He V cs ret outer A1 D1 B1 K)|]. apply (IH V _ ret outer A2 D2 B2). now apply knows_app.
Qed.
Lemma assign_s : forall op l r, Pe l -> Pe r -> Pe (EAssign op l r).
Proof.
  intros op l r Hl Hr V cs ret outer A [D1 D2] B K.
  assert (G : (visible V l /\ visible V r) -> (shaped ret (fc l) /\ shaped ret (fc r)) -> scoped outer cs (fc l) /\ scoped outer cs (fc r)).
  { intros [A1 A2] [B1 B2]. split; [exact (Hl V cs ret outer A1 D1 B1 K)|exact (Hr V cs ret outer A2 D2 B2 K)]. }
  destruct op; try exact (G A B). destruct l as [ | | | | | | | | | | |it| | | | | | | | | | |c| | | | ]; try exact (G A B); [|destruct c; exact (G A B)].
  destruct it as [x sid c t [|i ids] ti]; [exact (Hr V cs ret outer A D2 B K)|exact (G A B)].
Qed.
Lemma call_s : forall f n l, Forall Pe l -> Pe (ECall f n l).
Proof.
  intros f n l H V cs ret outer [C A] D B K. specialize (CALLS n _ C). unfold find_calls; fold find_calls. change (fc (ECall f n l)) with (ECall (find_function m n fi) n (map fc l)) in *.
  change (all_ok built l) in D. destruct B as [B1 B2]. rewrite values_widths in CALLS.
  assert (L : all_ok (fun e => is_swizzle e = false) (map fc l) -> widths (map fc l) = length (map fc l)) by apply plain_widths.
  destruct (find_function m n fi) as [|i|g|g|g|g|g]; try contradiction.
  - destruct CALLS as (g & T & W). unfold ResolveSpec.scoped; fold (ResolveSpec.scoped E arity). rewrite T. split; [|exact B2]. split; [|now rewrite W].
    destruct (fn_ret g); [apply (thread_s l H V _ ret); auto; now apply (knows_app V cs ret [None])|apply (thread_s l H V _ ret); auto].
  - split; [rewrite CALLS; auto|exact (thread_s l H V cs ret outer A D B1 K)].
  - split; [rewrite CALLS; auto|exact (thread_s l H V cs ret outer A D B1 K)].
  - split; [rewrite CALLS; auto|exact (thread_s l H V cs ret outer A D B1 K)].
  - split; [exact (all_s l H V cs ret outer A D B1 K)|]. rewrite <- CALLS. rewrite (L B2). apply le_n.
  - rewrite (L B2) in CALLS. rewrite map_length in CALLS. destruct l as [|e [|e' l]]; try discriminate. exact (proj1 (all_s [e] H V cs ret outer A D B1 K)).
Qed.
Lemma ids_s : forall ids, Forall Px ids -> forall V cs ret outer,
  (fix go (l : list idx) : Prop := match l with [] => True | i :: l => visible_idx callable V i /\ go l end) ids -> all_ok built_idx ids ->
  all_ok (shaped_idx E md fi ret) (map (find_calls_idx m fi) ids) -> knows V cs ret -> ids_ok (scoped_idx E arity md fi outer) cs (map (find_calls_idx m fi) ids).
Proof.
  induction 1 as [|i ids Hi Hl IH]; intros V cs ret outer A D B K; [exact Logic.I|]. destruct A as [A1 A2]. destruct D as [D1 D2]. destruct B as [B1 B2]. cbn [map].
  split; [exact (Hi V cs ret outer A1 D1 B1 K)|]. apply (IH V _ ret outer A2 D2 B2). destruct i; cbn [find_calls_idx]; auto. now apply (knows_app V cs ret [None]).
Qed.
Lemma link_calls : forall b, link_body b -> link_body (map fc b).
Proof. intros [|e b] H; [exact H|]. destruct e as [ | | | | | | | | | | | | | | | |k lb x a z l| | | | | |c| | | | ]; try exact H; try (destruct H; fail); destruct k; exact H. Qed.
Lemma link_in_calls : forall b, link_body_in b -> link_body_in (map fc b).
Proof. intros [|e b] H; [exact H|]. destruct e as [ | | | | | | | | | | | | | | | | |k lb x it l| | | | |c| | | | ]; try exact H; try (destruct H; fail); destruct k; exact H. Qed.
Theorem visible_scoped : (forall v : value, True) /\ (forall e, Pe e) /\ (forall it, Pi it) /\ (forall i, Px i) /\ (forall c, Pc c).
Proof.
  apply syntax_ind; try (intros; exact Logic.I).
  - intros l H V cs ret outer A D [B1 B2] K. split; [exact (seq_s l H V cs ret outer A D B1 K)|exact B2].
  - intros l H V cs ret outer A D B K. revert A D B. change (fc (EObject l)) with (EObject (map (fun kv => match kv with (k, x) => (k, fc x) end) l)).
    induction H as [|[k e] l He Hl IH]; intros A D B; [exact Logic.I|]. destruct A as [A1 A2]. destruct D as [D1 D2]. destruct B as [B1 B2]. split; [exact (He V cs ret outer A1 D1 B1 K)|exact (IH A2 D2 B2)].
  - intros l H V cs ret outer A D B K. exact (all_s l H V cs ret outer A D B K).
  - intros a b Ha Hb V cs ret outer [A1 A2] [D1 D2] [B1 B2] K. split; [exact (Ha V cs ret outer A1 D1 B1 K)|exact (Hb V cs ret outer A2 D2 B2 K)].
  - intros e H V cs ret outer A D B K. exact (H V cs ret outer A D B K).
  - intros V cs ret outer _ _ _ _. exact Logic.I.
  - intros l V cs ret outer _ _ _ _. exact Logic.I.
  - intros l V cs ret outer _ _ _ _. exact Logic.I.
  - intros l H V cs ret outer A D B K. exact (seq_s l H V cs ret outer A D B K).
  - intros n l H V cs ret outer [_ A] D B K. exact (all_s l H V cs ret outer A D B K).
  - exact call_s.
  - intros it H V cs ret outer A D B K. exact (H V cs ret outer A D B K).
  - exact assign_s.
  - intros l H V cs ret outer A D (B1 & B2 & B3) K. split; [exact (thread_s l H V cs ret outer A D B1 K)|split; [exact B2|exact B3]].
  - intros l H V cs ret outer A D (B1 & B2 & B3) K. split; [exact (thread_s l H V cs ret outer A D B1 K)|split; [exact B2|exact B3]].
  - intros lb a b c l Ha Hb Hc Hl V cs ret outer (A1 & A2 & A3 & A4) (D1 & D2 & D3 & D4) (B1 & B2 & B3 & B4 & B5 & B6 & B7 & B8) K.
    pose proof (knows_declared V cs ret a K) as K'. rewrite <- (adds_calls a) in K'.
    split; [exact (Ha V cs ret outer A1 D1 B1 K)|]. split; [exact B2|]. split; [exact (Hb _ _ ret outer A2 D2 B3 K')|]. split; [exact (Hc _ _ ret outer A3 D3 B4 K')|].
    split; [exact (seq_s l Hl _ _ ret outer A4 D4 B5 K')|]. split; [exact B6|]. split; [exact B7|exact B8].
  - intros k lb n a b l Ha Hb Hl V cs ret outer (A1 & A2 & A3) (D1 & D2 & D3 & D4) (B1 & B2 & B3) K. split; [destruct a as [a|]; [exact (Ha V cs ret outer A1 D1 B1 K)|exact Logic.I]|].
    split; [exact (Hb V cs ret outer A2 D2 B2 K)|]. split; [exact (seq_s l Hl _ _ ret outer A3 D3 B3 (knows_name _ _ _ _ K))|]. intros L. apply link_calls. exact (D4 L).
  - intros k lb n a l Ha Hl V cs ret outer (A2 & A3) (D1 & D2 & D3 & D4 & D5) (B2 & B3) K.
    split; [exact (Ha V cs ret outer A2 D1 B2 K)|]. split; [exact (seq_s l Hl _ _ ret outer A3 D2 B3 (knows_name _ _ _ _ K))|]. split; [exact D3|]. split; [exact D4|]. intros L. apply link_in_calls. exact (D5 L).
  - intros c tb cs' bs eb Hc Htb Hcs Hbs Heb V cs ret outer (A1 & A2 & A3 & A4 & A5) (D1 & D2 & D3 & D4 & D5) (B1 & B2 & B3 & B4 & B5) K.
    split; [exact (Hc V cs ret outer A1 D1 B1 K)|]. split; [exact (seq_s tb Htb V cs ret outer A2 D2 B2 K)|]. split; [exact (all_s cs' Hcs V cs ret outer A3 D3 B3 K)|]. split.
    + clear - Hbs A4 D4 B4 K. induction Hbs as [|b bs Hb Hbs IH]; [exact Logic.I|]. destruct A4 as [A1 A2], D4 as [D1 D2], B4 as [B1 B2]. split; [exact (seq_s b Hb V cs ret outer A1 D1 B1 K)|exact (IH A2 D2 B2)].
    + destruct eb as [b|]; [exact (seq_s b Heb V cs ret outer A5 D5 B5 K)|exact Logic.I].
  - intros v _ V cs ret outer _ _ B _. exact B.
  - intros e H V cs ret outer A D B K. exact (H V cs ret outer A D B K).
  - intros i e H V cs ret outer A [D1 D2] B K. split; [exact (H V cs ret outer A D1 B K)|exact D2].
  - intros c H V cs ret outer A D B _. exact (proj2 (H V ret outer A D B) cs).
  - intros it l Hi H V cs ret outer [A1 A2] [D1 D2] (B1 & B2 & B3) K. split; [exact (Hi V cs ret outer A1 D1 B1 K)|].
    split; [exact (thread_s l H V _ false outer A2 D2 B2 (knows_hidden _ _ _ K))|exact B3].
  - intros n e H V cs ret outer _ _ [] _.
  - intros e H V cs ret outer A D B K. exact (H V cs ret outer A D B K).
  - intros f V cs ret outer _ _ B _. exact B.
  - intros n s c t ids ti H V cs ret outer [A1 A2] D [B1 B2] K. split; [|exact (ids_s ids H V cs ret outer A2 D B2 K)].
    destruct (string_dec n "return") as [->|N]; [exact (kn_ret _ _ _ K (B1 eq_refl))|]. destruct A1 as [A1|A1]; [contradiction|exact (kn_var _ _ _ K n A1 N)].
  - intros s V cs ret outer _ _ _ _. exact Logic.I.
  - intros s V cs ret outer _ _ _ _. exact Logic.I.
  - intros e H V cs ret outer A D B K. exact (H V cs ret outer A D B K).
  - intros a c b H V ret outer A D [B1 B2]. assert (X : forall cs, scoped outer cs (fc (EClosure (Closure a c b)))); [|split; [apply X|exact X]].
    intros cs. split; [exact (H (a ++ c) _ true (cs :: outer) A D B1 (knows_entry true a c))|exact B2].
Qed.
End Loaded.
