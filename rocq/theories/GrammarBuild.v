(** * The forest of a text, as a function. *)
From Coq Require Import String List Bool Arith ZArith Lia.
From Verif Require Import PrintModel Float64 TypeModel LifetimeModel NodesModel NodesSpec.
Import ListNotations.
Local Open Scope string_scope.
Local Open Scope nat_scope.
Local Open Scope list_scope.

Section Build.
Context (P : type_parser).
Definition parsed (name : string) (inner : list meta) : option ty :=
  match P name (MStart name :: inner ++ [MEnd name]) with Some (_, t) => Some t | None => None end.
Definition say (m : meta) (d : data) : data :=
  match m with
  | MString n v => set_string n v d
  | MBool n v => set_bool n v d
  | MF64 n v => match set_f64 n v d with NOk d' => d' | _ => d end
  | _ => d
  end.
Fixpoint build (t : stx) (d : data) : data * list ntree :=
  match t with
  | SNode name body =>
      match kind_new name with
      | Some k =>
          let r := (fix go (b : list stx) (d : data) : data * list ntree :=
                      match b with
                      | [] => (d, [])
                      | t :: b => let r := build t d in let r' := go b (fst r) in (fst r', snd r ++ snd r')
                      end) body (blank k (start_ty k)) in
          (d, [NT (fst r) (snd r)])
      | None => (d, [])
      end
  | SValue m => (say m d, [])
  | SType name inner => (match parsed name inner with Some t => with_ty t d | None => d end, [])
  | SSig name inner => (d, match kind_new name with Some k => [NT (blank k (parsed name inner)) []] | None => [] end)
  end.
Fixpoint builds (b : list stx) (d : data) : data * list ntree :=
  match b with
  | [] => (d, [])
  | t :: b => let r := build t d in let r' := builds b (fst r) in (fst r', snd r ++ snd r')
  end.
Lemma build_node : forall name body d, build (SNode name body) d =
  match kind_new name with
  | Some k => let r := builds body (blank k (start_ty k)) in (d, [NT (fst r) (snd r)])
  | None => (d, [])
  end.
Proof. reflexivity. Qed.
Lemma builds_app : forall a b d, builds (a ++ b) d = (fst (builds b (fst (builds a d))), snd (builds a d) ++ snd (builds b (fst (builds a d)))).
Proof.
  induction a as [|t a IH]; intros b d; simpl; [now destruct (builds b d)|]. rewrite IH. simpl. now rewrite app_assoc.
Qed.

(** the pieces are of the right sort *)
Fixpoint sorted (t : stx) : Prop :=
  match t with
  | SNode name body =>
      (exists k, kind_new name = Some k /\ is_type k = false /\ is_sig_type k = false) /\
      (fix all (l : list stx) : Prop := match l with [] => True | t :: l => sorted t /\ all l end) body
  | SValue (MString _ _) | SValue (MBool _ _) => True
  | SValue (MF64 n v) => (n =? "grab_level")%string && flt v f1 = false
  | SValue _ => False
  | SType name inner => exists k t, kind_new name = Some k /\ is_type k = true /\ type_is P name inner t
  | SSig name inner => exists k t, kind_new name = Some k /\ is_sig_type k = true /\ type_is P name inner t
  end.
Lemma sorted_node : forall name body, sorted (SNode name body) <->
  (exists k, kind_new name = Some k /\ is_type k = false /\ is_sig_type k = false) /\ Forall sorted body.
Proof.
  intros name body. cbn [sorted]. split; intros [A B]; (split; [exact A|]); clear A; (induction body as [|t l IH]; [constructor|]).
  - destruct B as [X Y]. constructor; auto.
  - inversion_clear B. split; [assumption|apply IH; assumption].
Qed.
Lemma type_parsed : forall name inner t, type_is P name inner t -> parsed name inner = Some t.
Proof. intros name inner t H. unfold parsed. now rewrite H. Qed.

Fixpoint weight (t : stx) : nat := match t with SNode _ b => S (fold_right (fun t n => weight t + n) 0 b) | _ => 1 end.
Definition weights (b : list stx) : nat := fold_right (fun t n => weight t + n) 0 b.
Lemma build_stands_all : forall n,
  (forall t d, weight t < n -> sorted t -> stands P t d (fst (build t d)) (snd (build t d))) /\
  (forall b d, weights b < n -> Forall sorted b -> all_stand P b d (fst (builds b d)) (snd (builds b d))).
Proof.
  induction n as [|n [IT IB]]; [split; intros; lia|].
  assert (T : forall t d, weight t < S n -> sorted t -> stands P t d (fst (build t d)) (snd (build t d))).
  { intros t d L W. destruct t as [name b|m|name inner|name inner].
    - apply sorted_node in W. destruct W as [(k & K & K1 & K2) W]. rewrite build_node, K. cbn [fst snd].
      eapply St_node; eauto. apply IB; [|exact W]. change (weight (SNode name b)) with (S (weights b)) in L. lia.
    - apply St_value. destruct m; try contradiction; try reflexivity. cbn [sorted build fst say says] in *. unfold set_f64 in *.
      destruct (String.eqb_spec name "num"); [subst; reflexivity|]. destruct (name =? "grab_level")%string; [|reflexivity].
      simpl in W. rewrite W. reflexivity.
    - destruct W as (k & t & K & K1 & W). cbn [build fst snd]. rewrite (type_parsed _ _ _ W). eapply St_type; eauto.
    - destruct W as (k & t & K & K1 & W). cbn [build fst snd]. rewrite K, (type_parsed _ _ _ W). eapply St_sig; eauto. }
  split; [exact T|]. induction b as [|t b IH]; intros d L W; [constructor|]. inversion_clear W as [|? ? X Y]. cbn [builds fst snd].
  change (weights (t :: b)) with (weight t + weights b) in L.
  eapply As_cons; [apply T; [lia|exact X]|]. apply IH; [lia|exact Y].
Qed.
Lemma build_stands : forall t d, sorted t -> stands P t d (fst (build t d)) (snd (build t d)).
Proof. intros t d. apply (build_stands_all (S (weight t))). lia. Qed.
End Build.
