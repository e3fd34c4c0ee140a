(** * C53: the graph that the checkers work on is the syntax tree with its operators turned into calls *)
From Coq Require Import String List Bool Arith ZArith Lia Sorting.Sorted.
From Verif Require Import Syntax Float64 TypeModel LifetimeModel PrintModel NodesModel NodesSpec NodesProofs NodesLayout.
Import ListNotations.
Local Open Scope string_scope.
Local Open Scope nat_scope.
Local Open Scope list_scope.

(** ** Conversion *)

(** The tokens of a file give the nodes of the forest that the file stands for, each node before its children and all
    in the order of the text; there is no error and no panic. *)
Theorem C53_conversion : forall P F ts, file_stands P F ts -> convert P (flat_map tokens F) = NOk (lays 0 None ts).
Proof. exact convert_is_layout. Qed.
Print Assumptions C53_conversion.

(** Such a layout is a forest: parents and children agree, nodes come in order, and from the roots one reads the trees. *)
Theorem C53_layout : forall ts, tree_ok (lays 0 None ts) /\ in_order (lays 0 None ts) /\
  Forall2 (reads (lays 0 None ts)) (places 0 ts) ts.
Proof. intros ts. destruct (layout_ok ts) as [A B]. split; auto. split; auto. apply layout_roots. Qed.
Print Assumptions C53_layout.

(** ** Operators *)

(** one node: no operator left to be applied, and no sum, product or unary operator with one operand *)
Definition no_operator (n : fnode) : Prop :=
  (x_binops (f_data n) = [] \/ f_children n = []) /\
  (length (f_children n) = 1 -> ~ In (f_kind n) [K_Norm; K_Not; K_Neg; K_Add; K_Mul]).

Lemma roots_change : forall g2 rs ts g, Forall2 (reads g) rs ts -> (forall r t, In r rs -> reads g r t -> reads g2 r (without_operators t)) ->
  Forall2 (reads g2) rs (map without_operators ts).
Proof. intros g2 rs ts g F H. induction F; simpl; constructor; [apply H; auto; now left|]. apply IHF. intros. apply H; auto. now right. Qed.

(** The two passes over the operators do not fail, leave a forest without operators, and from the roots one reads the
    trees of the text with operators applied two at a time from the left, as calls. *)
Theorem C53_operators : forall P F ts, file_stands P F ts -> (forall t, In t ts -> operators_fit true t) ->
  exists g1 g2, nest (lays 0 None ts) = NOk g1 /\ sugar g1 = NOk g2 /\ tree_ok g2 /\
    (forall i n, nth_error g2 i = Some n -> no_operator n) /\
    Forall2 (reads g2) (places 0 ts) (map without_operators ts) /\
    (forall r, In r (places 0 ts) -> exists n, nth_error g2 r = Some n /\ f_parent n = None).
Proof.
  intros P F ts _ H. destruct (operators_good _ (layout_good ts H)) as (g1 & g2 & A & B & C & _ & _ & D & E).
  destruct (layout_roots ts) as [R1 R2]. exists g1, g2. split; auto. split; auto. split; auto. split; [|split].
  - intros i n N. destruct (D i n N) as [X Y]. split.
    + destruct X as [X|X]; [auto|right; now apply length_zero_iff_nil].
    + intros Z I. destruct (Y Z) as (Y1 & Y2 & Y3). unfold f_kind in I.
      destruct I as [I|[I|[I|[I|[I|[]]]]]]; rewrite <- I in *; try discriminate; congruence.
  - apply (roots_change g2 _ _ (lays 0 None ts)); auto. intros r t I X. destruct (R2 r I) as (n & N & Pn). now apply (E r n t).
  - intros r I. destruct (R2 r I) as (n & N & Pn). assert (exists t, reads (lays 0 None ts) r t) as [t T].
    { clear - R1 I. revert R1 I. generalize (lays 0 None ts) as gg. generalize (places 0 ts) as l. intros l gg R1 I. induction R1; [contradiction|]. destruct I as [<-|I]; eauto. }
    exact (proj2 (E r n t N Pn T)).
Qed.
Print Assumptions C53_operators.

(** ** Sorting in memory changes the places only *)
Theorem C53_sorted : forall p g g', sorted_by p g g' -> tree_ok g -> tree_ok g' /\ in_order g' /\
  forall rs ts, Forall2 (reads g) rs ts -> Forall2 (reads g') (map p rs) ts.
Proof.
  intros p g g' S T. split; [eapply sorted_tree; eauto|]. split; [exact (sb_order _ _ _ S)|]. intros rs ts F.
  induction F; simpl; constructor; auto. eapply sorted_reads; eauto.
Qed.
Print Assumptions C53_sorted.

(** All together: what [front] hands to the linking of variables and calls. *)
Theorem C53_graph : forall P F ts sort, file_stands P F ts -> (forall t, In t ts -> operators_fit true t) ->
  (forall g1 g2, nest (lays 0 None ts) = NOk g1 -> sugar g1 = NOk g2 -> exists p, sorted_by p g2 (sort g2)) ->
  exists p g, tree_ok g /\ in_order g /\ Forall2 (reads g) (map p (places 0 ts)) (map without_operators ts) /\
    forall K, front P sort K (flat_map tokens F) = linked K g.
Proof.
  intros P F ts sort H1 H2 H3. destruct (C53_operators P F ts H1 H2) as (g1 & g2 & A & B & C & _ & D & _).
  destruct (H3 g1 g2 A B) as [p S]. destruct (C53_sorted p g2 (sort g2) S C) as (X & Y & Z). exists p, (sort g2). split; auto. split; auto. split; auto.
  intros K. unfold front. rewrite (C53_conversion P F ts H1). cbn [nbind]. rewrite A. cbn [nbind]. rewrite B. reflexivity.
Qed.
Print Assumptions C53_graph.

(** ** A file *)

(** [fn f(a: f64, b) -> { return a - b - !b }] with the nodes of the grammar in assets/syntax.txt *)
Definition item_ (x : string) : stx := SNode "item" [SValue (MString "name" x)].
Definition term_ (t : stx) : stx := SNode "expr" [SNode "mul" [SNode "expr" [t]]].
Definition file_ : list stx :=
  [SNode "fn" [SValue (MString "name" "f");
               SNode "arg" [SValue (MString "name" "a"); SType "type" [MBool "f64" true]];
               SNode "arg" [SValue (MString "name" "b")];
               SValue (MBool "returns" true);
               SNode "block" [SNode "expr" [SNode "return" [SNode "add" [
                 term_ (item_ "a"); SValue (MBool "-" true);
                 term_ (item_ "b"); SValue (MBool "-" true);
                 term_ (SNode "not" [SNode "expr" [item_ "b"]])]]]]]].
Definition types_ : type_parser := fun name ms =>
  match ms with MStart _ :: MBool "f64" _ :: MEnd _ :: _ => Some (3, TF64) | _ => None end.
Definition named (k : kind) (x : string) : data := with_names [x] (blank k None).
Definition var_ (x : string) : ntree := NT (named K_Item x) [].
Definition term_t (t : ntree) : ntree := NT (blank K_Expr None) [NT (blank K_Mul None) [NT (blank K_Expr None) [t]]].
Definition trees_ : list ntree :=
  [NT (with_ty TAny (named K_Fn "f"))
     [NT (with_ty TF64 (named K_Arg "a")) []; NT (named K_Arg "b") [];
      NT (blank K_Block None) [NT (blank K_Expr None) [NT (blank K_Return None) [
        NT (with_binops [PrintModel.Sub; PrintModel.Sub] (blank K_Add None))
          [term_t (var_ "a"); term_t (var_ "b"); term_t (NT (blank K_Not None) [NT (blank K_Expr None) [var_ "b"]])]]]]]].

Ltac stand := repeat first
  [ apply Fs_nil | eapply Fs_cons
  | eapply St_node; [reflexivity|reflexivity|reflexivity|] | eapply St_type; [reflexivity|reflexivity|intros ?; reflexivity]
  | apply St_value; reflexivity | apply As_nil
  | match goal with |- all_stand _ _ _ _ _ => eapply As_cons end ].
Example C53_example_file : file_stands types_ file_ trees_.
Proof.
  assert (exists ts, file_stands types_ file_ ts /\ ts = trees_) as (ts & H & ->); [|exact H].
  eexists. split; [unfold file_, term_, item_; stand|]; reflexivity.
  Unshelve. exact (blank K_Fn None).
Qed.
Example C53_example_fits : forall t, In t trees_ -> operators_fit true t.
Proof.
  intros t [<-|[]]. cbn.
  repeat match goal with
         | |- _ /\ _ => split
         | |- True => exact I
         | |- (_ = K_Add \/ _ = K_Mul) -> _ => intros [?|?]; first [discriminate|reflexivity]
         | |- ?a <> None -> _ => intros A; first [exfalso; apply A; reflexivity | clear A; split; [reflexivity|intros ? [<-|[]]; split; reflexivity]]
         | |- (_ \/ _) \/ _ => first [left; left; reflexivity | right; split; reflexivity]
         end.
Qed.
(** what becomes of it: [sub(sub(a, b), not(b))] *)
Definition expr_t (t : ntree) : ntree := NT (blank K_Expr None) [NT (blank K_Expr None) [t]].
Example C53_example_operators : map without_operators trees_ =
  [NT (with_ty TAny (named K_Fn "f"))
     [NT (with_ty TF64 (named K_Arg "a")) []; NT (named K_Arg "b") [];
      NT (blank K_Block None) [NT (blank K_Expr None) [NT (blank K_Return None) [
        NT (named K_Call "sub")
          [argument (NT (named K_Call "sub") [argument (expr_t (var_ "a")); argument (expr_t (var_ "b"))]);
           argument (expr_t (NT (named K_Call "not") [NT (blank K_CallArg None) [var_ "b"]]))]]]]]].
Proof. reflexivity. Qed.

(** The order in which the crate may store the nodes, and the graph after sorting. *)
Definition order_ : list nat := [0; 1; 2; 3; 4; 5; 21; 24; 6; 22; 7; 9; 10; 23; 11; 13; 14; 25; 15; 17; 18; 19; 20; 8; 12; 16].
Fixpoint index_of (x : nat) (l : list nat) : nat := match l with [] => 0 | y :: l => if y =? x then 0 else S (index_of x l) end.
Definition place_ (i : nat) : nat := index_of i order_.
Definition sort_ (g : fgraph) : fgraph :=
  flat_map (fun i => match nth_error g i with
                     | Some n => [FNode (f_data n) (option_map place_ (f_parent n)) (map place_ (f_children n)) (f_decl n) (f_lts n)]
                     | None => []
                     end) order_.
Lemma below : forall (Q : nat -> Prop) n, (forall i, In i (seq 0 n) -> Q i) -> forall i, i < n -> Q i.
Proof. intros Q n H i L. apply H. apply in_seq. lia. Qed.
Definition all_in_order (g : fgraph) : bool :=
  forallb (fun x => match f_parent (snd x) with Some p => p <? fst x | None => true end &&
                    (fix up (l : list nat) : bool := match l with a :: ((b :: _) as l') => (a <? b) && up l' | _ => true end) (f_children (snd x)))
          (combine (seq 0 (length g)) g).
Lemma all_in_order_ok : forall g, all_in_order g = true -> in_order g.
Proof.
  intros g H. unfold all_in_order in H. rewrite forallb_forall in H.
  assert (forall i n, nth_error g i = Some n -> In (i, n) (combine (seq 0 (length g)) g)) as C.
  { intros i n E. assert (forall k, In (k + i, n) (combine (seq k (length g)) g)) as X.
    { clear H. revert i E. induction g as [|a g IH]; intros [|i] E k; try discriminate; simpl in *.
      - injection E as ->. left. f_equal. lia.
      - right. replace (k + S i) with (S k + i) by lia. auto. }
    exact (X 0). }
  split.
  - intros i n p E P. apply C in E. apply H in E. simpl in E. rewrite P in E. apply andb_prop in E as [E _]. now apply Nat.ltb_lt.
  - intros i n E. apply C in E. apply H in E. simpl in E. apply andb_prop in E as [_ E]. apply Sorted_StronglySorted; [intros x y z; apply Nat.lt_trans|].
    induction (f_children n) as [|a l IH]; [constructor|]. constructor.
    + apply IH. destruct l; auto. now apply andb_prop in E as [_ E].
    + destruct l; constructor. apply andb_prop in E as [E _]. now apply Nat.ltb_lt.
Qed.
Example C53_example_sorted : forall g1 g2, nest (lays 0 None trees_) = NOk g1 -> sugar g1 = NOk g2 -> exists p, sorted_by p g2 (sort_ g2).
Proof.
  intros g1 g2 A B. vm_compute in A. injection A as <-. vm_compute in B. injection B as <-. exists place_. split.
  - vm_compute. reflexivity.
  - intros i j I J E. revert i I j J E. apply (below (fun i => forall j, j < 26 -> place_ i = place_ j -> i = j)).
    intros i I. apply (below (fun j => place_ i = place_ j -> i = j)). intros j J E. revert i j I J E.
    assert (forallb (fun i => forallb (fun j => negb (place_ i =? place_ j) || (i =? j)) (seq 0 26)) (seq 0 26) = true) as C by (vm_compute; reflexivity).
    intros i j I J E. rewrite forallb_forall in C. specialize (C i I). rewrite forallb_forall in C. specialize (C j J).
    rewrite E, Nat.eqb_refl in C. now apply Nat.eqb_eq.
  - intros i n E. pose proof (nth_lt _ _ _ E) as L. simpl in L.
    do 26 (destruct i as [|i]; [simpl in E; injection E as <-; vm_compute; reflexivity|]). lia.
  - apply all_in_order_ok. vm_compute. reflexivity.
Qed.
