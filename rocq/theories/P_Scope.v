(** * C54, C55: what variables and calls of a file are linked to, and what the checks of the linking passes accept. *)
From Coq Require Import String List Bool Arith ZArith Lia Sorting.Sorted.
From Verif Require Import Syntax Float64 TypeModel LifetimeModel PrintModel NodesModel NodesSpec NodesProofs NodesLayout NodesScope NodesCalls NodesFits P_Nodes.
Import ListNotations.
Local Open Scope string_scope.
Local Open Scope nat_scope.
Local Open Scope list_scope.

(** ** Names *)

(** [mut] of arguments becomes a part of the names of functions and calls, words a part of the name of the closure that is
    called, and nothing else changes. *)
Theorem C54_names : forall g, tree_ok g -> names_fit g -> exists g', name_all g = NOk g' /\ length g' = length g /\
  forall i n, nth_error g i = Some n -> nth_error g' i = Some (rename (new_names g i n) n).
Proof. exact name_all_spec. Qed.
Print Assumptions C54_names.

(** ** Variables *)

(** A variable has at most one meaning, and not one when there is an error for it. *)
Theorem C54_one_meaning : forall g i x, tree_ok g ->
  (forall d d', refers g i x d -> refers g i x d' -> d = d') /\ (forall d e, refers g i x d -> lacks g i x e -> False).
Proof. intros g i x T. split; [intros d d'; apply refers_fun; auto|intros d e; apply refers_lacks; auto]. Qed.
Print Assumptions C54_one_meaning.

(** a file as the grammar allows it *)
Record good_file (P : type_parser) (sort : fgraph -> fgraph) (F : list stx) (ts : list ntree) : Prop := {
  go_stands : file_stands P F ts;
  go_operators : forall t, In t ts -> operators_fit true t;
  go_fits : file_fits ts;
  go_sort : forall g1 g2, nest (lays 0 None ts) = NOk g1 -> sugar g1 = NOk g2 -> exists p, sorted_by p g2 (sort g2) }.
(** [g] is the graph of the file, with names as they are looked up *)
Definition graph_of (sort : fgraph -> fgraph) (ts : list ntree) (g : fgraph) : Prop :=
  exists g1 g2, nest (lays 0 None ts) = NOk g1 /\ sugar g1 = NOk g2 /\ name_all (sort g2) = NOk g.

Lemma same_graph : forall (g h k : fgraph) (f : nat -> fnode -> fnode), length g = length k -> length h = length k ->
  (forall i n, nth_error k i = Some n -> nth_error g i = Some (f i n)) -> (forall i n, nth_error k i = Some n -> nth_error h i = Some (f i n)) -> g = h.
Proof.
  intros g h k f A B C D. apply nth_ext'; [congruence|]. intros i. destruct (nth_error k i) as [n|] eqn:E.
  - rewrite (C _ _ E), (D _ _ E). reflexivity.
  - apply nth_error_None in E. rewrite !(proj2 (nth_error_None _ _)) by lia. reflexivity.
Qed.
Lemma rename_tree : forall g0 g, tree_ok g0 -> length g = length g0 ->
  (forall i n, nth_error g0 i = Some n -> nth_error g i = Some (rename (new_names g0 i n) n)) -> tree_ok g.
Proof. intros g0 g T L H. exact (named_tree g0 g L H T). Qed.

(** The graph exists, and it is the forest of the text without operators. *)
Theorem C55_graph : forall P sort F ts, good_file P sort F ts -> exists g0 g p, graph_of sort ts g /\
  tree_ok g0 /\ in_order g0 /\ Forall2 (reads g0) (map p (places 0 ts)) (map without_operators ts) /\
  length g = length g0 /\ forall i n, nth_error g0 i = Some n -> nth_error g i = Some (rename (new_names g0 i n) n).
Proof.
  intros P sort F ts [A B C D]. destruct (C53_operators P F ts A B) as (g1 & g2 & R1 & R2 & T & _ & E & _).
  destruct (D g1 g2 R1 R2) as [p S]. destruct (C53_sorted p g2 (sort g2) S T) as (T' & O & RD).
  destruct (graph_fits ts g1 g2 p (sort g2) B C R1 R2 T S E) as (_ & FN & _ & _).
  destruct (name_all_spec (sort g2) T' FN) as (g & R & L & H). exists (sort g2), g, p. split; [exists g1, g2; auto|]. auto 10.
Qed.
Print Assumptions C55_graph.

(** ** All checks together *)

(** A file is accepted and everything in it is right and linked to the right places, or it is rejected with an error and
    the place of something wrong. There is no panic. (The third case is not specified: the code searches the declared
    variables by bisection, but they are not sorted.) *)
Theorem C55_checked : forall P sort F ts g K, good_file P sort F ts -> graph_of sort ts g ->
  let result := front P sort K (flat_map tokens F) in
  (exists g', result = NOk g' /\ locals_in_order g /\ right_file K g g') \/
  (exists e i, result = NErr e i /\ locals_in_order g /\ wrong K g e i) \/
  (result = NErr N_unsorted 0 /\ ~ locals_in_order g).
Proof.
  intros P sort F ts g K [A B C D] (g1 & g2 & R1 & R2 & R3).
  destruct (C53_operators P F ts A B) as (h1 & h2 & Q1 & Q2 & T & _ & E & _). rewrite R1 in Q1. injection Q1 as <-. rewrite R2 in Q2. injection Q2 as <-.
  destruct (D g1 g2 R1 R2) as [p S]. destruct (graph_fits ts g1 g2 p (sort g2) B C R1 R2 T S E) as (FS & FN & FC & U).
  destruct (linked_spec K (sort g2) FS FN FC U) as (h & L & H & X).
  destruct (name_all_spec (sort g2) (sf_tree _ FS) FN) as (g' & R & L' & H'). rewrite R3 in R. injection R as <-.
  assert (h = g) as -> by (apply (same_graph h g (sort g2) (fun i n => rename (new_names (sort g2) i n) n)); auto).
  unfold front. rewrite (C53_conversion P F ts A). cbn [nbind]. rewrite R1. cbn [nbind]. rewrite R2. cbn [nbind]. exact X.
Qed.
Print Assumptions C55_checked.

Lemma graph_tree : forall P sort F ts g, good_file P sort F ts -> graph_of sort ts g -> tree_ok g.
Proof.
  intros P sort F ts g G (g1 & g2 & R1 & R2 & R3). destruct (C55_graph P sort F ts G) as (g0 & h & p & (h1 & h2 & Q1 & Q2 & Q3) & T & _ & _ & L & H).
  assert (h = g) as -> by congruence. eapply rename_tree; eauto.
Qed.
(** Nothing wrong is accepted, and nothing right is rejected. *)
Theorem C55_exact : forall P sort F ts g K, good_file P sort F ts -> graph_of sort ts g -> locals_in_order g ->
  ((exists g', front P sort K (flat_map tokens F) = NOk g') <-> forall e i, ~ wrong K g e i).
Proof.
  intros P sort F ts g K G GO O. pose proof (C55_checked P sort F ts g K G GO) as X. pose proof (graph_tree _ _ _ _ _ G GO) as T. cbv zeta in X. split.
  - intros [g' R] e i W. destruct X as [(g1 & R1 & _ & RF)|[(e' & i' & R1 & _)|(R1 & _)]]; try congruence. eapply not_both; eauto.
  - intros N. destruct X as [(g1 & R1 & _)|[(e' & i' & _ & _ & W)|(_ & NO)]]; eauto; [destruct (N _ _ W)|contradiction].
Qed.
Print Assumptions C55_exact.

(** Every variable of an accepted file is linked to its nearest declaration, and there is no other meaning of it. *)
Theorem C54_variables : forall P sort F ts g K g', good_file P sort F ts -> graph_of sort ts g -> front P sort K (flat_map tokens F) = NOk g' ->
  forall i x, variable g i x -> exists n d, nth_error g' i = Some n /\ f_decl n = Some d /\ refers g i x d /\ forall d', refers g i x d' -> d' = d.
Proof.
  intros P sort F ts g K g' G GO R i x V. destruct (C55_checked P sort F ts g K G GO) as [(g1 & R1 & _ & RF)|[(e' & i' & R1 & _)|(R1 & _)]]; try congruence.
  assert (g1 = g') as -> by congruence. destruct (ri_variables _ _ _ RF i x V) as (n & d & A & B & C). exists n, d. do 3 (split; auto).
  intros d' D. eapply refers_fun; eauto. eapply graph_tree; eauto.
Qed.
Print Assumptions C54_variables.

(** A file that is rejected for a variable has a variable without a meaning at that place. *)
Theorem C54_undeclared : forall P sort F ts g K e i, good_file P sort F ts -> graph_of sort ts g -> front P sort K (flat_map tokens F) = NErr e i ->
  In e [N_declaration; N_grab_variable; N_grab_argument] -> exists x, variable g i x /\ lacks g i x e /\ forall d, ~ refers g i x d.
Proof.
  intros P sort F ts g K e i G GO R I. destruct (C55_checked P sort F ts g K G GO) as [(g1 & R1 & _ & RF)|[(e' & i' & R1 & _ & W)|(R1 & _)]]; try congruence.
  - assert (e' = e) as -> by congruence. assert (i' = i) as -> by congruence.
    destruct W; try (exfalso; simpl in I; intuition discriminate). exists x. do 2 (split; auto). intros d D. eapply refers_lacks; eauto. eapply graph_tree; eauto.
  - rewrite R in R1. injection R1 as -> ->. exfalso. simpl in I. intuition discriminate.
Qed.
Print Assumptions C54_undeclared.

(** In an accepted file a call without alias is linked to the only function of that name in the file, or else to a function
    from outside; in both cases the call gives as many values as the function has arguments. *)
Theorem C55_calls : forall P sort F ts g K g', good_file P sort F ts -> graph_of sort ts g -> front P sort K (flat_map tokens F) = NOk g' ->
  forall c n x, nth_error g c = Some n -> f_kind n = K_Call -> f_name n = Some x -> x_alias (f_data n) = None ->
  exists n', nth_error g' c = Some n' /\
    ((exists f fn, f_decl n' = Some f /\ nth_error g f = Some fn /\ function g f x /\ (forall f', function g f' x -> f' = f) /\ values g n = length (parts g K_Arg fn)) \/
     (f_decl n' = None /\ (forall f, ~ function g f x) /\ o_fun K x = Some (f_lts n') /\ values g n = length (f_lts n'))).
Proof.
  intros P sort F ts g K g' G GO R c n x E KC NX AL. destruct (C55_checked P sort F ts g K G GO) as [(g1 & R1 & _ & RF)|[(e' & i' & R1 & _)|(R1 & _)]]; try congruence.
  assert (g1 = g') as -> by congruence. destruct (ri_calls _ _ _ RF c n E KC) as (n' & E' & CA). exists n'. split; auto.
  inversion CA; subst; try congruence.
  - left. assert (x0 = x) by congruence. subst. exists f, fn. do 3 (split; auto). split; auto. intros f' F'. eapply (ri_functions _ _ _ RF); eauto.
  - right. assert (x0 = x) by congruence. subst. auto.
Qed.
Print Assumptions C55_calls.

(** ** The file of C53 *)
Definition outside_ : outside := Outside (fun x => if (x =? "sub")%string then Some [LtDefault; LtDefault] else if (x =? "not")%string then Some [LtDefault] else None) (fun _ _ => None).
Example C55_example_file : good_file types_ sort_ file_ trees_.
Proof.
  split; [exact C53_example_file|exact C53_example_fits| |exact C53_example_sorted]. intros t [<-|[]]. split; reflexivity.
Qed.
(** what is linked: the kind and the name of each node with a link, and the place it is linked to *)
Definition links (g : fgraph) : list (nat * kind * option string * nat) :=
  flat_map (fun x => match f_decl (snd x) with Some d => [(fst x, f_kind (snd x), f_name (snd x), d)] | None => [] end) (combine (seq 0 (length g)) g).
Definition links_of (r : nres fgraph) : list (nat * kind * option string * nat) := match r with NOk g => links g | _ => [] end.
Example C55_example_accepted : exists g', front types_ sort_ outside_ (flat_map tokens file_) = NOk g' /\
  links g' = [(12, K_Item, Some "a", 1); (16, K_Item, Some "b", 2); (22, K_Item, Some "b", 2)].
Proof. eexists. split; vm_compute; reflexivity. Qed.

(** ** A file with a local variable, a closure, a loop without an end, and a call

    [fn f(a, b) -> { x := a  c := \(y) = grab x  for i { b[i] }  return g(mut x) }  fn g(mut z) -> { return z }] *)
Definition s_name (x : string) : stx := SValue (MString "name" x).
Definition s_expr (t : stx) : stx := SNode "expr" [t].
Definition s_let (x : string) (t : stx) : stx :=
  s_expr (SNode "assign" [SNode "left" [item_ x]; SValue (MBool ":=" true); SNode "right" [t]]).
Definition scoped_ : list stx :=
  [SNode "fn" [s_name "f"; SNode "arg" [s_name "a"]; SNode "arg" [s_name "b"]; SValue (MBool "returns" true);
     SNode "block" [
       s_let "x" (item_ "a");
       s_let "c" (SNode "closure" [SNode "arg" [s_name "y"]; s_expr (SNode "grab" [s_expr (item_ "x")])]);
       s_expr (SNode "for_n" [s_name "i"; SNode "block" [s_expr (SNode "item" [s_name "b"; SNode "id" [s_expr (item_ "i")]])]]);
       s_expr (SNode "return" [SNode "call" [s_name "g"; SNode "call_arg" [SValue (MBool "mut" true); item_ "x"]]])]];
   SNode "fn" [s_name "g"; SNode "arg" [SValue (MBool "mut" true); s_name "z"]; SValue (MBool "returns" true);
     SNode "block" [s_expr (SNode "return" [item_ "z"])]]].
Definition t_expr (t : ntree) : ntree := NT (blank K_Expr None) [t].
Definition t_let (x : string) (t : ntree) : ntree :=
  t_expr (NT (with_op OpAssign (blank K_Assign None)) [NT (blank K_Left None) [var_ x]; NT (blank K_Right None) [t]]).
Definition t_block (ts : list ntree) : ntree := NT (blank K_Block None) ts.
Definition t_fn (x : string) (ts : list ntree) : ntree := NT (with_ty TAny (named K_Fn x)) ts.
Definition t_arg (x : string) : ntree := NT (named K_Arg x) [].
Definition t_closure (xs : list string) (t : ntree) : ntree := NT (blank K_Closure None) (map t_arg xs ++ [t_expr t]).
Definition t_grab (l : Z) (x : string) : ntree := NT (with_grab l (blank K_Grab None)) [t_expr (var_ x)].
Definition t_call (x : string) (ts : list ntree) : ntree := NT (named K_Call x) (map argument ts).
Definition scoped_t : list ntree :=
  [t_fn "f" [t_arg "a"; t_arg "b"; t_block [
     t_let "x" (var_ "a"); t_let "c" (t_closure ["y"] (t_grab 0 "x"));
     t_expr (NT (with_ty TVoid (named K_ForN "i")) [t_block [t_expr (NT (named K_Item "b") [NT (blank K_Id None) [t_expr (var_ "i")]])]]);
     t_expr (NT (blank K_Return None) [NT (named K_Call "g") [NT (with_mut true (blank K_CallArg None)) [var_ "x"]]])]];
   t_fn "g" [NT (with_names ["z"] (with_mut true (blank K_Arg None))) []; t_block [t_expr (NT (blank K_Return None) [var_ "z"])]]].

Lemma sorted_already : forall g, in_order g -> sorted_by (fun i => i) g g.
Proof.
  intros g O. split; auto. intros i n E. rewrite E. f_equal. destruct n as [d p c e l]. simpl. rewrite map_id. destruct p; reflexivity.
Qed.
Example C54_example_file : good_file types_ (fun g => g) scoped_ scoped_t.
Proof.
  split.
  - assert (exists ts, file_stands types_ scoped_ ts /\ ts = scoped_t) as (ts & H & ->); [|exact H].
    eexists. split; [unfold scoped_, s_let, s_expr, s_name, item_; stand|reflexivity].
    Unshelve. all: exact (blank K_Fn None).
  - intros t H. destruct H as [<-|[<-|[]]]; cbn;
    repeat match goal with
           | |- _ /\ _ => split
           | |- True => exact I
           | |- (_ = K_Add \/ _ = K_Mul) -> _ => intros [?|?]; first [discriminate|reflexivity]
           | |- ?a <> None -> _ => intros A; exfalso; apply A; reflexivity
           | |- (_ \/ _) \/ _ => left; left; reflexivity
           end.
  - intros t [<-|[<-|[]]]; split; reflexivity.
  - intros g1 g2 A B. exists (fun i => i). apply sorted_already. vm_compute in A. injection A as <-. vm_compute in B. injection B as <-.
    apply all_in_order_ok. vm_compute. reflexivity.
Qed.
Example C54_example_links : exists g', front types_ (fun g => g) outside_ (flat_map tokens scoped_) = NOk g' /\
  links g' = [(9, K_Item, Some "a", 1); (20, K_Item, Some "x", 7); (25, K_Item, Some "b", 2); (28, K_Item, Some "i", 22);
              (31, K_Call, Some "g(mut)", 34); (33, K_Item, Some "x", 7); (39, K_Item, Some "z", 35)].
Proof. eexists. split; vm_compute; reflexivity. Qed.
(** The same things wrong: what the passes say, without operators and in the order of the text. *)
Definition verdict_ (ts : list ntree) : option (option nerr) :=
  match linked outside_ (lays 0 None ts) with NOk _ => Some None | NErr e _ => Some (Some e) | NPanic => None | NOof => None end.
Definition in_f (ts : list ntree) : list ntree := [t_fn "f" [t_arg "a"; t_arg "b"; t_block ts]].
Definition t_for (x : string) (ts : list ntree) : ntree := t_expr (NT (with_ty TVoid (named K_ForN x)) [t_block ts]).
Definition t_sig (args : list ty) (r : ty) : ntree :=
  NT (blank K_Ty None) (map (fun t => NT (with_ty t (blank K_TyArg None)) []) args ++ [NT (with_ty r (blank K_TyRet None)) []]).
Example C55_example_rejected :
  map verdict_ [
    in_f [t_expr (var_ "y")];
    in_f [t_expr (var_ "x"); t_let "x" (var_ "a")];
    in_f [t_let "x" (var_ "a"); t_let "c" (t_closure [] (var_ "x"))];
    in_f [t_let "c" (t_closure ["y"] (t_grab 0 "y"))];
    in_f [t_let "x" (var_ "a"); t_let "c" (t_closure [] (t_grab 2 "x"))];
    in_f [t_for "i" [t_expr (var_ "i")]];
    [t_fn "f" [t_arg "a"; t_arg "a"; t_block []]];
    [t_fn "f" [t_block []]; t_fn "f" [t_arg "a"; t_block []]];
    in_f [t_expr (t_call "f" [var_ "a"])];
    in_f [t_expr (t_call "sub" [var_ "a"])];
    in_f [t_expr (t_call "g" [var_ "a"])];
    [NT (with_ty TVoid (named K_Fn "f")) [t_sig [] TF64; t_block []]];
    [t_fn "f" [t_arg "a"; t_sig [] TF64; t_block []]];
    [t_fn "f" [NT (with_ty TF64 (named K_Arg "a")) []; t_sig [TStr] TF64; t_block []]]] =
  map (fun e => Some (Some e)) [N_declaration; N_declaration; N_declaration; N_grab_argument; N_grab_variable; N_range; N_dup_argument; N_dup_function;
    N_count; N_count; N_function; N_sig_void; N_sig_count; N_sig_type].
Proof. vm_compute. reflexivity. Qed.

(** ** What is not checked *)

(** The level of [grab] is not checked for parameters of the function and for variables of loops: a file with one closure
    in which [grab '5] is used is accepted. *)
Definition grabbing (t : ntree) : list ntree := in_f [t_for "i" [t_let "c" (t_closure [] t); t_expr (NT (named K_Item "b") [NT (blank K_Id None) [t_expr (var_ "i")]])]].
Theorem C54_grab_refuted : forall x, x = "a" \/ x = "i" -> file_fits (grabbing (t_grab 5 x)) /\
  exists g', linked outside_ (lays 0 None (grabbing (t_grab 5 x))) = NOk g' /\
    length (filter (fun n => is_kind (f_kind n) K_Closure) g') = 1 /\
    exists n, In n g' /\ f_kind n = K_Grab /\ x_grab (f_data n) = 5%Z.
Proof.
  intros x [-> | ->]; (split; [intros t [<-|[]]; split; reflexivity|]); eexists; (split; [vm_compute; reflexivity|split; [reflexivity|]]);
    (eexists; split; [apply (nth_error_In _ 14); reflexivity|split; reflexivity]).
Qed.
Print Assumptions C54_grab_refuted.

(** The checks panic for files that the grammar allows: [5 = 3] (nothing below the left side), and [\f(mut a)] (no name to
    mark). Such files are outside of [file_fits]. *)
Definition t_set (o : assign_op) (l r : list ntree) : ntree := t_expr (NT (with_op o (blank K_Assign None)) [NT (blank K_Left None) l; NT (blank K_Right None) r]).
Theorem C55_panic_refuted :
  linked outside_ (lays 0 None (in_f [t_set OpSet [] []])) = NPanic /\
  linked outside_ (lays 0 None (in_f [t_set OpAdd [] []])) = NPanic /\
  linked outside_ (lays 0 None (in_f [t_set OpAssign [] []; t_expr (var_ "a")])) = NPanic /\
  linked outside_ (lays 0 None (in_f [t_expr (NT (blank K_CallClosure None) [var_ "a"; NT (with_mut true (blank K_CallArg None)) [var_ "b"]])])) = NPanic.
Proof. vm_compute. repeat split; reflexivity. Qed.
Print Assumptions C55_panic_refuted.

(** A declaration does not need a variable on the left side: [f(a) := b] declares a variable [f]. *)
Theorem C54_call_declares_refuted : exists g', let ts := in_f [t_set OpAssign [t_call "f" [var_ "a"; var_ "a"]] [var_ "b"]; t_expr (var_ "f")] in
  file_fits ts /\ linked outside_ (lays 0 None ts) = NOk g' /\ exists i d n m, nth_error g' i = Some n /\ f_kind n = K_Item /\ f_name n = Some "f" /\
    f_decl n = Some d /\ nth_error g' d = Some m /\ f_kind m = K_Call.
Proof.
  eexists. split; [intros t [<-|[]]; split; reflexivity|]. split; [vm_compute; reflexivity|].
  exists 15, 7. eexists. eexists. do 5 (split; [reflexivity|]). reflexivity.
Qed.
Print Assumptions C54_call_declares_refuted.
