(** * C56, C57: the lifetime and mutability checks of a linked file. *)
From Coq Require Import String List Bool Arith ZArith Lia Sorting.Sorted.
From Verif Require Import Syntax Float64 TypeModel LifetimeModel LifetimeSpec PrintModel NodesModel NodesSpec NodesProofs NodesLayout NodesScope NodesCalls NodesClean NodesFits
  P_Nodes P_Scope LivesModel LivesSpec LivesProofs LivesFits.
Import ListNotations.
Local Open Scope string_scope.
Local Open Scope nat_scope.
Local Open Scope list_scope.

(** ** The checks of a graph *)

(** The verdict is right: what is accepted has nothing unsafe, an error names something unsafe and its place, and a panic
    needs a value that reads [return] or a closure with parameters (and something is unsafe then). *)
Theorem C56_verdict : forall g fuel, lives_fit g -> length g < fuel ->
  match check_lives fuel g with
  | XOk _ => forall e i, ~ unsafe g e i
  | XErr e i => unsafe g e i
  | XPanic => untold g /\ exists e i, unsafe g e i
  | XOof => True
  end.
Proof. intros g fuel FIT L. pose proof (lives_spec g FIT fuel L) as S. destruct (check_lives fuel g); exact S. Qed.
Print Assumptions C56_verdict.

(** Nothing unsafe is accepted and nothing safe is rejected. *)
Theorem C56_exact : forall g fuel, lives_fit g -> length g < fuel -> check_lives fuel g <> XOof ->
  (check_lives fuel g = XOk tt <-> forall e i, ~ unsafe g e i).
Proof.
  intros g fuel FIT L NO. pose proof (C56_verdict g fuel FIT L) as V. destruct (check_lives fuel g) as [[]|e i| |] eqn:E.
  - split; auto.
  - split; [discriminate|]. intros N. destruct (N _ _ V).
  - split; [discriminate|]. intros N. destruct V as (_ & e & i & V). destruct (N _ _ V).
  - contradiction.
Qed.
Print Assumptions C56_exact.

(** The checks come to an end when the lifetimes of arguments and the constraints of functions from outside do. *)
Theorem C56_ends : forall g, lives_fit g -> all_end g -> exists F, forall fuel, F <= fuel -> check_lives fuel g <> XOof.
Proof. exact lives_end. Qed.
Print Assumptions C56_ends.

(** All of it: there is a verdict, and it is right. *)
Theorem C56_decides : forall g, lives_fit g -> all_end g -> ~ untold g -> exists F, forall fuel, F <= fuel ->
  (check_lives fuel g = XOk tt /\ forall e i, ~ unsafe g e i) \/ (exists e i, check_lives fuel g = XErr e i /\ unsafe g e i).
Proof.
  intros g FIT EN T. destruct (C56_ends g FIT EN) as [F H]. exists (F + S (length g)). intros fuel L. specialize (H fuel ltac:(lia)). pose proof (C56_verdict g fuel FIT ltac:(lia)) as V.
  destruct (check_lives fuel g) as [[]|e i| |]; [left; auto|right; eauto|destruct V; contradiction|contradiction].
Qed.
Print Assumptions C56_decides.

(** ** What is known of an accepted file *)

(** A value that can refer to one variable only outlives the place it is put into. *)
Theorem C56_outlives : forall g fuel r L o a l, lives_fit g -> length g < fuel -> check_lives fuel g = XOk tt ->
  place g r L -> refers_to g r o -> (forall o', refers_to g r o' -> o' = o) -> span g o a -> L l -> outlives a l.
Proof.
  intros g fuel r L o a l FIT LT A PL RO ONE SA LL. pose proof (C56_verdict g fuel FIT LT) as V. rewrite A in V.
  assert (forall x, spans g r x -> x = a) as SINGLE. { intros x (o' & R' & S'). rewrite (ONE _ R') in S'. exact (span_one g FIT _ _ _ S' SA). }
  assert (~ ~ long_enough L (spans g r)) as NN. { intros N. exact (V _ _ (Us_value g (CShort 0) r L PL N)). }
  assert (partial_cmp a l = Some Gt \/ partial_cmp a l <> Some Gt) as [D|D] by (destruct (partial_cmp a l) as [[]|]; auto; right; discriminate); auto.
  exfalso. apply NN. intros (_ & _ & [H|[H|(x & Rx & H)]]); [exact (H _ LL)|apply (H a); exists o; auto|]. rewrite (SINGLE _ Rx) in H. apply D. exact (H _ LL).
Qed.
Print Assumptions C56_outlives.
(** So a returned value that can refer to one variable only refers to an argument whose lifetime leads to ['return], ... *)
Theorem C56_return : forall g fuel i n r d, lives_fit g -> all_end g -> length g < fuel -> check_lives fuel g = XOk tt ->
  nth_error g i = Some n -> f_kind n = K_Return -> nth_error (f_children n) 0 = Some r -> refers_to g r (OVar d) -> (forall o, refers_to g r o -> o = OVar d) ->
  exists dn l, nth_error g d = Some dn /\ f_kind dn = K_Arg /\ leads g d true l.
Proof.
  intros g fuel i n r d FIT [EA _] LT A E K C RO ONE.
  assert (exists a, span g (OVar d) a) as [a S].
  { assert (exists dn, nth_error g d = Some dn) as [dn ED].
    { assert (forall j o, refers_to g j o -> forall d, o = OVar d -> exists dn, nth_error g d = Some dn) as X.
      { intros j o R. induction R as [j jn d' EJ KJ DJ|j jn EJ KJ DJ NJ|j jn c o EJ KJ NR NC KE R IH]; intros d0 Q; try discriminate; auto. injection Q as <-. pose proof (lf_item _ FIT j jn EJ KJ) as X. rewrite DJ in X. destruct X as (dn & ED & _). eauto. }
      eapply X; eauto. }
    destruct (kind_eq_dec (f_kind dn) K_Arg) as [KA|KA]; [destruct (EA _ _ ED KA) as (b & l & LE); eexists; eapply Sp_arg; eauto|].
    destruct (kind_eq_dec (f_kind dn) K_Current) as [KC|KC]; eexists; [eapply Sp_current|eapply Sp_local]; eauto. }
  pose proof (C56_outlives g fuel r _ _ a (Return []) FIT LT A (Pl_return g i n r E K C) RO ONE S eq_refl) as O.
  unfold outlives in O. inversion S as [d' dn b l ED KD LE E1 E2|d' dn ED KD E1 E2|d' dn ED KD KD' E1 E2|]; subst; cbn in O; try discriminate.
  destruct b; [eauto 10|discriminate].
Qed.
Print Assumptions C56_return.
(** ... and what is assigned with [=] outlives the variable it is assigned to. *)
Theorem C56_assign : forall g fuel a n i it r e d le ld, lives_fit g -> length g < fuel -> check_lives fuel g = XOk tt ->
  nth_error g a = Some n -> assigns g n OpSet i r -> nth_error g i = Some it -> f_kind it = K_Item -> f_decl it = Some e -> span g (OVar e) le ->
  refers_to g r (OVar d) -> (forall o, refers_to g r o -> o = OVar d) -> span g (OVar d) ld -> outlives ld le.
Proof.
  intros g fuel a n i it r e d le ld FIT LT A E AS EI KI DI SE RO ONE SD. apply (C56_outlives g fuel r (spans g i) (OVar d) ld le); auto; [exact (Pl_set g a n i r E AS)|]. exists (OVar e). split; auto. exact (Rf_item g i it e EI KI DI).
Qed.
Print Assumptions C56_assign.

(** ** C57: immutable arguments *)

(** In an accepted file no argument and no current object is changed without [mut]: it is not on the left side of [=], [+=]
    and so on, and it is not given to a function as [mut]. Every error about it is right. Missing in the whole: [a.x := b] also changes [a], and it is
    not checked; [C57_insert_refuted]. *)
Theorem C57_immutable_partial : forall g fuel i, lives_fit g -> length g < fuel -> check_lives fuel g = XOk tt -> changed g i -> ~ immutable g i.
Proof. intros g fuel i FIT L A C I. pose proof (C56_verdict g fuel FIT L) as V. rewrite A in V. exact (V _ _ (Us_mut g i C I)). Qed.
Print Assumptions C57_immutable_partial.
Theorem C57_error : forall g fuel i, lives_fit g -> length g < fuel -> check_lives fuel g = XErr X_mut i -> changed g i /\ immutable g i.
Proof. intros g fuel i FIT L A. pose proof (C56_verdict g fuel FIT L) as V. rewrite A in V. inversion V; subst; auto. Qed.
Print Assumptions C57_error.

(** ** From the text *)

(** What the conversion and the linking passes give for a file is ready for these checks. *)
Theorem C56_linked : forall P sort F ts g K g', good_file P sort F ts -> lively_file ts -> good_outside K -> graph_of sort ts g ->
  front P sort K (flat_map tokens F) = NOk g' -> lives_fit g'.
Proof.
  intros P sort F ts g K g' GF LF GO GR R. pose proof (C55_checked P sort F ts g K GF GR) as X. cbv zeta in X. destruct X as [(g1 & R1 & _ & RF)|[(e & i & R1 & _)|(R1 & _)]]; try congruence.
  assert (g1 = g') as -> by congruence. clear R1. destruct GF as [A B C D]. destruct GR as (h1 & h2 & R1 & R2 & R3).
  destruct (C53_operators P F ts A B) as (g1 & g2 & Q1 & Q2 & T & _ & E & _). rewrite R1 in Q1. injection Q1 as <-. rewrite R2 in Q2. injection Q2 as <-.
  destruct (D h1 h2 R1 R2) as [p S]. destruct (graph_fits ts h1 h2 p (sort h2) B C R1 R2 T S E) as (FS & FN & FC & U).
  destruct (graph_roots ts h1 h2 p (sort h2) B C R1 R2 T S E) as (Fg & Hp & _).
  destruct (name_all_spec (sort h2) (sf_tree _ FS) FN) as (g3 & R4 & L & H). assert (g3 = g) as -> by congruence.
  eapply (linked_fits K (sort h2) g g' (map p (places 0 ts)) (map without_operators ts)); eauto.
  - apply (sf_tree _ FS).
  - apply (sf_order _ FS).
  - intros t I. apply in_map_iff in I. destruct I as (t0 & <- & I). exact (LF t0 I).
Qed.
Print Assumptions C56_linked.
(** A file that passes all checks is safe, and one that is rejected by them is wrong. *)
Theorem C56_file : forall P sort F ts g K g' fuel, good_file P sort F ts -> lively_file ts -> good_outside K -> graph_of sort ts g ->
  front P sort K (flat_map tokens F) = NOk g' -> length g' < fuel -> check_lives fuel g' <> XOof -> ~ untold g' ->
  (check_lives fuel g' = XOk tt /\ forall e i, ~ unsafe g' e i) \/ (exists e i, check_lives fuel g' = XErr e i /\ unsafe g' e i).
Proof.
  intros P sort F ts g K g' fuel GF LF GO GR R L NO NU. pose proof (C56_verdict g' fuel (C56_linked _ _ _ _ _ _ _ GF LF GO GR R) L) as V.
  destruct (check_lives fuel g') as [[]|e i| |]; [left; auto|right; eauto|destruct V; contradiction|contradiction].
Qed.
Print Assumptions C56_file.

(** ** A file

    [fn f(mut a, b: 'a, c: 'return) -> { x := b  a = b  k(mut a, b)  return c }  fn k(mut s, r: 's) { s = r }] *)
Definition sl_arg (mut : bool) (x : string) (l : option string) : stx :=
  SNode "arg" ((if mut then [SValue (MBool "mut" true)] else []) ++ s_name x :: match l with Some y => [SValue (MString "lifetime" y)] | None => [] end).
Definition sl_set (x y : string) : stx := s_expr (SNode "assign" [SNode "left" [item_ x]; SValue (MBool "=" true); SNode "right" [item_ y]]).
Definition living_ : list stx :=
  [SNode "fn" [s_name "f"; sl_arg true "a" None; sl_arg false "b" (Some "a"); sl_arg false "c" (Some "return"); SValue (MBool "returns" true);
     SNode "block" [
       s_let "x" (item_ "b");
       sl_set "a" "b";
       s_expr (SNode "call" [s_name "k"; SNode "call_arg" [SValue (MBool "mut" true); item_ "a"]; SNode "call_arg" [item_ "b"]]);
       s_expr (SNode "return" [item_ "c"])]];
   SNode "fn" [s_name "k"; sl_arg true "s" None; sl_arg false "r" (Some "s"); SValue (MBool "returns" false); SNode "block" [sl_set "s" "r"]]].
Definition l_arg (mut : bool) (x : string) (l : option string) : ntree :=
  let d := with_names [x] (if mut then with_mut true (blank K_Arg None) else blank K_Arg None) in NT (match l with Some y => with_lifetime y d | None => d end) [].
Definition l_set (x y : ntree) : ntree := t_set OpSet [x] [y].
Definition l_put (x y : ntree) : ntree := t_set OpAssign [x] [y].
Definition l_return (t : ntree) : ntree := t_expr (NT (blank K_Return None) [t]).
Definition l_mut (t : ntree) : ntree := NT (with_mut true (blank K_CallArg None)) [t].
Definition l_call (x : string) (ts : list ntree) : ntree := NT (named K_Call x) ts.
Definition l_fn (x : string) (args body : list ntree) : ntree := t_fn x (args ++ [t_block body]).
Definition k_ : ntree := NT (with_ty TVoid (named K_Fn "k")) [l_arg true "s" None; l_arg false "r" (Some "s"); t_block [l_set (var_ "s") (var_ "r")]].
Definition living_t : list ntree :=
  [l_fn "f" [l_arg true "a" None; l_arg false "b" (Some "a"); l_arg false "c" (Some "return")]
     [t_let "x" (var_ "b"); l_set (var_ "a") (var_ "b"); t_expr (l_call "k" [l_mut (var_ "a"); argument (var_ "b")]); l_return (var_ "c")]; k_].
Example C56_example_file : good_file types_ (fun g => g) living_ living_t /\ lively_file living_t /\ good_outside outside_.
Proof.
  split; [split|split].
  - assert (exists ts, file_stands types_ living_ ts /\ ts = living_t) as (ts & H & ->); [|exact H].
    eexists. split; [unfold living_, s_let, sl_set, sl_arg, s_expr, s_name, item_; cbn [app]; stand|reflexivity].
    Unshelve. all: exact (blank K_Fn None).
  - intros t H. destruct H as [<-|[<-|[]]]; cbn;
    repeat match goal with
           | |- _ /\ _ => split
           | |- True => exact I
           | |- (_ = K_Add \/ _ = K_Mul) -> _ => intros [?|?]; first [discriminate|reflexivity]
           | |- ?a <> None -> _ => intros A; exfalso; apply A; reflexivity
           | |- (_ \/ _) \/ _ => left; left; reflexivity
           end.
  - intros t [<-|[<-|[]]]; split; reflexivity.
  - intros g1 g2 A B. exists (fun i => i). apply sorted_already. vm_compute in A. injection A as <-. vm_compute in B. injection B as <-.
    apply all_in_order_ok. vm_compute. reflexivity.
  - intros t [<-|[<-|[]]]; split; reflexivity.
  - intros x l k k'. cbn. destruct (x =? "sub")%string; [intros E; injection E as <-; destruct k as [|[|[|k]]]; discriminate|].
    destruct (x =? "not")%string; [intros E; injection E as <-; destruct k as [|[|k]]; discriminate|discriminate].
Qed.
Definition lives_ (ts : list ntree) : nres (xres unit) :=
  match linked outside_ (lays 0 None ts) with NOk g => NOk (check_lives 100 g) | NErr e i => NErr e i | NPanic => NPanic | NOof => NOof end.
Definition graph_ (ts : list ntree) : fgraph := match linked outside_ (lays 0 None ts) with NOk g => g | _ => [] end.
Example C56_example_accepted : front types_ (fun g => g) outside_ (flat_map tokens living_) = NOk (graph_ living_t) /\
  check_lives 100 (graph_ living_t) = XOk tt /\ length (graph_ living_t) < 100.
Proof. split; [vm_compute; reflexivity|]. split; [vm_compute; reflexivity|]. vm_compute. repeat constructor. Qed.
(** it meets the conditions of the theorems *)
Lemma living_graph : exists g, graph_of (fun g => g) living_t g.
Proof. do 3 eexists. repeat split; vm_compute; reflexivity. Qed.
Example C56_example_fits : lives_fit (graph_ living_t).
Proof.
  destruct C56_example_file as (A & B & C). destruct living_graph as [g G]. destruct C56_example_accepted as (D & _). eapply C56_linked; eauto.
Qed.
Example C56_example_safe : forall e i, ~ unsafe (graph_ living_t) e i.
Proof. destruct C56_example_accepted as (_ & A & L). pose proof (C56_verdict _ 100 C56_example_fits L) as V. rewrite A in V. exact V. Qed.
(** the same with [b] without a lifetime, with an immutable [a], with a local variable returned, with [c] without a lifetime;
    [k] without [mut]; [s] of [k] as ['return] of a function without a result *)
Example C56_example_rejected : map lives_ [
    [l_fn "f" [l_arg true "a" None; l_arg false "b" None] [l_set (var_ "a") (var_ "b")]];
    [l_fn "f" [l_arg false "a" None; l_arg false "b" (Some "a")] [l_set (var_ "a") (var_ "b")]];
    [l_fn "f" [l_arg true "a" None] [t_let "x" (var_ "a"); l_return (var_ "x")]];
    [l_fn "f" [l_arg false "c" None] [l_return (var_ "c")]];
    [l_fn "f" [l_arg true "a" None; l_arg false "b" None] [t_expr (l_call "k" [l_mut (var_ "a"); argument (var_ "b")])]; k_];
    [l_fn "f" [l_arg false "a" None; l_arg false "b" (Some "a")] [t_expr (l_call "k" [l_mut (var_ "a"); argument (var_ "b")])]; k_];
    [l_fn "f" [l_arg true "a" None] [t_expr (l_call "k" [l_mut (var_ "a"); argument (t_call "f" [var_ "a"])])]; k_; t_fn "f" [t_arg "a"; t_block []]];
    [l_fn "f" [l_arg true "a" None; l_arg false "b" (Some "a")] [t_expr (NT (blank K_Go None) [l_call "k" [l_mut (var_ "a"); argument (var_ "b")]])]; k_];
    [NT (with_ty TVoid (named K_Fn "f")) [l_arg false "a" (Some "return"); t_block []]];
    [l_fn "f" [l_arg false "a" (Some "b")] []]] =
  [NOk (XErr (X_lifetime (CFnRequires 2 1)) 8); NOk (XErr X_mut 7); NOk (XErr (X_lifetime (CShort 6)) 11); NOk (XErr (X_lifetime (CNeedsReturn 1)) 5);
   NOk (XErr (X_lifetime (CFnRequires 2 1)) 8); NOk (XErr X_mut 7); NOk (XErr X_reference 7); NOk (XErr X_go 9); NOk (XErr X_void 1); NOk (XErr (X_signature (AMissing 1)) 1)].
Proof. vm_compute. reflexivity. Qed.

(** ** What is not checked *)

(** [a.x := b] changes the argument [a] without [mut], and puts a value into it that does not outlive it: neither is checked,
    because the place of such a value is taken for a local variable. With [=] both are errors. *)
Definition t_prop (x y : string) : ntree := NT (named K_Item x) [NT (with_ty TStr (blank K_Id None)) []].
Definition inserts : list ntree := [l_fn "f" [l_arg false "a" None; l_arg false "b" None] [l_put (t_prop "a" "x") (var_ "b")]].
Definition inserts_g : fgraph := Eval vm_compute in graph_ inserts.
Theorem C57_insert_refuted : file_fits inserts /\ lively_file inserts /\ linked outside_ (lays 0 None inserts) = NOk inserts_g /\ check_lives 100 inserts_g = XOk tt /\
  (exists a n i it r, nth_error inserts_g a = Some n /\ assigns inserts_g n OpAssign i r /\ nth_error inserts_g i = Some it /\ within it /\ f_decl it = Some 1 /\
     immutable inserts_g i /\ refers_to inserts_g r (OVar 2)) /\
  (exists l1 l2, span inserts_g (OVar 1) l1 /\ span inserts_g (OVar 2) l2 /\ ~ outlives l2 l1) /\
  lives_ [l_fn "f" [l_arg false "a" None; l_arg false "b" (Some "a")] [l_set (t_prop "a" "x") (var_ "b")]] = NOk (XErr X_mut 7) /\
  lives_ [l_fn "f" [l_arg true "a" None; l_arg false "b" None] [l_set (t_prop "a" "x") (var_ "b")]] = NOk (XErr (X_lifetime (CFnRequires 2 1)) 9).
Proof.
  split; [intros t [<-|[]]; split; reflexivity|]. split; [intros t [<-|[]]; split; reflexivity|]. split; [vm_compute; reflexivity|]. split; [vm_compute; reflexivity|].
  split; [|split; [|split; vm_compute; reflexivity]].
  - exists 5. eexists. exists 7. eexists. exists 9. split; [reflexivity|]. split; [split; [reflexivity|]; exists 6; eexists; repeat split; reflexivity|]. split; [reflexivity|].
    split; [split; [reflexivity|discriminate]|]. split; [reflexivity|]. split.
    + do 2 eexists. exists (NodesModel.FNode (with_names ["a"] (blank K_Arg None)) (Some 0) [] None []). repeat split; try reflexivity. left. reflexivity.
    + eapply (Rf_part inserts_g 9); [reflexivity|discriminate| | |eapply (Ke_part _ _ 10); [left; reflexivity|reflexivity|discriminate|]|].
      * intros [H|[H _]]; simpl in H; intuition discriminate.
      * intros [H _]. discriminate.
      * intros H. simpl in H. unfold aside in H. simpl in H. intuition discriminate.
      * eapply Rf_item; reflexivity.
  - exists (Argument [1]), (Argument [2]). split; [|split].
    + eapply (Sp_arg inserts_g 1 _ false [1]); [reflexivity|reflexivity|eapply Le_end; reflexivity].
    + eapply (Sp_arg inserts_g 2 _ false [2]); [reflexivity|reflexivity|eapply Le_end; reflexivity].
    + discriminate.
Qed.
Print Assumptions C57_insert_refuted.

(** A swizzle is one part of a call but gives several values. The lifetimes of the arguments are taken by the number of the
    part: [fn h(p, q, r: 'return) -> { return r }], called as [return h(xy v, x)], returns the local variable [x]; with
    values instead of the swizzle it is an error. With [go] the checks panic, and with [mut] the function is not found. *)
Definition l_xy (x : string) : ntree := NT (blank K_CallArg None) [NT (blank K_Swizzle None) [NT (blank K_Sw0 None) []; NT (blank K_Sw1 None) []; var_ x]].
Definition h_ (mut : bool) : ntree := l_fn "h" [l_arg false "p" None; l_arg false "q" None; l_arg mut "r" (Some "return")] [l_return (var_ "r")].
Definition returns_local (l : list ntree) : list ntree := [h_ false; l_fn "f" [l_arg false "v" None] [t_let "x" (var_ "v"); l_return (l_call "h" l)]].
Definition swizzled : list ntree := returns_local [l_xy "v"; argument (var_ "x")].
Definition swizzled_g : fgraph := Eval vm_compute in graph_ swizzled.
Theorem C56_swizzle_refuted : file_fits swizzled /\ linked outside_ (lays 0 None swizzled) = NOk swizzled_g /\ check_lives 100 swizzled_g = XOk tt /\
  (exists i n c cn f fn a an v d, nth_error swizzled_g i = Some n /\ f_kind n = K_Return /\ f_children n = [c] /\
     nth_error swizzled_g c = Some cn /\ f_kind cn = K_Call /\ f_decl cn = Some f /\ nth_error swizzled_g f = Some fn /\
     values swizzled_g cn = 3 /\ nth_error (parts swizzled_g K_Arg fn) 2 = Some a /\ nth_error swizzled_g a = Some an /\ x_lifetime (f_data an) = Some "return" /\
     nth_error (f_children cn) 1 = Some v /\ refers_to swizzled_g v (OVar d) /\ span swizzled_g (OVar d) (Local d)) /\
  (exists e i, lives_ (returns_local [argument (var_ "v"); argument (var_ "v"); argument (var_ "x")]) = NOk (XErr (X_lifetime e) i)) /\
  lives_ [h_ false; l_fn "f" [l_arg false "v" None] [t_expr (NT (blank K_Go None) [l_call "h" [l_xy "v"; argument (var_ "v")]])]] = NOk XPanic /\
  (exists i, lives_ [h_ true; l_fn "f" [l_arg true "v" None] [t_expr (l_call "h" [l_xy "v"; l_mut (var_ "v")])]] = NErr N_function i).
Proof.
  split; [intros t [<-|[<-|[]]]; split; reflexivity|]. split; [vm_compute; reflexivity|]. split; [vm_compute; reflexivity|]. split; [|split; [do 2 eexists; vm_compute; reflexivity|split; [vm_compute; reflexivity|eexists; vm_compute; reflexivity]]].
  exists 18. eexists. exists 19. eexists. exists 0. eexists. exists 3. eexists. exists 25, 14. do 12 (split; [reflexivity|]). split.
  - eapply (Rf_part swizzled_g 25); [reflexivity|discriminate| | |eapply (Ke_part _ _ 26); [left; reflexivity|reflexivity|discriminate|]|].
    + intros [H|[H _]]; simpl in H; intuition discriminate.
    + intros [H _]. discriminate.
    + intros H. simpl in H. unfold aside in H. simpl in H. intuition discriminate.
    + eapply Rf_item; reflexivity.
  - eapply Sp_local; [reflexivity|discriminate|discriminate].
Qed.
Print Assumptions C56_swizzle_refuted.

(** The checks panic for files that the grammar allows: when a value reads [return], and when a parameter of a closure is put
    into another one (closures have no name to print in the message, which is not needed otherwise). *)
Definition closing (x y : bool) : list ntree :=
  [l_fn "f" [] [t_let "c" (NT (blank K_Closure None) [l_arg x "x" None; l_arg y "y" None; l_set (var_ "x") (var_ "y")])]].
Theorem C56_panic_refuted : forall ts, In ts [closing true false; closing false false; [l_fn "f" [l_arg true "a" None] [l_set (var_ "a") (var_ "return")]];
    [l_fn "f" [] [l_return (var_ "return")]]] ->
  file_fits ts /\ lively_file ts /\ lives_ ts = NOk XPanic.
Proof. intros ts [<-|[<-|[<-|[<-|[]]]]]; (split; [intros t [<-|[]]; split; reflexivity|]); (split; [intros t [<-|[]]; split; reflexivity|]); vm_compute; reflexivity. Qed.
Print Assumptions C56_panic_refuted.
