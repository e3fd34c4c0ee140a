(** * C60: a text that follows the grammar becomes the syntax tree that the grammar describes. *)
From Coq Require Import String List Bool Arith ZArith Lia.
From Verif Require Import PrintModel ColorModel Float64 TypeModel LifetimeModel NodesModel FoldModel TransformModel NodesSpec Syntax AstModel AstSpec AstProofs AstParts AstFile.
Import ListNotations.
Local Open Scope string_scope.
Local Open Scope nat_scope.
Local Open Scope list_scope.

(** ** Types: the piece is read to its end, and nothing is ignored *)
Theorem C60_type : forall name b t rest, type_body b t -> type_of name (tokens (SNode name b) ++ rest) = AOk t rest [].
Proof. intros name b t rest B. exact (type_of_good b t B name rest). Qed.
Print Assumptions C60_type.
(** the checker reads the same type (the specification of its parser of types in NodesSpec.v is met) *)
Theorem C60_type_checker : forall name b t, type_body b t -> type_is parse_type name (flat_map tokens b) t.
Proof. exact parse_type_ok. Qed.
Print Assumptions C60_type_checker.
(** [\(f64, [any]) -> opt[sec[bool]]] *)
Definition a_type : list stx :=
  [SNode "closure_type" [SNode "cl_arg" [flag "f64"]; SNode "cl_arg" [flag "arr_any"]; SNode "cl_ret" [SNode "opt" [flag "sec_bool"]]]].
Example C60_type_example : type_body a_type (TClosure [TF64; TArray TAny] (TOption (TSecret TBool))).
Proof.
  apply (Tb_closure [SNode "cl_arg" [flag "f64"]; SNode "cl_arg" [flag "arr_any"]]).
  - apply Ta_cons; [apply Tb_word; simpl; tauto|]. apply Ta_cons; [apply Tb_word; simpl; tauto|]. constructor.
  - apply (Tb_node "opt" TOption); [simpl; tauto|]. apply Tb_word. simpl. tauto.
Qed.
Example C60_type_reads : type_of "type" (tokens (SNode "type" a_type)) = AOk (TClosure [TF64; TArray TAny] (TOption (TSecret TBool))) [] [].
Proof. reflexivity. Qed.

(** ** Expressions *)
Theorem C60_expression : forall in_of alloc name b e rest, expr_body in_of alloc b e ->
  expression in_of alloc name (tokens (SNode name b) ++ rest) = AOk e rest [].
Proof. intros in_of alloc name b e rest B. exact (expression_ok in_of alloc b false e (Ab_expr _ _ b e B) name rest). Qed.
Print Assumptions C60_expression.
(** arguments, and whether they are marked with [mut] *)
Theorem C60_argument : forall in_of alloc name b m e rest, arg_body in_of alloc b m e ->
  expression in_of alloc name (tokens (SNode name b) ++ rest) = AOk e rest [] /\ marked_arg (tokens (SNode name b) ++ rest) = m.
Proof.
  intros in_of alloc name b m e rest B. split; [exact (expression_ok in_of alloc b m e B name rest)|].
  exact (marked_ok in_of alloc b m e name rest B).
Qed.
Print Assumptions C60_argument.

(** ** Functions and files *)
Theorem C60_function : forall in_of alloc t f rest, function_means in_of alloc t f -> function in_of alloc (tokens t ++ rest) = AOk f rest [].
Proof. exact function_ok. Qed.
Print Assumptions C60_function.
Theorem C60_file : forall in_of alloc F f, file_means in_of alloc F f ->
  convert in_of alloc (flat_map tokens F) = (f, [], Done) /\ loads (convert in_of alloc (flat_map tokens F)) = true.
Proof. intros in_of alloc F f H. rewrite (file_ok _ _ _ _ H). split; reflexivity. Qed.
Print Assumptions C60_file.
(** the grammar gives a text one meaning *)
Theorem C60_one_meaning : forall in_of alloc F f f', file_means in_of alloc F f -> file_means in_of alloc F f' -> f = f'.
Proof. intros in_of alloc F f f' H H'. apply file_ok in H. apply file_ok in H'. congruence. Qed.
Print Assumptions C60_one_meaning.

(** ** A file *)
Definition num (z : Z) : stx := SValue (MF64 "num" (f_of_Z z)).
Definition var_ (x : string) : stx := SNode "item" [str "name" x].
(** [ns a::b
     use std as s
     fn f(mut x, y: f64 => 1) ~ w -> f64 {
       sum i { x[i] }
       if y == 2 { g(mut x, d?) } else { s::h(v: (y, 1, 0, 0)) }
       x.a[0]? = 1 - 2 + x ^ 3
       return grab 4
     }
     g(a) = \(z) = z + a] *)
Definition F : list stx :=
  [SNode "ns" [str "name" "a"; str "name" "b"];
   SNode "uses" [SNode "use" [str "name" "std"; str "alias" "s"]];
   SNode "fn" [str "name" "f";
     SNode "arg" [flag "mut"; str "name" "x"];
     SNode "arg" [str "name" "y"; SType "type" [MBool "f64" true]; SNode "grab" [SNode "expr" [num 1]]];
     SNode "current" [str "name" "w"];
     flag "returns"; SType "ret_type" [MBool "f64" true];
     SNode "block"
       [SNode "expr" [SNode "sum" [str "name" "i"; SNode "block" [SNode "expr" [SNode "item" [str "name" "x"; SNode "item_extra" [SNode "id" [var_ "i"]]]]]]];
        SNode "expr" [SNode "if" [SNode "cond" [SNode "compare" [SNode "expr" [var_ "y"]; flag "=="; SNode "expr" [num 2]]];
          SNode "true_block" [SNode "expr" [SNode "call" [str "name" "g"; SNode "call_arg" [flag "mut"; var_ "x"]; SNode "call_arg" [var_ "d"; flag "try"]]]];
          SNode "else_block" [SNode "expr" [SNode "named_call" [str "alias" "s"; str "word" "h"; str "word" "v";
             SNode "call_arg" [SNode "vec4" [SNode "x" [var_ "y"]; SNode "y" [num 1]]]]]]]];
        SNode "expr" [SNode "assign" [SNode "left" [SNode "item" [str "name" "x"; SNode "item_extra" [str "id" "a"; SValue (MF64 "id" (f_of_Z 0)); flag "try_id"]]];
          flag "="; SNode "right" [SNode "add" [SNode "expr" [num 1]; flag "-"; SNode "expr" [num 2]; flag "+";
             SNode "pow" [SNode "expr" [var_ "x"]; flag "^"; SNode "expr" [num 3]]]]]];
        SNode "expr" [SNode "return" [SNode "grab" [SNode "expr" [num 4]]]]]];
   SNode "fn" [str "name" "g"; SNode "arg" [str "name" "a"];
     SNode "expr" [SNode "closure" [SNode "arg" [str "name" "z"]; SNode "expr" [SNode "add" [SNode "expr" [var_ "z"]; flag "+"; SNode "expr" [var_ "a"]]]]]]].
Definition V (z : Z) : expr := EVar (vf64 (f_of_Z z)).
Definition X (x : string) : expr := EItem (Item x None false false [] []).
Definition F_means : file :=
  File ["a"; "b"] [Use_ ["std"] [] "s"]
    [Function_ "f(mut,_)" [Arg "x" None TAny true; Arg "y" None TF64 false] [[]; [LzVar (vf64 (f_of_Z 1))]] [("w", false)]
       [EForN KSum None "i" None (ECall FNone "len" [X "x"]) [EItem (Item "x" None false false [IdExpr (X "i")] [])];
        EIf (apply "equal" [X "y"; V 2]) [apply "g(mut,_)" [X "x"; ETry (X "d")]] [] []
            (Some [apply "s::h__v" [EVec4 [X "y"; V 1; V 0; V 0]]]);
        EAssign OpSet (EItem (Item "x" None false false [IdStr "a"; IdF64 (f_of_Z 0)] [1]))
                (apply "add" [apply "sub" [V 1; V 2]; apply "pow" [X "x"; V 3]]);
        EReturn (V 4)] TF64;
     Function_ "g" [Arg "a" None TAny false] [] [] [EReturn (EClosure (Closure ["z"] [] (apply "add" [X "z"; X "a"])))] TAny].
Lemma var_means : forall in_of alloc x, item_means in_of alloc (var_ x) (Item x None false false [] []).
Proof. intros. exact (It_plain in_of alloc false x false). Qed.
Lemma var_body : forall in_of alloc x, expr_body in_of alloc [var_ x] (X x).
Proof. intros. apply Eb_item, var_means. Qed.
Lemma num_body : forall in_of alloc z, expr_body in_of alloc [num z] (V z).
Proof. intros. apply Eb_num. Qed.
Ltac leaf := first [apply var_body | apply num_body].
Lemma arg_means : forall in_of alloc m x, args_mean in_of alloc [SNode "arg" (flags "mut" m ++ [str "name" x])] [Arg x None TAny m] [[]].
Proof. intros. exact (As_more in_of alloc m x None [] None [] [] [] [] [] (Tp_none "type") (Lz_nil _ _) (As_none _ _)). Qed.
Example C60_example : file_means (fun _ _ => FNone) (fun _ => true) F F_means.
Proof.
  set (i := fun _ _ => FNone). set (a := fun _ : Z => true).
  unfold F, F_means. refine (Fi i a [_] [_] ["a"; "b"] [_] [_; _] _ _ (or_intror eq_refl) (or_intror eq_refl) _ _).
  - constructor; [|constructor]. exact (Us ["std"] [] "s").
  - constructor; [|constructor; [|constructor]].
    + refine (Fm_block i a "f" [_; _] [_] [_] (Some TF64) _ [] [Arg "x" None TAny true; Arg "y" None TF64 false] [[]; [LzVar (vf64 (f_of_Z 1))]] [[]; [LzVar (vf64 (f_of_Z 1))]] _ _ _ _ _ _ _ _).
      * refine (As_more i a true "x" None [] None [] [] _ _ _ (Tp_none _) (Lz_nil _ _) _).
        refine (As_more i a false "y" None [_] (Some TF64) [_] [_] [] [] [] _ _ (As_none _ _)).
        -- apply (Tp_some "type" [flag "f64"]). apply Tb_word. simpl. tauto.
        -- apply (Lz_value i a [num 1] (V 1)); [leaf|reflexivity|constructor].
      * exact (Cu_cons false "w" [] None [] [] (Tp_none _) Cu_nil).
      * apply (Tp_some "ret_type" [flag "f64"]). apply Tb_word. simpl. tauto.
      * repeat apply Al_cons; [| | | |constructor].
        -- refine (Eb_index i a "sum" KSum None [str "name" "i"] [("i", None, None)] [_] _ _ _ _ _ _ _).
           ++ simpl. tauto.
           ++ apply In_open. constructor.
           ++ apply Al_cons; [|constructor]. apply Eb_item. refine (It_extra i a false "x" false _ _ _ _ _); [discriminate|].
              refine (Id_expr i a 0 [var_ "i"] _ false [] _ _ _ _); [leaf|constructor].
           ++ apply Lo_one. apply En_inferred. reflexivity.
           ++ discriminate.
        -- refine (Eb_if i a _ _ [] [_] _ _ _ _ _ _ _ _ _).
           ++ refine (Eb_operators i a "compare" _ _ [(PrintModel.Equal, V 2)] _ _ _ _); [simpl; tauto| |].
              ** apply Om; [apply Op_expr; leaf|]. apply Re_cons; [simpl; tauto|apply Op_expr; leaf|constructor].
              ** apply (Ap_more _ _ "equal"); [simpl; tauto|constructor].
           ++ apply Al_cons; [|constructor]. apply (Eb_call i a _ "g(mut,_)").
              refine (Ca_plain i a None "g" _ [true; false] _ _). apply Ar_cons; [apply Ab_mut, var_means|]. apply Ar_cons; [|constructor].
              apply Ab_expr. apply (Eb_try i a [var_ "d"]). leaf.
           ++ constructor.
           ++ apply El_some. apply Al_cons; [|constructor]. apply (Eb_call i a _ "s::h__v").
              refine (Ca_named i a (Some "s") "h" _ ["v"] [false] _ _ _); [discriminate|]. apply Nm_cons; [|constructor]. apply Ab_expr.
              refine (Eb_vec4 i a _ _ [Some _; None; None] _).
              apply (Pt_cons i a "x" _ false); [apply Ab_expr; leaf|]. apply (Pt_cons i a "y" _ false); [apply Ab_expr; leaf|].
              apply Pt_missing, Pt_missing. constructor.
        -- apply (Eb_assign i a _ "=" OpSet).
           ++ simpl. tauto.
           ++ apply Eb_item. refine (It_extra i a false "x" false _ _ _ _ _); [discriminate|].
              refine (Id_name i a 0 "a" false _ _ _ _). refine (Id_num i a 1 _ true [] [] [] _). constructor.
           ++ refine (Eb_operators i a "add" _ (V 1) [(PrintModel.Sub, V 2); (PrintModel.Add, apply "pow" [X "x"; V 3])] _ _ _ _).
              ** simpl. tauto.
              ** apply Om; [apply Op_expr; leaf|]. apply Re_cons; [simpl; tauto|apply Op_expr; leaf|]. apply Re_cons; [simpl; tauto| |constructor].
                 apply (Op_pow i a _ (X "x") [(PrintModel.Pow, V 3)]).
                 --- apply Om; [apply Op_expr; leaf|]. apply Re_cons; [simpl; tauto|apply Op_expr; leaf|constructor].
                 --- apply (Ap_more _ _ "pow"); [simpl; tauto|constructor].
              ** apply (Ap_more _ _ "sub"); [simpl; tauto|]. apply (Ap_more _ _ "add"); [simpl; tauto|]. constructor.
        -- apply Eb_return. refine (Eb_grab_constant i a None [num 4] (V 4) _ _ _); [leaf|reflexivity].
      * constructor.
      * apply (Tr_last [[]] _ []); [discriminate|constructor].
    + refine (Fm_expr i a "g" [_] [] _ [Arg "a" None TAny false] [[]] [] [] _ _ _ _ _).
      * exact (arg_means i a false "a").
      * constructor.
      * refine (Eb_closure i a [_] [] _ [Arg "z" None TAny false] [[]] [] _ (arg_means i a false "z") Cu_nil _).
        refine (Eb_operators i a "add" _ _ [(PrintModel.Add, X "a")] _ _ _ _); [simpl; tauto| |].
        -- apply Om; [apply Op_expr; leaf|]. apply Re_cons; [simpl; tauto|apply Op_expr; leaf|constructor].
        -- apply (Ap_more _ _ "add"); [simpl; tauto|constructor].
      * apply Tr_all. constructor; [reflexivity|constructor].
Qed.
Example C60_example_loads : convert (fun _ _ => FNone) (fun _ => true) (flat_map tokens F) = (F_means, [], Done).
Proof. vm_compute. reflexivity. Qed.

(** ** What the grammar allows and the conversion does not keep *)

(** Two different texts become the same program: the words of [\a[i](w: x)] are lost if the last index is not a name. *)
Definition called (w : string) : list stx :=
  [SNode "fn" [str "name" "f"; SNode "expr"
    [SNode "named_call_closure" [SNode "item" [str "name" "a"; SNode "item_extra" [SNode "id" [var_ "i"]]]; str "word" w; SNode "call_arg" [var_ "x"]]]]].
Lemma called_means : forall i a w, w <> "" -> file_means i a (called w)
  (File [] [] [Function_ "f" [] [] [] [EReturn (ECallClosure (Item "a" None false false [IdExpr (X "i")] []) [X "x"])] TAny]).
Proof.
  intros i a w W. refine (Fi i a [] [] [] [] _ _ _ (or_introl (conj eq_refl eq_refl)) (or_introl (conj eq_refl eq_refl)) (Forall2_nil _) _).
  constructor; [|constructor]. refine (Fm_expr i a "f" [] [] _ [] [] [] [] _ (As_none _ _) Cu_nil _ (Tr_all [] (Forall_nil _))).
  refine (Eb_named_closure i a _ (Item "a" None false false [IdExpr (X "i")] []) _ [w] [false] _ _ _ _ _).
  - refine (It_extra i a false "a" false _ _ _ _ _); [discriminate|]. refine (Id_expr i a 0 [var_ "i"] _ false [] _ _ _ _); [leaf|constructor].
  - apply Nm_cons; [|constructor]. apply Ab_expr. leaf.
  - discriminate.
  - constructor; [exact W|constructor].
Qed.
Theorem C60_words_refuted : exists F1 F2 f, F1 <> F2 /\ forall i a, file_means i a F1 f /\ file_means i a F2 f.
Proof.
  exists (called "v"), (called "w"). eexists. split; [discriminate|]. intros i a. split; apply called_means; discriminate.
Qed.
Print Assumptions C60_words_refuted.

(** [mut] in the call of a closure is lost too. *)
Definition calls_mut (m : bool) : list stx :=
  [SNode "fn" [str "name" "f"; SNode "expr" [SNode "call_closure" (var_ "g" :: [SNode "call_arg" (flags "mut" m ++ [var_ "x"])])]]].
Theorem C60_mut_refuted : exists f, forall i a m, file_means i a (calls_mut m) f.
Proof.
  exists (File [] [] [Function_ "f" [] [] [] [EReturn (ECallClosure (Item "g" None false false [] []) [X "x"])] TAny]). intros i a m.
  refine (Fi i a [] [] [] [] _ _ _ (or_introl (conj eq_refl eq_refl)) (or_introl (conj eq_refl eq_refl)) (Forall2_nil _) _).
  constructor; [|constructor]. refine (Fm_expr i a "f" [] [] _ [] [] [] [] _ (As_none _ _) Cu_nil _ (Tr_all [] (Forall_nil _))).
  refine (Eb_call_closure i a _ _ _ [m] _ (var_means _ _ _) _). apply Ar_cons; [|constructor].
  destruct m; [apply Ab_mut, var_means|apply Ab_expr; leaf].
Qed.
Print Assumptions C60_mut_refuted.

(** A loop without an end that can be inferred and a lazy invariant that is not constant follow the grammar, but have no
    meaning. The loop is left out of its function, and all functions of the file are registered before the file is refused.
    A lazy invariant refuses the file without a place, after the functions before it were registered. *)
Definition open_loop : list stx :=
  [SNode "fn" [str "name" "g"; SNode "expr" [num 1]];
   SNode "fn" [str "name" "f"; SValue (MBool "returns" false);
     SNode "block" [SNode "expr" [SNode "for_n" [str "name" "i"; SNode "block" []]]]]].
Theorem C60_loop_refuted : forall i a, exists f ign, convert i a (flat_map tokens open_loop) = (f, ign, Done) /\ loads (convert i a (flat_map tokens open_loop)) = false /\
  map h_name (d_fns f) = ["g"; "f"] /\ h_block (nth 1 (d_fns f) (Function_ "" [] [] [] [] TAny)) = [].
Proof. intros i a. eexists. eexists. split; [vm_compute; reflexivity|]. split; [vm_compute; reflexivity|]. split; reflexivity. Qed.
Print Assumptions C60_loop_refuted.
Definition lazy_call : list stx :=
  [SNode "fn" [str "name" "g"; SNode "expr" [num 1]];
   SNode "fn" [str "name" "f"; SNode "arg" [str "name" "x"; SNode "grab" [SNode "expr" [var_ "y"]]]; SNode "expr" [num 1]]].
Theorem C60_lazy_refuted : forall i a, exists f ign o, convert i a (flat_map tokens lazy_call) = (f, ign, o) /\ loads (f, ign, o) = false /\ map h_name (d_fns f) <> [].
Proof. intros i a. do 3 eexists. split; [vm_compute; reflexivity|]. split; [vm_compute; reflexivity|]. discriminate. Qed.
Print Assumptions C60_lazy_refuted.
