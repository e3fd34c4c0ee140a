(** * C41 and C42: unrolled vector loops and inferred loop ranges. *)
From Coq Require Import String List ZArith Bool Arith Lia.
From Verif Require Import Float64 Syntax SyntaxProofs InterpModel Samples TransformModel TransformSpec TransformProofs InferProofs.
Import ListNotations.
Local Open Scope string_scope.
Local Open Scope nat_scope.
Local Open Scope list_scope.

(** ** C41 *)
(** The arguments are the body with the variable replaced by 0, 1, 2 and 3, as far as the length goes.
    Partial: for bodies that are [plain]; what else is possible is refuted below. *)
Theorem C41_unroll_partial : forall name len e, plain name e = true ->
  exists l, vec4_un_loop name len e = EVec4 l /\ length l = 4 /\
    forall k, k < 4 -> nth_error l k =
      Some (if (k <? 2) || (k <? len) then fst (sub name (f_of_Z (Z.of_nat k)) 0 false e) else EVar (vf64 (f_of_Z 0))).
Proof.
  intros name len e P. eexists. split; [reflexivity|]. split; [reflexivity|].
  assert (H : forall v, fst (sub name v 0 false e) = number name v e) by (intros; apply number_sub; auto).
  intros [|[|[|[|k]]]] L; try lia; rewrite H; try reflexivity.
Qed.
Print Assumptions C41_unroll_partial.
(** Where the variable is hidden, or does not occur, nothing is replaced. *)
Theorem C41_shadow : forall name v d e, sub name v d true e = (e, true).
Proof. intros. apply unchanged_all. auto. Qed.
Print Assumptions C41_shadow.
Theorem C41_absent : forall name v e, absent name e = true -> number name v e = e.
Proof. intros name v e. apply (kept_all name v e). Qed.
Print Assumptions C41_absent.

Lemma bind_ok : forall {A B} (m : M A) (k : A -> M B) s a s', m s = Ok a s' -> bind m k s = k a s'.
Proof. intros A B m k s a s' H. unfold bind. rewrite H. reflexivity. Qed.
(** A number, or a reference to a variable that holds one. *)
Definition denotes (stk : list value) (v : value) (x : f64) : Prop :=
  match v with VF64 y _ => y = x | VRef i => exists sec, nth_error stk i = Some (VF64 x sec) | _ => False end.
Lemma denotes_more : forall stk more v x, denotes stk v x -> denotes (stk ++ more) v x.
Proof.
  intros stk more v x H. destruct v; try exact H. destruct H as [sec' H]. exists sec'.
  rewrite nth_error_app1; auto. apply nth_error_Some. congruence.
Qed.
Lemma pop_last : forall args i stk v x s, r_stack s = stk ++ [v] -> denotes stk v x -> i < length args ->
  pop_num args i s = Ok x (set_stack stk s).
Proof.
  intros args i stk v x s Hs D L. unfold pop_num. eapply eq_trans; [apply bind_ok with (a := v) (s' := set_stack stk s)|].
  - unfold pop. rewrite Hs, rev_app_distr, removelast_last. reflexivity.
  - cbv beta. destruct v; try destruct D; [|reflexivity]. unfold getv, bind, slot. cbn [r_stack set_stack]. destruct s; cbn. rewrite H. reflexivity.
Qed.
Definition pushed (v : value) (s : rt) : rt := set_stack (r_stack s ++ [v]) s.
Lemma push_step : forall E n sd e l s w t st k, eval E n e sd s = Ok (Some w, FContinue) t -> r_stack t = r_stack s -> st <= length (r_stack s) ->
  push_comp_args (eval E n) sd (Some st) (e :: l) k s =
  if 3 <? S (length (r_stack s)) - st then k (pushed w t) else push_comp_args (eval E n) sd (Some st) l k (pushed w t).
Proof.
  intros E n sd e l s' w t st k A B L. cbn [push_comp_args]. eapply eq_trans; [apply bind_ok; exact A|]. cbv beta iota.
  eapply eq_trans; [apply bind_ok; reflexivity|]. cbv beta. eapply eq_trans; [apply bind_ok; reflexivity|]. cbv beta.
  assert (length (r_stack (set_stack (r_stack t ++ [w]) t)) = S (length (r_stack s'))) as ->.
  { destruct t; cbn in *. rewrite B, app_length. cbn. lia. }
  destruct (Nat.ltb_spec (S (length (r_stack s'))) st); [lia|]. destruct (3 <? _); reflexivity.
Qed.
(** One component after the other. *)
Inductive component (E : env) (n : nat) (sd : side) (e : expr) (s : rt) : value -> rt -> Prop :=
| component_ : forall v s', eval E n e sd s = Ok (Some v, FContinue) s' -> r_stack s' = r_stack s ->
    component E n sd e s v (pushed v s').
(** If the four components are evaluated, one after the other, to numbers, the vector is made of
    these numbers, rounded to 32 bits, and the stack is as before. *)
Theorem C41_vector : forall E n sd e0 e1 e2 e3 s v0 v1 v2 v3 s1 s2 s3 s4 x0 x1 x2 x3,
  component E n sd e0 s v0 s1 -> component E n sd e1 s1 v1 s2 -> component E n sd e2 s2 v2 s3 -> component E n sd e3 s3 v3 s4 ->
  denotes (r_stack s) v0 x0 -> denotes (r_stack s) v1 x1 -> denotes (r_stack s) v2 x2 -> denotes (r_stack s) v3 x3 ->
  eval E (S n) (EVec4 [e0; e1; e2; e3]) sd s =
    Ok (Some (VVec4 (V4 (f32_of_f64 x0) (f32_of_f64 x1) (f32_of_f64 x2) (f32_of_f64 x3))), FContinue) (set_stack (r_stack s) s4).
Proof.
  intros E n sd e0 e1 e2 e3 s v0 v1 v2 v3 s1 s2 s3 s4 x0 x1 x2 x3 [w0 t0 A0 B0] [w1 t1 A1 B1] [w2 t2 A2 B2] [w3 t3 A3 B3] D0 D1 D2 D3.
  cbn [eval expression]. unfold vec4_.
  eapply eq_trans; [apply bind_ok; reflexivity|]. cbv beta.
    assert (P0 : r_stack (pushed w0 t0) = r_stack s ++ [w0]) by (destruct t0; cbn in *; congruence).
    assert (P1 : r_stack (pushed w1 t1) = r_stack s ++ [w0; w1]) by (destruct t1; cbn in *; rewrite B1, P0, <- app_assoc; reflexivity).
    assert (P2 : r_stack (pushed w2 t2) = r_stack s ++ [w0; w1; w2]) by (destruct t2; cbn in *; rewrite B2, P1, <- app_assoc; reflexivity).
    assert (P3 : r_stack (pushed w3 t3) = r_stack s ++ [w0; w1; w2; w3]) by (destruct t3; cbn in *; rewrite B3, P2, <- app_assoc; reflexivity).
    rewrite (push_step _ _ _ _ _ _ _ _ _ _ A0 B0 (le_n _)). replace (S (length (r_stack s)) - length (r_stack s)) with 1 by lia. cbn [Nat.ltb Nat.leb].
    rewrite (push_step _ _ _ _ _ _ _ _ _ _ A1 B1) by (rewrite P0, app_length; lia). rewrite P0, app_length. cbn [length].
    replace (S (length (r_stack s) + 1) - length (r_stack s)) with 2 by lia. cbn [Nat.ltb Nat.leb].
    rewrite (push_step _ _ _ _ _ _ _ _ _ _ A2 B2) by (rewrite P1, app_length; lia). rewrite P1, app_length. cbn [length].
    replace (S (length (r_stack s) + 2) - length (r_stack s)) with 3 by lia. cbn [Nat.ltb Nat.leb].
    rewrite (push_step _ _ _ _ _ _ _ _ _ _ A3 B3) by (rewrite P2, app_length; lia). rewrite P2, app_length. cbn [length].
    replace (S (length (r_stack s) + 3) - length (r_stack s)) with 4 by lia. cbn [Nat.ltb Nat.leb].
    eapply eq_trans; [apply bind_ok; apply (pop_last _ _ (r_stack s ++ [w0; w1; w2]) w3 x3); [rewrite P3, <- app_assoc; reflexivity|apply denotes_more; exact D3|cbn; lia]|]. cbv beta.
    eapply eq_trans; [apply bind_ok; apply (pop_last _ _ (r_stack s ++ [w0; w1]) w2 x2); [cbn; rewrite <- app_assoc; reflexivity|apply denotes_more; exact D2|cbn; lia]|]. cbv beta.
    eapply eq_trans; [apply bind_ok; apply (pop_last _ _ (r_stack s ++ [w0]) w1 x1); [cbn; rewrite <- app_assoc; reflexivity|apply denotes_more; exact D1|cbn; lia]|]. cbv beta.
    eapply eq_trans; [apply bind_ok; apply (pop_last _ _ (r_stack s) w0 x0); [reflexivity|exact D0|cbn; lia]|]. cbv beta.
    reflexivity.
Qed.
Print Assumptions C41_vector.

(** *** Examples *)
(** vec4 i { x := i + a[i]; i := x; i } *)
Definition v_ (x : string) : expr := EItem (Item x None false false [] []).
Definition at_i (x i : string) : expr := EItem (Item x None false false [IdExpr (v_ i)] []).
Definition set_ (x : string) (e : expr) : expr := EAssign OpAssign (v_ x) e.
Definition body1 : expr := EBlock [set_ "x" (add_ (v_ "i") (at_i "a" "i")); set_ "i" (v_ "x"); v_ "i"].
Example C41_example : plain "i" body1 = true /\
  vec4_un_loop "i" 2 body1 =
    let at_n z := EItem (Item "a" None false false [IdExpr (num z)] []) in
    EVec4 [EBlock [set_ "x" (add_ (num 0) (at_n 0%Z)); set_ "i" (v_ "x"); v_ "i"];
           EBlock [set_ "x" (add_ (num 1) (at_n 1%Z)); set_ "i" (v_ "x"); v_ "i"]; num 0; num 0].
Proof. split; reflexivity. Qed.
(** vec4 i { i + 2 }, run *)
Definition run_vec : option value :=
  match eval (env_ []) 5 (vec4_un_loop "i" 4 (add_ (v_ "i") (num 2))) Right s0 with Ok (Some v, FContinue) _ => Some v | _ => None end.
Example C41_run : run_vec = Some (VVec4 (V4 (g_of_Z 2) (g_of_Z 3) (g_of_Z 4) (g_of_Z 5))).
Proof. vm_compute. reflexivity. Qed.
Example C41_vector_example : component (env_ []) 4 Right (number "i" (f_of_Z 1) (add_ (v_ "i") (num 2))) s0 (vf64 (f_of_Z 3)) (pushed (vf64 (f_of_Z 3)) s0).
Proof. constructor; vm_compute; reflexivity. Qed.

(** *** Refutations *)
(** `sum i [0, i) { i }`: the bounds belong to the outer variable but are not replaced. *)
Theorem C41_bounds_refuted :
  number "i" (f_of_Z 1) (EForN KSum None "i" None (v_ "i") [v_ "i"]) = EForN KSum None "i" None (v_ "i") [v_ "i"] /\
  fst (sub "i" (f_of_Z 1) 0 false (EForN KSum None "i" None (v_ "i") [v_ "i"])) = EForN KSum None "i" None (num 1) [v_ "i"].
Proof. split; reflexivity. Qed.
(** `for i in c { i }`: the loop's own variable is replaced. *)
Theorem C41_for_in_refuted :
  number "i" (f_of_Z 1) (EForIn KSum None "i" (v_ "c") [v_ "i"]) = EForIn KSum None "i" (v_ "c") [num 1] /\
  fst (sub "i" (f_of_Z 1) 0 false (EForIn KSum None "i" (v_ "c") [v_ "i"])) = EForIn KSum None "i" (v_ "c") [v_ "i"].
Proof. split; reflexivity. Qed.
(** `\(x) = x + (grab i)`: grabs inside closures are not replaced; `grab i` outside is. *)
Theorem C41_grab_refuted :
  number "i" (f_of_Z 1) (EClosure (Closure ["x"] [] (EGrab 1 (v_ "i")))) = EClosure (Closure ["x"] [] (EGrab 1 (v_ "i"))) /\
  fst (sub "i" (f_of_Z 1) 0 false (EClosure (Closure ["x"] [] (EGrab 1 (v_ "i"))))) = EClosure (Closure ["x"] [] (EGrab 1 (num 1))) /\
  number "i" (f_of_Z 1) (EGrab 1 (v_ "i")) = EGrab 1 (num 1) /\
  fst (sub "i" (f_of_Z 1) 0 false (EGrab 1 (v_ "i"))) = EGrab 1 (v_ "i").
Proof. repeat split. Qed.
(** `\fs[i](x)`: the path to a closure is not replaced. *)
Theorem C41_closure_path_refuted :
  number "i" (f_of_Z 1) (ECallClosure (Item "fs" None false false [IdExpr (v_ "i")] []) []) =
  ECallClosure (Item "fs" None false false [IdExpr (v_ "i")] []) [].
Proof. reflexivity. Qed.
(** `i[0]` and `i?` are replaced by the number, though both are errors for a number. *)
Theorem C41_index_refuted :
  number "i" (f_of_Z 1) (EItem (Item "i" None false false [IdF64 f0] [])) = num 1 /\
  number "i" (f_of_Z 1) (EItem (Item "i" None false true [] [])) = num 1.
Proof. split; reflexivity. Qed.
(** `i = 2` ends the replacement in a block like a declaration; `link { i := 2 i }` does not. *)
Theorem C41_assign_refuted :
  number "i" (f_of_Z 1) (EBlock [EAssign OpSet (v_ "i") (num 2); v_ "i"]) = EBlock [EAssign OpSet (v_ "i") (num 2); v_ "i"] /\
  number "i" (f_of_Z 1) (ELink [set_ "i" (num 2); v_ "i"]) = ELink [EAssign OpAssign (num 1) (num 2); num 1].
Proof. split; reflexivity. Qed.

(** ** C42 *)
(** An inferred range ends at the length of a path of which a longer one, with the loop variable as
    next index, is in the body, where the variable is visible; other indices in it are constants or
    start with names that are not declared in the body before. Partial: declarations are statements of blocks,
    not of loop heads and links; nothing is said of the first name of the path, and of names inside
    indices (see the refutations). *)
Theorem C42_indexed_partial : forall name body stop, tracked (EBlock body) = true -> infer body name = Some stop ->
  exists it ls D, stop = ECall FNone "len" [EItem ls] /\ occurs_block name [] body it D /\ indexed name it ls D.
Proof.
  intros name body stop T H. unfold infer in H. pose proof (proj1 (sound_all name (EBlock body)) T [] [] (incl_refl _)) as K.
  destruct (infer_expr name (EBlock body) []) as [[ls|] d]; [|discriminate]. cbn [fst] in H. injection H as <-.
  destruct K as (it & D & O & X). exists it, ls, D. split; [reflexivity|]. split; [|exact X].
  inversion O as [| |D0 e c it0 D' I|D0 e ns b it0 D' I N B]; subst; [destruct I|]. destruct I as [I|[]]. injection I as <- <-. exact B.
Qed.
Print Assumptions C42_indexed_partial.
(** The range is inferred exactly if it is left out; otherwise it is as written, and nothing else changes. *)
Theorem C42_create : forall k label name start stop body e, for_n_create k label [(name, start, stop)] body = Some e ->
  exists stop', e = EForN k label name start stop' body /\
    match stop with Some x => stop' = x | None => infer body name = Some stop' end.
Proof.
  intros k label name start [x|] body e H; cbn in H.
  - injection H as <-. exists x. auto.
  - destruct (infer body name) as [x|] eqn:E; [|discriminate]. injection H as <-. exists x. auto.
Qed.
Print Assumptions C42_create.
(** Several variables are nested loops of the same kind, and the range of an outer one is inferred from the
    inner loop. *)
Theorem C42_nested : forall k label name start stop i more body e, for_n_create k label ((name, start, stop) :: i :: more) body = Some e ->
  exists inner stop', for_n_create k None (i :: more) body = Some inner /\ e = EForN k label name start stop' [inner] /\
    match stop with Some x => stop' = x | None => infer [inner] name = Some stop' end.
Proof.
  intros k label name start stop i more body e H. remember (i :: more) as l. cbn [for_n_create] in H.
  assert (match l with [] => Some body | _ => match for_n_create k None l body with Some e => Some [e] | None => None end end =
    match for_n_create k None l body with Some e => Some [e] | None => None end) as R by (subst; reflexivity).
  rewrite R in H. destruct (for_n_create k None l body) as [inner|]; [|discriminate]. destruct stop as [x|].
  - injection H as <-. eauto.
  - destruct (infer [inner] name) as [x|] eqn:E; [|discriminate]. injection H as <-. exists inner, x. auto.
Qed.
Print Assumptions C42_nested.

(** for i, j { x := b[0][i][j] }: the inner range is `len(b[0][i])`, the outer one `len(b[0])`. *)
Definition bij : expr := EItem (Item "b" None false false [IdF64 f0; IdExpr (v_ "i"); IdExpr (v_ "j")] []).
Definition len_ (ids : list idx) : expr := ECall FNone "len" [EItem (Item "b" None false false ids [])].
Example C42_example : tracked (EBlock [set_ "x" bij]) = true /\
  infer [set_ "x" bij] "j" = Some (len_ [IdF64 f0; IdExpr (v_ "i")]) /\
  for_n_create KFor None [("i", None, None); ("j", None, None)] [set_ "x" bij] =
    Some (EForN KFor None "i" None (len_ [IdF64 f0]) [EForN KFor None "j" None (len_ [IdF64 f0; IdExpr (v_ "i")]) [set_ "x" bij]]).
Proof. repeat split. Qed.
(** A name declared in the body is skipped: for i { y := 1; c[y][i]; a[i] }. *)
Example C42_skip : infer [set_ "y" (num 1); EItem (Item "c" None false false [IdExpr (v_ "y"); IdExpr (v_ "i")] []); at_i "a" "i"] "i" =
  Some (ECall FNone "len" [EItem (Item "a" None false false [] [])]).
Proof. reflexivity. Qed.

(** `for i { a := f(); a[i] }` ends at `len(a)`, which is declared in the body. *)
Theorem C42_base_refuted : infer [set_ "a" (num 1); at_i "a" "i"] "i" = Some (ECall FNone "len" [EItem (Item "a" None false false [] [])]).
Proof. reflexivity. Qed.
(** `for i { y := 1; c[d[y]][i] }` ends at `len(c[d[y]])`. *)
Theorem C42_inner_refuted :
  infer [set_ "y" (num 1); EItem (Item "c" None false false [IdExpr (at_i "d" "y"); IdExpr (v_ "i")] [])] "i" =
  Some (ECall FNone "len" [EItem (Item "c" None false false [IdExpr (at_i "d" "y")] [])]).
Proof. reflexivity. Qed.
(** `for i { for i := 0; i < 9; i += 1 { a[i] } }` ends at `len(a)`, though the index is another variable. *)
Theorem C42_for_refuted :
  infer [EFor None (set_ "i" (num 0)) (less_ (v_ "i") (num 9)) (EAssign OpAdd (v_ "i") (num 1)) [at_i "a" "i"]] "i" =
  Some (ECall FNone "len" [EItem (Item "a" None false false [] [])]).
Proof. reflexivity. Qed.
(** `for i { for j 9 {}; c[j][i] }`: a loop variable counts as declared after its loop, so nothing is found. *)
Theorem C42_leak_refuted :
  infer [EForN KFor None "j" None (num 9) []; EItem (Item "c" None false false [IdExpr (v_ "j"); IdExpr (v_ "i")] [])] "i" = None.
Proof. reflexivity. Qed.
