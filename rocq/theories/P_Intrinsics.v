(** * C52: options, results, smallest and largest elements, keys. *)
From Coq Require Import String List ZArith Bool Arith Lia.
From Verif Require Import Float64 FloatProofs Syntax InterpModel StdModel StdSpec ControlSpec Samples P_Control P_Array.
Import ListNotations.
Local Open Scope string_scope.
Local Open Scope nat_scope.
Local Open Scope list_scope.

(** ** Options and results *)

(** what each function gives for a value; [None]: an error *)
Inductive asked : (M value) -> value -> option value -> Prop :=
| A_ok y : asked is_ok (VOk y) (Some (vbool true))
| A_not_ok m tr : asked is_ok (VErr m tr) (Some (vbool false))
| A_err m tr : asked is_err (VErr m tr) (Some (vbool true))
| A_not_err y : asked is_err (VOk y) (Some (vbool false))
| A_unwrap_ok y : asked unwrap (VOk y) (Some y)
| A_unwrap_some y : asked unwrap (VSome y) (Some y)
| A_unwrap_none : asked unwrap VNone None
| A_unwrap_failed m tr : asked unwrap (VErr m tr) None
| A_unwrap_err m tr : asked unwrap_err (VErr m tr) (Some m)
| A_other f v : In f [is_ok; is_err; unwrap_err] -> (forall y, v <> VOk y) -> (forall m tr, v <> VErr m tr) -> asked f v None
| A_unwrap_other v : (forall y, v <> VOk y) -> (forall y, v <> VSome y) -> asked unwrap v None
| A_no_error y : asked unwrap_err (VOk y) None.
Theorem C52_ask : forall f s stk a v o, r_stack s = stk ++ [a] -> denotes (set_stack stk s) a v -> asked f v o ->
  match o with
  | Some y => f s = Ok y (set_stack stk s)
  | None => exists e, f s = Err e (set_stack stk s)
  end.
Proof.
  intros f s stk a v o Hs Da A.
  assert (forall k : value -> M value, (x <- pop ;; y <- getv x ;; k y) s = k v (set_stack stk s)) as R.
  { intros k. unfold bind. now rewrite (pop_run _ _ _ Hs), (getv_run _ _ _ Da). }
  inversion A as [| | | | | | | | |f' v' F N1 N2|v' N1 N2|]; subst; unfold is_ok, is_err, unwrap, unwrap_err; rewrite ?R; try reflexivity; try (eexists; reflexivity).
  - destruct F as [<- |[<- |[<- |[]]]]; unfold is_ok, is_err, unwrap_err; rewrite R; destruct v; try (eexists; reflexivity); exfalso; first [now eapply N1|now eapply N2].
  - destruct v; try (eexists; reflexivity); exfalso; first [now eapply N1|now eapply N2].
Qed.
Print Assumptions C52_ask.

(** [unwrap_or] *)
Theorem C52_unwrap_or : forall s stk a d v w, r_stack s = stk ++ [a; d] ->
  denotes (set_stack stk s) a v -> denotes (set_stack stk s) d w ->
  (forall y, v = VOk y \/ v = VSome y -> unwrap_or s = Ok y (set_stack stk s)) /\
  (forall m tr, v = VNone \/ v = VErr m tr -> unwrap_or s = Ok w (set_stack stk s)) /\
  ((forall y, v <> VOk y /\ v <> VSome y) -> (forall m tr, v <> VErr m tr) -> v <> VNone -> exists e, unwrap_or s = Err e (set_stack stk s)).
Proof.
  intros s stk a d v w Hs Da Dd.
  assert (r_stack s = (stk ++ [a]) ++ [d]) as Hs' by (rewrite Hs, <- app_assoc; reflexivity).
  assert (unwrap_or s = match v with VSome y | VOk y => Ok y (set_stack stk s) | VNone | VErr _ _ => Ok w (set_stack stk s)
    | _ => Err "expected some(_) or ok(_)" (set_stack stk s) end) as R.
  { unfold unwrap_or, bind. rewrite (pop_run _ _ _ Hs'), (pop_run _ stk a) by reflexivity. rewrite set_set, (getv_run _ _ _ Da).
    destruct v; try reflexivity; now rewrite (getv_run _ _ _ Dd). }
  rewrite R. split; [|split].
  - intros y [-> | ->]; reflexivity.
  - intros m tr [-> | ->]; reflexivity.
  - intros N1 N2 N3. destruct v; try (eexists; reflexivity); exfalso; [now apply N3|now apply (proj2 (N1 v))|now apply (proj1 (N1 v))|now eapply N2].
Qed.
Print Assumptions C52_unwrap_or.

(** What was put in comes out: [unwrap(some(x))], [unwrap(ok(x))] and [unwrap_err(err(x))] copy [x]. *)
Theorem C52_wrap : forall n s stk a x, r_stack s = stk ++ [a] -> copy_arg n s = Ok x (set_stack stk s) ->
  forall wrap ask, In (wrap, ask) [(some_ n, unwrap); (ok_ n, unwrap); (StdModel.err_ n, unwrap_err)] ->
  exists y, wrap s = Ok y (set_stack stk s) /\ (forall i, y <> VRef i) /\
    forall stk' s', r_stack s' = stk' ++ [y] -> ask s' = Ok x (set_stack stk' s').
Proof.
  intros n s stk a x Hs C wrap ask I.
  destruct I as [I|[I|[I|[]]]]; injection I as <- <-; eexists; (split; [unfold some_, ok_, StdModel.err_, bind; rewrite C; reflexivity|]);
    (split; [discriminate|]); intros stk' s' H; unfold unwrap, unwrap_err, bind; rewrite (pop_run _ _ _ H); reflexivity.
Qed.
Print Assumptions C52_wrap.

(** ** Smallest and largest element *)

(** the numbers in a list of values; NaN is no number *)
Inductive numbers (s : rt) : list value -> list f64 -> Prop :=
| N_nil : numbers s [] []
| N_num v l x sec xs : denotes s v (VF64 x sec) -> fis_nan x = false -> numbers s l xs -> numbers s (v :: l) (x :: xs)
| N_skip v l y xs : denotes s v y -> (forall x sec, y = VF64 x sec -> fis_nan x = true) -> numbers s l xs -> numbers s (v :: l) xs.
Lemma best_run : forall better s, (forall a b, better a b = true -> fis_nan a = false) ->
  (forall a b c, better a b = true -> better b c = true -> better a c = true) ->
  (forall a, better a a = false) ->
  (forall a b c, better a b = true -> fis_nan c = false -> better a c = true \/ better c b = true) ->
  forall l xs, numbers s l xs -> forall best, exists m, best_of better l best s = Ok m s /\
  ((fis_nan m = true /\ xs = [] /\ fis_nan best = true) \/
   (fis_nan m = false /\ ((m = best /\ fis_nan best = false) \/ In m xs) /\ (fis_nan best = false -> better best m = false) /\ forall x, In x xs -> better x m = false)).
Proof.
  intros better s Hn Ht Hi Hc l xs N. induction N as [|v l x sec xs D F N IH|v l y xs D F N IH]; intros best; simpl; unfold ret, bind.
  - exists best. split; auto. destruct (fis_nan best) eqn:B; [left; auto|]. right. repeat split; auto. contradiction.
  - rewrite (getv_run _ _ _ D). destruct (better x best || fis_nan best) eqn:B.
    + destruct (IH x) as (m & R & [(A1 & A2 & A3)|(A1 & A2 & A3 & A4)]); [congruence|]. exists m. split; auto. right.
      split; auto. split; [destruct A2 as [[-> _]|A2]; simpl; auto|]. split.
      * intros FB. destruct (better best m) eqn:E; auto. rewrite FB, orb_false_r in B.
        pose proof (Ht _ _ _ B E) as X. rewrite A3 in X; auto.
      * intros z [<- |Z]; auto.
    + apply orb_false_iff in B. destruct B as [B1 B2]. destruct (IH best) as (m & R & [(A1 & A2 & A3)|(A1 & A2 & A3 & A4)]); [congruence|].
      exists m. split; auto. right. split; auto. split; [destruct A2; simpl; auto|]. split; auto.
      intros z [<- |Z]; auto. destruct (better x m) eqn:E; auto. destruct (Hc _ _ best E B2) as [X|X]; [congruence|]. rewrite A3 in X; auto.
  - rewrite (getv_run _ _ _ D).
    remember (match y with VF64 y0 _ => if better y0 best || fis_nan best then y0 else best | _ => best end) as b eqn:Y.
    assert ((fis_nan best = false -> b = best) /\ (fis_nan best = true -> fis_nan b = true)) as [Y1 Y2].
    { destruct y; subst b; auto. pose proof (F _ _ eq_refl) as G. destruct (better x best) eqn:B; [apply Hn in B; congruence|].
      destruct (fis_nan best); simpl; split; auto; discriminate. }
    destruct (IH b) as (m & R & A). exists m. split; auto. destruct A as [(A1 & A2 & A3)|(A1 & A2 & A3 & A4)].
    + left. repeat split; auto. destruct (fis_nan best) eqn:G; auto. rewrite (Y1 eq_refl) in A3. congruence.
    + right. destruct (fis_nan best) eqn:G.
      * repeat split; auto; [|discriminate]. destruct A2 as [[_ A2]|A2]; [rewrite Y2 in A2; [discriminate|auto]|auto].
      * rewrite (Y1 eq_refl) in *. split; auto. split; [destruct A2 as [[A2 _]|A2]; auto|auto].
Qed.
(** The smallest (largest) number of an array, NaN when there is none; secrets are not kept. *)
Theorem C52_best : forall f better s stk a l xs, In (f, better) [(array_min, fun a b => flt a b); (array_max, fun a b => flt b a)] ->
  r_stack s = stk ++ [a] -> denotes (set_stack stk s) a (VArray l) -> numbers (set_stack stk s) l xs ->
  exists m, f s = Ok (VF64 m None) (set_stack stk s) /\
  ((xs = [] /\ fis_nan m = true) \/ (In m xs /\ forall x, In x xs -> better x m = false)).
Proof.
  intros f better s stk a l xs I Hs D N.
  assert (forall b, (forall best, exists m, best_of b l best (set_stack stk s) = Ok m (set_stack stk s) /\
    ((fis_nan m = true /\ xs = [] /\ fis_nan best = true) \/
     (fis_nan m = false /\ ((m = best /\ fis_nan best = false) \/ In m xs) /\ (fis_nan best = false -> b best m = false) /\ forall x, In x xs -> b x m = false))) ->
    exists m, best_arg b s = Ok (VF64 m None) (set_stack stk s) /\
    ((xs = [] /\ fis_nan m = true) \/ (In m xs /\ forall x, In x xs -> b x m = false))) as R.
  { intros b H. destruct (H fnan) as (m & A & B). exists m. split.
    - unfold best_arg, bind. rewrite (pop_run _ _ _ Hs), (getv_run _ _ _ D), A. reflexivity.
    - destruct B as [(B1 & B2 & _)|(B1 & [[_ B2]|B2] & _ & B3)]; auto. discriminate. }
  destruct I as [I|[I|[]]]; injection I as <- <-; apply R; intros best.
  - apply (best_run (fun a b => flt a b)); [exact flt_nan_l|exact flt_trans|exact flt_irrefl|exact flt_cmp|exact N].
  - apply (best_run (fun a b => flt b a)); [|intros x y z A B; exact (flt_trans _ _ _ B A)|exact flt_irrefl| |exact N].
    + intros x y A. exact (flt_nan_r _ _ A).
    + intros x y z H1 H2. destruct (flt_cmp _ _ z H1 H2); auto.
Qed.
Print Assumptions C52_best.

(** ** Keys *)
Lemma assoc_in : forall A k (l : list (string * A)), (match assoc k l with Some _ => true | None => false end) = true <-> In k (map fst l).
Proof.
  intros A k l. induction l as [|[k' x] l IH]; simpl; [split; [discriminate|tauto]|]. destruct (String.eqb_spec k' k) as [-> |E].
  - rewrite ?String.eqb_refl. split; auto.
  - try rewrite (proj2 (String.eqb_neq k' k) E). try rewrite (proj2 (String.eqb_neq k k') (fun H => E (eq_sym H))). rewrite IH. intuition congruence.
Qed.
Theorem C52_has : forall s stk a k l key, r_stack s = stk ++ [a; k] ->
  denotes (set_stack stk s) a (VObject l) -> denotes (set_stack (stk ++ [a]) s) k (VStr key) ->
  exists b, has s = Ok (vbool b) (set_stack stk s) /\ (b = true <-> In key (map fst l)).
Proof.
  intros s stk a k l key Hs Da Dk. assert (r_stack s = (stk ++ [a]) ++ [k]) as Hs' by (rewrite Hs, <- app_assoc; reflexivity).
  exists (match assoc key l with Some _ => true | None => false end). split; [|apply assoc_in].
  unfold has, bind. rewrite (pop_run _ _ _ Hs'), (getv_run _ _ _ Dk), (pop_run _ stk a) by reflexivity.
  rewrite set_set, (getv_run _ _ _ Da). reflexivity.
Qed.
Print Assumptions C52_has.
Theorem C52_keys : forall s stk a l, r_stack s = stk ++ [a] -> denotes (set_stack stk s) a (VObject l) ->
  exists ks, keys s = Ok (VArray ks) (set_stack stk s) /\ length ks = length l /\
  forall k, In (VStr k) ks <-> In k (map fst l).
Proof.
  intros s stk a l Hs D. exists (map (fun kx => VStr (fst kx)) l). split; [|split].
  - unfold keys, bind. rewrite (pop_run _ _ _ Hs), (getv_run _ _ _ D). reflexivity.
  - apply map_length.
  - intros k. rewrite !in_map_iff. split; intros (x & E & I); exists x; split; auto; congruence.
Qed.
Print Assumptions C52_keys.

(** The standard functions have the lazy invariants that [C20_short_circuit] speaks of. *)
Theorem C20_std : forall O n mods void rtn bin un alloc, std_lazy (std_env O n mods void rtn bin un alloc).
Proof. intros. repeat split. Qed.
Print Assumptions C20_std.

(** ** Examples *)
Definition st1 (l : list value) : rt := RT 0 l [] [] [] (World [] [] []).
(** [min([2, true, 1, NaN])] with the array behind a reference *)
Example C52_best_example :
  array_min (st1 [VArray [vf64 (f_of_Z 2); vbool true; VRef 1; vf64 fnan]; vf64 (f_of_Z 1); VRef 0]) =
  Ok (vf64 (f_of_Z 1)) (st1 [VArray [vf64 (f_of_Z 2); vbool true; VRef 1; vf64 fnan]; vf64 (f_of_Z 1)]) /\
  exists s', array_max (st1 [VArray [vf64 fnan; vbool true]]) = Ok (vf64 fnan) s'.
Proof. split; [reflexivity|eexists; reflexivity]. Qed.
Example C52_example :
  (exists s', unwrap_or (st1 [VErr (VStr "no") []; vf64 (f_of_Z 7); VRef 0; VRef 1]) = Ok (vf64 (f_of_Z 7)) s') /\
  (exists s', unwrap (st1 [VSome (VStr "x"); VRef 0]) = Ok (VStr "x") s') /\
  (exists s', has (st1 [VObject [("a", vbool true)]; VRef 0; VStr "a"]) = Ok (vbool true) s').
Proof. repeat split; eexists; reflexivity. Qed.
