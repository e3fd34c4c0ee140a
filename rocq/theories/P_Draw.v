(** * C78: draw lists.

    [draw_2d] makes exactly the calls that the commands of the list mean, in order, each with the draw state and the matrix
    that the commands before it left. Every command of graphics2d.dyon is understood. *)
From Coq Require Import String List ZArith Bool Arith Lia.
From Verif Require Import Float64 Syntax InterpModel EmbedModel DrawModel DrawSpec.
Import ListNotations.
Local Open Scope string_scope.
Local Open Scope nat_scope.
Local Open Scope list_scope.

Lemma look_arg : forall stk v w, arg stk v w -> look stk v = Got w.
Proof. intros stk v w A. destruct A as [v N|i v E]; cbn; [destruct v; auto; now destruct (N i)|now rewrite E]. Qed.
Lemma points_ok : forall stk l k, Forall2 (arg stk) l k -> points stk l = Got (vectors k).
Proof.
  intros stk l k F. induction F as [|v w l k A F IH]; [reflexivity|]. cbn [points]. rewrite (look_arg _ _ _ A). cbn [and_then]. rewrite IH. cbn [and_then vectors flat_map].
  destruct w; reflexivity.
Qed.
(** what an argument is read as *)
Definition as_ (t : aty) (w : value) : option aval :=
  match t, w with
  | AColor, VVec4 c => Some (CColor c)
  | APos, VVec4 c => Some (pos c)
  | ANum, VF64 x _ => Some (CNum x)
  | AU32, VF64 x _ => Some (CU32 (f64_to_u32 x))
  | AText, VStr s => Some (CText s)
  | AAny, VF64 x s => Some (CAny (VF64 x s))
  | AAny, VRust o => Some (CAny (VRust o))
  | APoints, VArray l => Some (CPoints (Some (vectors l)))
  | _, _ => None
  end.
Lemma read_as : forall stk t v w a, arg_all stk v w -> as_ t w = Some a -> read stk t v = Got a.
Proof.
  intros stk t v w a A E. destruct A as [v w A N|v l k A F]; unfold read; rewrite (look_arg _ _ _ A); cbn [and_then].
  - destruct t, w; cbn in E; try discriminate; try (injection E as <-; reflexivity). now destruct (N l).
  - destruct t; cbn in E; try discriminate. injection E as <-. now rewrite (points_ok _ _ _ F).
Qed.
Fixpoint as_all (ts : list aty) (ws : list value) : option (list aval) :=
  match ts, ws with
  | [], [] => Some []
  | t :: ts, w :: ws => match as_ t w, as_all ts ws with Some a, Some l => Some (a :: l) | _, _ => None end
  | _, _ => None
  end.
Lemma reads_as : forall stk ts vs ws l, Forall2 (arg_all stk) vs ws -> as_all ts ws = Some l -> reads stk ts vs = Got l.
Proof.
  intros stk ts. induction ts as [|t ts IH]; intros vs ws l F E; destruct F as [|v w vs ws A F]; cbn [as_all] in E; try discriminate; [injection E as <-; reflexivity|].
  destruct (as_ t w) as [a|] eqn:E1; [|discriminate]. destruct (as_all ts ws) as [k|] eqn:E2; [|discriminate]. injection E as <-. cbn [reads]. rewrite (read_as _ _ _ _ _ A E1). cbn [and_then]. rewrite (IH _ _ _ F E2). reflexivity.
Qed.

Section Draw.
Variables (matrix : Type) (G : outer matrix) (base : matrix).
Lemma there_font : forall f, there (fonts _ G) (is_font _ G) f = true -> font matrix G f = Got tt /\ as_ AAny f = Some (CAny f).
Proof. intros f H. destruct f; try discriminate; cbn in *; now rewrite H. Qed.
Lemma there_texture : forall f, there (textures _ G) (is_texture _ G) f = true -> texture matrix G f = Got tt /\ as_ AAny f = Some (CAny f).
Proof. intros f H. destruct f; try discriminate; cbn in *; now rewrite H. Qed.
Lemma item_command : forall name f args s r, In (name, f) (meanings matrix G base) -> f args s = Some r ->
  exists ts l, assoc name params = Some ts /\ as_all ts args = Some l /\ effect matrix G base name l s = Got r.
Proof.
  intros name f args s r I E. unfold meanings in I.
  repeat (destruct I as [I|I]; [injection I as <- <-; cbv beta delta [silent number shape] in E; eexists|]); [..|destruct I].
  all: match type of E with
       | context [there] =>
           repeat match type of E with match ?x with _ => _ end = _ => first [is_var x; destruct x; try discriminate | idtac] end
       | _ => repeat match type of E with match ?x with _ => _ end = _ => destruct x; try discriminate end
       end.
  all: try (injection E as <-; eexists; split; [reflexivity|split; [reflexivity|reflexivity]]; fail).
  all: match type of E with (if ?b then _ else _) = _ => destruct b eqn:B; [|discriminate] end; injection E as <-.
  - apply andb_prop in B. destruct B as (B1 & B2). destruct (there_font _ B1) as (F1 & F2). eexists. split; [reflexivity|]. split; [cbn [as_all]; rewrite F2; reflexivity|]. cbn [effect pos]. rewrite F1. cbn [and_then]. rewrite B2. reflexivity.
  - destruct (there_texture _ B) as (F1 & F2). eexists. split; [reflexivity|]. split; [cbn [as_all]; rewrite F2; reflexivity|]. cbn [effect pos]. rewrite F1. reflexivity.
  - destruct (there_texture _ B) as (F1 & F2). eexists. split; [reflexivity|]. split; [cbn [as_all]; rewrite F2; reflexivity|]. cbn [effect pos]. rewrite F1. reflexivity.
Qed.
Lemma assoc_in : forall A name (l : list (string * A)) x, assoc name l = Some x -> In name (map fst l).
Proof.
  intros A name l. induction l as [|[k y] l IH]; intros x E; [discriminate|]. cbn in E |- *. destruct (String.eqb_spec k name); [auto|right; eauto].
Qed.
Lemma not_known : forall name, ~ In name (map fst (meanings matrix G base)) -> assoc name params = None.
Proof.
  intros name H. destruct (assoc name params) as [ts|] eqn:E; [|reflexivity]. exfalso. apply H. apply assoc_in in E.
  assert (forallb (fun n => existsb (String.eqb n) (map fst (meanings matrix G base))) (map fst params) = true) as B by reflexivity.
  rewrite forallb_forall in B. specialize (B _ E). apply existsb_exists in B. destruct B as (n & I & Q). apply String.eqb_eq in Q. now subst n.
Qed.
Lemma items_ok : forall stk l s c s', drawn matrix G base stk l s c s' -> items matrix G stk base l s = (c, Got s').
Proof.
  intros stk l s c s' D. induction D as [s|v nv rest name f args l s c1 s1 c2 s2 A1 A2 F I E D IH|v nv rest name l s c2 s2 A1 A2 NI D IH|v w l s c2 s2 A N D IH]; cbn [items]; [reflexivity|..].
  - rewrite (look_arg _ _ _ A1). destruct (item_command name f args s (c1, s1) I E) as (ts & k & P1 & P2 & P3). unfold item. unfold read at 1. rewrite (look_arg _ _ _ A2). cbn [and_then]. rewrite P1, (reads_as _ _ _ _ _ F P2). cbn [and_then]. rewrite P3, IH. reflexivity.
  - rewrite (look_arg _ _ _ A1). unfold item. unfold read at 1. rewrite (look_arg _ _ _ A2). cbn [and_then]. rewrite (not_known _ NI), IH. reflexivity.
  - rewrite (look_arg _ _ _ A). destruct w; try exact IH. now destruct (N l0).
Qed.
(** The calls and the state at the end are those that the commands mean. *)
Theorem C78_draws : forall stk lv l d c s, arg stk lv (VArray l) -> drawn matrix G base stk l (State _ base d) c s -> draw_2d matrix G (stk ++ [lv]) base d = (c, Got s).
Proof.
  intros stk lv l d c s A D. unfold draw_2d. rewrite rev_app_distr. cbn [rev app]. rewrite removelast_last, (look_arg _ _ _ A). now apply items_ok.
Qed.
(** Every command that graphics2d.dyon makes has a meaning, in every state, if its font or texture is there. *)
Theorem C78_library : forall name tys args s, In (name, tys) library -> Forall2 typed args tys -> supplied G name args ->
  exists f c s', In (name, f) (meanings matrix G base) /\ f args s = Some (c, s').
Proof.
  intros name tys args s I F U. unfold library in I.
  repeat (destruct I as [I|I]; [injection I as <- <-|]); [..|destruct I].
  all: repeat match goal with H : Forall2 typed _ (_ :: _) |- _ => inversion H; clear H; subst | H : Forall2 typed _ [] |- _ => inversion H; clear H; subst | H : typed _ _ |- _ => inversion H; clear H; subst end.
  all: try (eexists; eexists; eexists; split; [unfold meanings; repeat (first [left; reflexivity|right])|reflexivity]; fail).
  - destruct U as ((U1 & U2) & _); [reflexivity|]. do 3 eexists. split; [unfold meanings; repeat (first [left; reflexivity|right])|]. cbv beta iota. rewrite U1, U2. reflexivity.
  - destruct U as (_ & U). do 3 eexists. split; [unfold meanings; repeat (first [left; reflexivity|right])|]. cbv beta iota. rewrite U by auto. reflexivity.
  - destruct U as (_ & U). do 3 eexists. split; [unfold meanings; repeat (first [left; reflexivity|right])|]. cbv beta iota. rewrite U by auto. reflexivity.
Qed.
(** So a list of such commands is drawn to its end. *)
Definition command (stk : list value) (v : value) : Prop :=
  exists nv rest name tys args, arg stk v (VArray (nv :: rest)) /\ arg stk nv (VStr name) /\ Forall2 (arg_all stk) rest args /\ In (name, tys) library /\ Forall2 typed args tys /\ supplied G name args.
Theorem C78_no_error : forall stk lv l d, arg stk lv (VArray l) -> Forall (command stk) l -> exists c s, drawn matrix G base stk l (State _ base d) c s /\ draw_2d matrix G (stk ++ [lv]) base d = (c, Got s).
Proof.
  intros stk lv l d A F. assert (forall s, exists c s', drawn matrix G base stk l s c s') as H.
  { clear A. induction F as [|v l (nv & rest & name & tys & args & A1 & A2 & FA & I & FT & U) F IH]; intros s; [do 2 eexists; constructor|].
    - destruct (C78_library name tys args s I FT U) as (f & c & s1 & IM & E). assert (exists c2 s2, drawn matrix G base stk l s1 c2 s2) as (c2 & s2 & D) by apply IH.
      exists (c ++ c2), s2. eapply Dr_command; eauto. }
  destruct (H (State _ base d)) as (c & s & D). exists c, s. split; [exact D|]. eapply C78_draws; eauto.
Qed.
(** ** The only panics *)
Lemma look_of : forall stk v w, look stk v = Got w -> (exists w', arg stk v w') -> arg stk v w.
Proof. intros stk v w E (w' & A). rewrite (look_arg _ _ _ A) in E. injection E as <-. exact A. Qed.
Lemma whole_look : forall n stk v, whole n stk v -> exists w, look stk v = Got w /\ arg stk v w.
Proof. intros n stk v W. assert (exists w, arg stk v w) as (w & A) by (destruct n; apply W). exists w. split; [now apply look_arg|exact A]. Qed.
Lemma points_whole : forall stk l, Forall (whole 0 stk) l -> exists k, points stk l = Got k.
Proof.
  intros stk l F. induction F as [|v l W F (k & IH)]; [exists []; reflexivity|]. cbn [points]. destruct (whole_look _ _ _ W) as (w & -> & _). cbn [and_then]. rewrite IH. cbn [and_then]. destruct w; eexists; reflexivity.
Qed.
Definition kind (a : aval) : aty := match a with CColor _ => AColor | CPos _ _ => APos | CNum _ => ANum | CU32 _ => AU32 | CText _ => AText | CAny _ => AAny | CPoints _ => APoints end.
Lemma read_whole : forall stk t v, whole 1 stk v -> read stk t v <> Crash /\ forall a, read stk t v = Got a -> kind a = t /\ (forall w, a = CAny w -> arg stk v w).
Proof.
  intros stk t v W. destruct (whole_look _ _ _ W) as (w & L & A). unfold read. rewrite L. cbn [and_then]. destruct W as (_ & W).
  assert (forall l, w = VArray l -> exists k, points stk l = Got k) as P by (intros l ->; apply points_whole, W, A).
  destruct t, w; try (split; [discriminate|]; intros a E; first [discriminate|injection E as <-; split; [reflexivity|let q := fresh in let Q := fresh in intros q Q; first [discriminate|injection Q as <-; exact A]]]; fail).
  destruct (P _ eq_refl) as (k & ->). cbn [and_then]. split; [discriminate|]. intros a E. injection E as <-. split; [reflexivity|discriminate].
Qed.
Lemma reads_whole : forall stk ts it, Forall (whole 1 stk) it -> (reads stk ts it = Crash -> length it < length ts) /\
  forall args, reads stk ts it = Got args -> map kind args = ts /\ (forall w rest, args = CAny w :: rest -> exists v it', it = v :: it' /\ arg stk v w).
Proof.
  intros stk ts. induction ts as [|t ts IH]; intros it F; [split; [discriminate|]; intros args E; injection E as <-; split; [reflexivity|discriminate]|].
  cbn [reads]. destruct F as [|v it W F]; [split; [intros _; cbn; lia|discriminate]|]. destruct (read_whole stk t v W) as (NC & K). destruct (IH it F) as (I1 & I2).
  destruct (read stk t v) as [a| |]; cbn [and_then]; [|split; [discriminate|discriminate]|congruence]. destruct (K _ eq_refl) as (K1 & K2).
  destruct (reads stk ts it) as [l| |]; cbn [and_then].
  - split; [discriminate|]. intros args E. injection E as <-. destruct (I2 _ eq_refl) as (I3 & _). split; [cbn; congruence|]. intros w rest Q. injection Q as -> ->. exists v, it. split; [reflexivity|now apply K2].
  - split; discriminate.
  - split; [intros _; specialize (I1 eq_refl); cbn; lia|discriminate].
Qed.
Lemma texture_crash : forall v, texture matrix G v = Crash -> exists id sec, v = VF64 id sec /\ (Z.of_nat (textures _ G) <= f64_to_usize id)%Z.
Proof.
  intros v E. destruct v; try discriminate; cbn in E.
  - match type of E with context [(?a <? ?b)%Z] => destruct (Z.ltb_spec a b); [discriminate|] end. eauto.
  - match type of E with context [is_texture _ G ?o] => destruct (is_texture _ G o); discriminate end.
Qed.
Lemma effect_crash : forall name args s, effect matrix G base name args s = Crash ->
  (map kind args = [AAny; APos; AColor] \/ map kind args = [AAny; APos; AColor; APos; APos]) /\ exists v rest, args = CAny v :: rest /\ texture matrix G v = Crash.
Proof.
  intros name args s E. unfold effect in E.
  repeat match type of E with
         | match ?x with _ => _ end = Crash => is_var x; destruct x; try discriminate
         | (if ?b then _ else _) = Crash => destruct b; try discriminate
         | and_then (font _ _ ?f) _ = Crash =>
             destruct f; cbn [font and_then] in E; try discriminate
         | and_then (if ?b then _ else _) _ = Crash => destruct b; cbn [and_then] in E; try discriminate
         end.
  all: match type of E with and_then (texture _ _ ?i) _ = Crash => destruct (texture matrix G i) eqn:T; cbn [and_then] in E; try discriminate end.
  all: split; [auto|eauto].
Qed.
Definition aty_eqb (a b : aty) : bool :=
  match a, b with AColor, AColor | APos, APos | ANum, ANum | AU32, AU32 | AText, AText | AAny, AAny | APoints, APoints => true | _, _ => false end.
Fixpoint atys_eqb (a b : list aty) : bool := match a, b with [], [] => true | x :: a, y :: b => aty_eqb x y && atys_eqb a b | _, _ => false end.
Lemma atys_refl : forall a, atys_eqb a a = true.
Proof. induction a as [|[] a IH]; cbn; auto. Qed.
Lemma assoc_pair : forall A name (l : list (string * A)) x, assoc name l = Some x -> In (name, x) l.
Proof. intros A name l. induction l as [|[k y] l IH]; intros x E; [discriminate|]. cbn in E |- *. destruct (String.eqb_spec k name); [injection E as <-; subst; auto|right; eauto]. Qed.
Lemma image_names : forall name ts, assoc name params = Some ts -> ts = [AAny; APos; AColor] \/ ts = [AAny; APos; AColor; APos; APos] -> name = "image__texture_pos_color" \/ name = "image__texture_pos_color_srccorner_srcsize".
Proof.
  intros name ts E D. apply assoc_pair in E.
  assert (forallb (fun p => negb (atys_eqb (snd p) [AAny; APos; AColor] || atys_eqb (snd p) [AAny; APos; AColor; APos; APos]) || (String.eqb (fst p) "image__texture_pos_color" || String.eqb (fst p) "image__texture_pos_color_srccorner_srcsize")) params = true) as B by reflexivity.
  rewrite forallb_forall in B. specialize (B _ E). cbn [fst snd] in B. assert (atys_eqb ts [AAny; APos; AColor] || atys_eqb ts [AAny; APos; AColor; APos; APos] = true) as Q by (destruct D as [-> | ->]; reflexivity).
  rewrite Q in B. cbn [negb orb] in B. apply orb_prop in B. destruct B as [B|B]; apply String.eqb_eq in B; auto.
Qed.
Lemma in_library : forall name ts, assoc name params = Some ts -> exists tys, In (name, tys) library /\ length tys = length ts.
Proof.
  intros name ts E. apply assoc_pair in E. assert (forallb (fun p => match assoc (fst p) library with Some l => Nat.eqb (length l) (length (snd p)) | None => false end) params = true) as B by reflexivity.
  rewrite forallb_forall in B. specialize (B _ E). cbn [fst snd] in B. destruct (assoc name library) as [l|] eqn:A; [|discriminate]. exists l. split; [now apply assoc_pair|now apply Nat.eqb_eq].
Qed.
Lemma item_crash : forall stk it s, Forall (whole 1 stk) it -> item matrix G stk base it s = Crash -> stops G stk it.
Proof.
  intros stk [|v it] s F E; [now left|]. right. inversion F as [|v' it' W F']; subst. unfold item in E. destruct (read_whole stk AText v W) as (NC & K). destruct (read stk AText v) as [a| |] eqn:R; cbn [and_then] in E; try congruence.
  destruct (K _ eq_refl) as (KA & _). destruct a; try discriminate. assert (arg stk v (VStr s0)) as A.
  { destruct (whole_look _ _ _ W) as (w & L & A). unfold read in R. rewrite L in R. cbn [and_then] in R. destruct w; try discriminate. injection R as <-. exact A. }
  destruct (assoc s0 params) as [ts|] eqn:P; [|discriminate]. destruct (in_library _ _ P) as (tys & IL & LL). exists v, it, s0, tys. split; [reflexivity|]. split; [exact A|]. split; [exact IL|].
  destruct (reads_whole stk ts it F') as (R1 & R2). destruct (reads stk ts it) as [args| |]; cbn [and_then] in E; [|discriminate|left; rewrite LL; auto].
  right. destruct (R2 _ eq_refl) as (MK & R3). destruct (effect_crash _ _ _ E) as (KD & u & rest & EA & TC). rewrite MK in KD. split; [now apply (image_names s0 ts)|].
  destruct (R3 _ _ EA) as (x & it' & -> & AX). destruct (texture_crash _ TC) as (id & sec & -> & LE). exists x, it', id, sec. auto.
Qed.
Lemma items_crash : forall stk l, Forall (whole 2 stk) l -> forall s, snd (items matrix G stk base l s) = Crash -> exists v it, In v l /\ arg stk v (VArray it) /\ stops G stk it.
Proof.
  intros stk l W. induction W as [|v l WV W IH]; intros s E; [discriminate|].
  assert (forall s, snd (items matrix G stk base l s) = Crash -> exists v0 it, In v0 (v :: l) /\ arg stk v0 (VArray it) /\ stops G stk it) as IH'.
  { intros s' E'. destruct (IH _ E') as (v0 & it & I0 & A). exists v0, it. split; [now right|exact A]. }
  cbn [items] in E. destruct (whole_look _ _ _ WV) as (w & L & A). rewrite L in E. destruct w; try discriminate; try (now apply (IH' _ E)).
  destruct WV as (_ & WV). specialize (WV _ A).
  match type of E with context [item matrix G stk base ?i ?s] => destruct (item matrix G stk base i s) as [[c s']| |] eqn:EI; cbn [snd] in E end.
  - now apply (IH' _ E).
  - discriminate.
  - eexists v, _. split; [now left|]. split; [exact A|]. now apply (item_crash stk _ s).
Qed.
(** If drawing stops the process, then because of an item that is empty, too short, or an image with a number without a texture. *)
Theorem C78_stops : forall stk lv d, whole 3 stk lv -> snd (draw_2d matrix G (stk ++ [lv]) base d) = Crash -> exists l v it, arg stk lv (VArray l) /\ In v l /\ arg stk v (VArray it) /\ stops G stk it.
Proof.
  intros stk lv d W E. unfold draw_2d in E. rewrite rev_app_distr in E. cbn [rev app] in E. rewrite removelast_last in E. destruct (whole_look _ _ _ W) as (w & L & A). rewrite L in E. destruct w; try discriminate.
  exists l. destruct W as (_ & W). specialize (W _ A). destruct (items_crash stk l W _ E) as (v & it & R). exists v, it. tauto.
Qed.
End Draw.
Print Assumptions C78_draws. Print Assumptions C78_library. Print Assumptions C78_no_error. Print Assumptions C78_stops.

(** ** Examples

    Matrices are lists of rows, multiplied by appending. The texture is in a variable. *)
Definition G0 : outer (list (vec4 * vec4)) :=
  Outer _ (fun a b => a ++ b) (fun x y => [(x, y)]) (fun m _ _ => m) (fun _ => DState None None None) 0 (fun _ => false) 2 (fun _ => false) (fun _ _ _ => true).
Definition v1 : vec4 := V4 (g_of_Z 1) (g_of_Z 0) (g_of_Z 0) (g_of_Z 0).
Definition v2 : vec4 := V4 (g_of_Z 0) (g_of_Z 1) (g_of_Z 0) (g_of_Z 0).
Definition list_ : list value :=
  [VArray [VStr "rel_transform__rx_ry"; VVec4 v2; VVec4 v1]; VArray [VStr "transform__rx_ry"; VVec4 v1; VVec4 v2]; VArray [VStr "rel_transform__rx_ry"; VVec4 v2; VVec4 v2];
   VArray [VStr "blend_add"]; VArray [VStr "image__texture_pos_color"; VRef 0; VVec4 v1; VVec4 v2]; VStr "x"; VArray [VStr "none"; VNone];
   VArray [VStr "polygon__color_points"; VVec4 v1; VArray [VVec4 v2; VNone]]].
Example C78_example : draw_2d _ G0 ([VF64 (f_of_Z 1) None] ++ [VArray list_]) [(v1, v1)] (DState None None None) =
  ([GImage _ (VF64 (f_of_Z 1) None) v2 None (DState None None (Some BAdd)) [(v1, v1); (v1, v2); (v2, v2)];
    GShape _ "polygon__color_points" [CColor v1; CPoints (Some [(f_of_Z 0, f_of_Z 1)])] (DState None None (Some BAdd)) [(v1, v1); (v1, v2); (v2, v2)]],
   Got (State _ [(v1, v1); (v1, v2); (v2, v2)] (DState None None (Some BAdd)))).
Proof. vm_compute. reflexivity. Qed.
Example C78_example_command : command _ G0 [VF64 (f_of_Z 1) None] (VArray [VStr "image__texture_pos_color"; VRef 0; VVec4 v1; VVec4 v2]).
Proof.
  exists (VStr "image__texture_pos_color"), [VRef 0; VVec4 v1; VVec4 v2], "image__texture_pos_color", [DF64; DVec4; DVec4], [VF64 (f_of_Z 1) None; VVec4 v1; VVec4 v2].
  split; [constructor; discriminate|]. split; [constructor; discriminate|]. split.
  { constructor; [apply Aa_value; [now constructor|discriminate]|]. constructor; [apply Aa_value; [constructor; discriminate|discriminate]|]. constructor; [apply Aa_value; [constructor; discriminate|discriminate]|constructor]. }
  split; [unfold library; cbn [In]; tauto|]. split; [repeat constructor|]. split; [discriminate|intros _; vm_compute; reflexivity].
Qed.

Lemma whole_value : forall n v, (forall i, v <> VRef i) -> (forall l, v = VArray l -> match n with O => True | S n => Forall (whole n []) l end) -> whole n [] v.
Proof.
  intros n v NR H. assert (exists w, arg [] v w) as S1 by (exists v; now constructor). destruct n; split; auto. intros l A. apply H. inversion A; subst; [reflexivity|exfalso; eapply NR; reflexivity].
Qed.
Example C78_example_stops : whole 3 [] (VArray [VArray [VStr "clear"; VVec4 v1]; VArray [VStr "blend_add"]; VArray [VStr "clear"]]) /\
  snd (draw_2d _ G0 ([] ++ [VArray [VArray [VStr "clear"; VVec4 v1]; VArray [VStr "blend_add"]; VArray [VStr "clear"]]]) [] (DState None None None)) = Crash.
Proof.
  split; [|vm_compute; reflexivity].
  repeat (first [apply whole_value; [discriminate|let l := fresh in let E := fresh in intros l E; first [discriminate|injection E as <-; try exact Logic.I]]|constructor]).
Qed.

(** ** What does not hold

    The texture of an image is declared as a number; one without a texture stops the process. So does an empty item, and a
    command with too few arguments, though draw lists have the type [[[]]]. *)
Theorem C78_texture_refuted : ~ forall name tys args, In (name, tys) library -> Forall2 typed args tys -> snd (draw_2d _ G0 ([] ++ [VArray [VArray (VStr name :: args)]]) [] (DState None None None)) <> Crash.
Proof.
  intros H. apply (H "image__texture_pos_color" [DF64; DVec4; DVec4] [VF64 (f_of_Z 2) None; VVec4 v1; VVec4 v1]); [unfold library; cbn [In]; tauto|repeat constructor|vm_compute; reflexivity].
Qed.
Theorem C78_items_refuted : snd (draw_2d _ G0 [VArray [VArray []]] [] (DState None None None)) = Crash /\ snd (draw_2d _ G0 [VArray [VArray [VStr "clear"]]] [] (DState None None None)) = Crash.
Proof. split; vm_compute; reflexivity. Qed.
Print Assumptions C78_texture_refuted. Print Assumptions C78_items_refuted.
