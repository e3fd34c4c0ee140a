(** * C33, C34: which function a call means. *)
From Coq Require Import String Ascii List Bool Arith ZArith Lia.
From Verif Require Import TypeModel ModuleModel ModuleSpec ModuleProofs.
Import ListNotations.
Local Open Scope string_scope.
Local Open Scope nat_scope.
Local Open Scope list_scope.

(** ** C33 *)

(** A plain name means the last loaded function of that name, else the last registered external
    one, else nothing; from any caller. External functions are called in their own way. *)
Theorem C33_plain : forall m name relative,
  plain_means m name (meant relative (find_function m name relative)) /\
  forall w, way_used (find_function m name relative) = Some w ->
    exists j f, meant relative (find_function m name relative) = Some (MExternal j) /\
      nth_error (m_ext m) j = Some f /\ w = way_of f.
Proof.
  intros m name relative. split; [apply find_means|]. intros w Hw.
  pose proof (find_plain m name relative) as H.
  destruct (find_function m name relative) eqn:E; try discriminate Hw;
    destruct H as (_ & j0 & f & _ & N & X); rewrite X in *; exists j0, f;
    (split; [apply meant_ext|split; [exact N|]]);
    unfold way_of, ext_index in *; destruct (x_fn f); try destruct (x_lazy f); cbn in *; congruence.
Qed.
Print Assumptions C33_plain.

(** The specification leaves no choice. *)
Theorem C33_plain_unique : forall m name r r', plain_means m name r -> plain_means m name r' -> r = r'.
Proof. exact plain_unique. Qed.
Print Assumptions C33_plain_unique.

Lemma link_found : forall src m f alias name, links src (from_module m) = true ->
  In f (s_fns src) -> In (alias, name) (sf_sites f) ->
  checked_as m (link_call (map sf_name (s_fns src)) (from_module m) (s_uses src) alias name) <> None.
Proof.
  intros src m f alias name H I1 I2. unfold links in H. apply andb_prop in H. destruct H as [_ H].
  rewrite forallb_forall in H. specialize (H f I1). rewrite forallb_forall in H. specialize (H _ I2). cbn [fst snd] in H.
  destruct (link_call _ _ _ _ _); cbn [checked_as]; try discriminate.
  destruct (i <? length (m_ext m)); discriminate.
Qed.
Lemma load_site : forall src rest m m' k sf n alias name, own_rets src rest ->
  load_str src rest m = (true, m') -> nth_error (s_fns src) k = Some sf ->
  nth_error (sf_sites sf) n = Some (alias, name) ->
  links src (from_module m) = true /\
  exists f, nth_error (m_funs m') (length (m_funs m) + k) = Some f /\
    nth_error (f_sites f) n = Some (Site alias name
      (resolve (registered src m) (from_uses_module (s_uses src) m) (length (m_funs m) + k) alias name)).
Proof.
  intros src rest m m' k sf n alias name Ho Hl N Ns.
  pose proof (load_kept src rest m Ho) as K. rewrite Hl in K. cbn [snd] in K.
  split. { unfold load_str in Hl. destruct (links src (from_module m)); [reflexivity|discriminate]. }
  destruct K as (_ & _ & _ & _ & K). destruct (K _ _ (new_function src m k sf N)) as (g & Ng & (_ & _ & _ & S)).
  exists g. split; [exact Ng|]. rewrite <- S. cbn [f_sites]. rewrite nth_error_map, Ns. reflexivity.
Qed.

(** When a file was accepted, every call by plain name means for the run time the function that
    the checkers linked it to, and there is one. *)
Theorem C33_agree : forall src rest m m' k sf n name, own_rets src rest ->
  load_str src rest m = (true, m') -> nth_error (s_fns src) k = Some sf ->
  nth_error (sf_sites sf) n = Some (None, name) ->
  exists f s r, nth_error (m_funs m') (length (m_funs m) + k) = Some f /\ nth_error (f_sites f) n = Some s /\
    meant (length (m_funs m) + k) (st_index s) = Some r /\
    checked_as m (link_call (map sf_name (s_fns src)) (from_module m) (s_uses src) None name) = Some r /\
    plain_means (registered src m) name (Some r).
Proof.
  intros src rest m m' k sf n name Ho Hl N Ns.
  destruct (load_site src rest m m' k sf n None name Ho Hl N Ns) as (L & f & Nf & Nsite).
  pose proof (link_found src m sf None name L (nth_error_In _ _ N) (nth_error_In _ _ Ns)) as Hne.
  assert (distinct (map sf_name (s_fns src)) = true) as D by (apply andb_prop in L; tauto).
  pose proof (agree_plain src m (length (m_funs m) + k) name D) as A.
  destruct (checked_as m _) as [r|]; [|congruence].
  exists f. eexists. exists r. split; [exact Nf|]. split; [exact Nsite|]. cbn [st_index resolve].
  split; [exact A|]. split; [reflexivity|]. rewrite <- A. apply find_means.
Qed.
Print Assumptions C33_agree.

(** The same for calls through imports. Full statement: without the hypothesis on renamed external
    functions with mutable arguments; false, see [C33_rename_refuted]. *)
Theorem C33_agree_import_partial : forall src rest m m' k sf n alias name, own_rets src rest ->
  ~ renames_mut_external m (s_uses src) ->
  load_str src rest m = (true, m') -> nth_error (s_fns src) k = Some sf ->
  nth_error (sf_sites sf) n = Some (alias, name) ->
  exists f s r, nth_error (m_funs m') (length (m_funs m) + k) = Some f /\ nth_error (f_sites f) n = Some s /\
    meant (length (m_funs m) + k) (st_index s) = Some r /\
    checked_as m (link_call (map sf_name (s_fns src)) (from_module m) (s_uses src) alias name) = Some r.
Proof.
  intros src rest m m' k sf n alias name Ho Hren Hl N Ns.
  destruct (load_site src rest m m' k sf n alias name Ho Hl N Ns) as (L & f & Nf & Nsite).
  pose proof (link_found src m sf alias name L (nth_error_In _ _ N) (nth_error_In _ _ Ns)) as Hne.
  assert (distinct (map sf_name (s_fns src)) = true) as D by (apply andb_prop in L; tauto).
  destruct (checked_as m (link_call _ _ _ alias name)) as [r|] eqn:Er; [|congruence].
  exists f. eexists. exists r. split; [exact Nf|]. split; [exact Nsite|]. cbn [st_index].
  split; [|reflexivity]. rewrite <- Er. destruct alias as [a|].
  - apply agree_alias. exact Hren.
  - apply agree_plain. exact D.
Qed.
Print Assumptions C33_agree_import_partial.

(** [alias::key] means a function that some import with that alias brings in under that name. *)
Theorem C33_import_partial : forall m uses a k v, ~ renames_mut_external m uses ->
  lookup (from_uses_module uses m) a k = Some v ->
  exists u ns name, In u uses /\ place m v = Some (ns, name) /\ imports u ns name a k.
Proof.
  intros m uses a k v Hren H. apply lookup_in, from_uses_sound in H.
  destruct H as (u & ns & name & Hu & P & [I|I]); [exists u, ns, name; auto|].
  destruct I as (n & new & Hn & E1 & E2 & -> & Hm & j & ->).
  cbn [place] in P. destruct (nth_error (m_ext m) j) as [f|] eqn:N; [|discriminate]. injection P as <- <-.
  destruct (string_dec new n) as [->|Ne].
  - exists u, (x_ns f), (x_name f). cbn [place]. rewrite N. split; [exact Hu|]. split; [reflexivity|].
    split; [exact E1|]. split; [exact E2|]. destruct (u_fns u) as [|p l]; [contradiction|].
    exists n, (Some n). split; [exact Hn|]. right. destruct (mut_name_shape _ _ Hm) as (args & A1 & _).
    exists args. split; exact A1.
  - exfalso. apply Hren. exists u, n, new, f. split; [exact Hu|]. split; [exact Hn|]. split; [exact Ne|].
    split; [apply nth_error_In with j; exact N|]. split; [auto|exact Hm].
Qed.
Print Assumptions C33_import_partial.

(** Several candidates: an import of a whole namespace takes the first external function, else the
    first loaded one (a plain name takes the last loaded one, else the last external one). *)
Definition first_in {A} (ns : A -> list string) (nm : A -> string) (space : list string) (name : string)
    (l : list A) (i : nat) : Prop :=
  (exists x, nth_error l i = Some x /\ ns x = space /\ nm x = name) /\
  forall j y, j < i -> nth_error l j = Some y -> ~ (ns y = space /\ nm y = name).
Definition none_in {A} (ns : A -> list string) (nm : A -> string) (space : list string) (name : string) (l : list A) : Prop :=
  forall x, In x l -> ~ (ns x = space /\ nm x = name).

Lemma lookup_fold : forall {P} (c : P -> bool) (key : P -> string) (v : P -> fn_alias) a k ps l,
  lookup (fold_left (fun l p => if c p then insert a (key p) (v p) l else l) ps l) a k =
  match find (fun p => c p && String.eqb (key p) k) (rev ps) with
  | Some p => Some (v p)
  | None => lookup l a k
  end.
Proof.
  intros P c key v a k ps. induction ps as [|p ps IH] using rev_ind; intros l; [reflexivity|].
  rewrite fold_left_app, rev_app_distr. cbn [fold_left rev app find].
  destruct (c p); cbn [andb]; [|apply IH]. unfold lookup, insert. cbn [find fst snd].
  rewrite String.eqb_refl. cbn [andb]. destruct (String.eqb (key p) k); [reflexivity|]. apply IH.
Qed.
Lemma find_first : forall {A} (ns : A -> list string) (nm : A -> string) space name l k,
  match find (fun p => names_eqb (ns (snd p)) space && String.eqb (nm (snd p)) name) (enum k l) with
  | Some (i, x) => k <= i /\ first_in ns nm space name l (i - k)
  | None => none_in ns nm space name l
  end.
Proof.
  intros A ns nm space name l. induction l as [|x l IH]; intros k; cbn [enum find snd]; [intros y []|].
  destruct (names_eqb (ns x) space && String.eqb (nm x) name) eqn:E.
  - apply andb_prop in E. destruct E as [E1 E2]. apply names_eqb_spec in E1. apply String.eqb_eq in E2.
    rewrite Nat.sub_diag. split; [lia|]. split; [exists x; auto|]. intros j y L. lia.
  - assert (~ (ns x = space /\ nm x = name)) as Hx.
    { intros [E1 E2]. apply names_eqb_spec in E1. apply String.eqb_eq in E2. rewrite E1, E2 in E. discriminate. }
    specialize (IH (S k)). destruct (find _ _) as [[i y]|].
    + destruct IH as [L [[z [N Hz]] F]]. split; [lia|]. replace (i - k) with (S (i - S k)) by lia.
      split; [exists z; auto|]. intros [|j] w Lj Hw; cbn in Hw.
      * injection Hw as <-. exact Hx.
      * apply (F j w); [lia|exact Hw].
    + intros y [<-|I]; [exact Hx|apply IH; exact I].
Qed.
Theorem C33_import_first : forall m ns a k,
  match lookup (from_uses_module [UseImport ns [] a] m) a k with
  | Some (AExternal j) => first_in x_ns x_name ns k (m_ext m) j
  | Some (ALoaded i) => none_in x_ns x_name ns k (m_ext m) /\ first_in f_ns f_name ns k (m_funs m) i
  | None => none_in x_ns x_name ns k (m_ext m) /\ none_in f_ns f_name ns k (m_funs m)
  end.
Proof.
  intros m ns a k. unfold from_uses_module. cbn [fold_left specific_module u_fns glob_module u_names u_alias].
  rewrite (lookup_fold (fun p => names_eqb (x_ns (snd p)) ns) (fun p => x_name (snd p)) (fun p => AExternal (fst p))).
  unfold back at 1. rewrite rev_involutive. pose proof (find_first x_ns x_name ns k (m_ext m) 0) as H.
  destruct (find _ (enum 0 (m_ext m))) as [[j x]|]; cbn [fst].
  - rewrite Nat.sub_0_r in H. tauto.
  - rewrite (lookup_fold (fun p => names_eqb (f_ns (snd p)) ns) (fun p => f_name (snd p)) (fun p => ALoaded (fst p))).
    unfold back. rewrite rev_involutive. pose proof (find_first f_ns f_name ns k (m_funs m) 0) as H'.
    destruct (find _ (enum 0 (m_funs m))) as [[i x]|]; cbn [fst].
    + rewrite Nat.sub_0_r in H'. tauto.
    + split; assumption.
Qed.
Print Assumptions C33_import_first.

(** ** C34 *)

(** The function that a call of function [i] leads to. *)
Definition leads_to (m : module) (i : nat) (s : site) : option function :=
  match meant i (st_index s) with
  | Some (MLoaded z) => if (z <? 0)%Z then None else nth_error (m_funs m) (Z.to_nat z)
  | _ => None
  end.

(** The index found when a file is loaded leads, from the calling function, to the function that
    was found; for a plain name: to the last one of that name. *)
Theorem C34_found : forall src rest m m' k sf n alias name z, own_rets src rest ->
  load_str src rest m = (true, m') -> nth_error (s_fns src) k = Some sf ->
  nth_error (sf_sites sf) n = Some (alias, name) ->
  resolve (registered src m) (from_uses_module (s_uses src) m) (length (m_funs m) + k) alias name = ILoaded z ->
  exists f s g i, nth_error (m_funs m') (length (m_funs m) + k) = Some f /\ nth_error (f_sites f) n = Some s /\
    leads_to m' (length (m_funs m) + k) s = Some g /\ nth_error (m_funs m') i = Some g /\
    match alias with
    | None => last_named f_name name (m_funs m') i
    | Some a => lookup (from_uses_module (s_uses src) m) a name = Some (ALoaded i)
    end.
Proof.
  intros src rest m m' k sf n alias name z Ho Hl N Ns Hz.
  destruct (load_site src rest m m' k sf n alias name Ho Hl N Ns) as (L & f & Nf & Nsite).
  pose proof (load_kept src rest m Ho) as K. rewrite Hl in K. cbn [snd] in K.
  destruct K as (_ & _ & Len & _ & K).
  assert (forall i g, nth_error (m_funs (registered src m)) i = Some g ->
            exists h, nth_error (m_funs m') i = Some h /\ f_name h = f_name g) as Name.
  { intros i g Hg. assert (nth_error (m_funs (convert src m)) i =
      Some (get_locals (registered src m) (from_uses_module (s_uses src) m) i g)) as E by (rewrite nth_convert, Hg; reflexivity).
    destruct (K i _ E) as (h & Nh & (_ & E2 & _)). exists h. split; [exact Nh|]. rewrite <- E2.
    unfold get_locals. destruct (f_looked g); reflexivity. }
  pose proof (resolve_in src m _ _ _ _ Hz) as (i & Ez & Bi). subst z.
  assert (exists g, nth_error (m_funs m') i = Some g) as [g Ng].
  { destruct (nth_error (m_funs m') i) as [g|] eqn:E; [exists g; reflexivity|].
    apply nth_error_None in E. rewrite Len, length_convert in E. lia. }
  exists f. eexists. exists g, i. split; [exact Nf|]. split; [exact Nsite|]. split; [|split; [exact Ng|]].
  - unfold leads_to. cbn [st_index]. rewrite Hz, meant_loaded.
    destruct (Z.ltb_spec (Z.of_nat i) 0); [lia|]. rewrite Nat2Z.id. exact Ng.
  - destruct alias as [a|]; cbn [resolve] in Hz.
    + destruct (lookup _ _ _) as [[i'|j]|] eqn:Lk; try discriminate.
      * injection Hz as Hz. f_equal. f_equal. lia.
      * destruct (nth_error _ j) as [x|]; [|discriminate]. unfold ext_index_eager in Hz. destruct (x_fn x); discriminate.
    + pose proof (find_plain (registered src m) name (length (m_funs m) + k)) as P. rewrite Hz in P.
      destruct P as (i' & Ei & [[x [X1 X2]] X3]). assert (i' = i) by lia. subst i'. split.
      * destruct (Name i x X1) as (h & Nh & Eh). exists h. split; [exact Nh|congruence].
      * intros j y Lj Nj. destruct (nth_error (m_funs (registered src m)) j) as [w|] eqn:W.
        -- destruct (Name j w W) as (h & Nh & Eh). rewrite Nj in Nh. injection Nh as <-. rewrite Eh. apply (X3 j w Lj W).
        -- exfalso. apply nth_error_None in W. assert (j < length (m_funs m')) as B by (apply nth_error_Some; congruence).
           rewrite Len, length_convert in B. unfold registered in W. rewrite register_all in W. cbn in W.
           rewrite app_length, map_length in W. lia.
Qed.
Print Assumptions C34_found.

(** Loading files, importing modules and registering external functions changes nothing about the
    functions that are there, and every call leads to the same function as before. *)
Theorem C34_stable : forall m m' i f s g, linked_module m -> grows m m' ->
  nth_error (m_funs m) i = Some f -> In s (f_sites f) -> leads_to m i s = Some g ->
  nth_error (m_funs m') i = Some f /\ leads_to m' i s = Some g.
Proof.
  intros m m' i f s g HL G N I H. split; [apply (grows_prefix m m' G HL i f N)|].
  unfold leads_to in *. destruct (meant i (st_index s)) as [[z|j]|]; try discriminate.
  destruct (z <? 0)%Z; [discriminate|]. apply (grows_prefix m m' G HL _ g H).
Qed.
Print Assumptions C34_stable.

(** A module that is imported keeps its calls, although its functions get other positions. *)
Theorem C34_import : forall m other i f s g, linked_module other ->
  nth_error (m_funs other) i = Some f -> In s (f_sites f) -> leads_to other i s = Some g ->
  nth_error (m_funs (import m other)) (length (m_funs m) + i) = Some f /\
  leads_to (import m other) (length (m_funs m) + i) s = Some g.
Proof.
  intros m other i f s g HL N I H.
  assert (forall j, nth_error (m_funs (import m other)) (length (m_funs m) + j) = nth_error (m_funs other) j) as E.
  { intros j. cbn. rewrite nth_error_app2 by lia. f_equal. lia. }
  split; [rewrite E; exact N|]. unfold leads_to in *.
  destruct (st_index s) as [z| | | | | |]; cbn [meant] in *; try discriminate.
  destruct (Z.ltb_spec (z + Z.of_nat i) 0) as [B|B]; [discriminate|].
  destruct (Z.ltb_spec (z + Z.of_nat (length (m_funs m) + i)) 0) as [B'|B']; [lia|].
  replace (Z.to_nat (z + Z.of_nat (length (m_funs m) + i))) with (length (m_funs m) + Z.to_nat (z + Z.of_nat i)) by lia.
  rewrite E. exact H.
Qed.
Print Assumptions C34_import.

(** The same for the transitive part. *)
Theorem C34_import_transitive : forall m other i f s g, linked_module other -> i < m_tr other ->
  nth_error (m_funs other) i = Some f -> In s (f_sites f) -> leads_to other i s = Some g ->
  nth_error (m_funs (import_tr_prelude m other)) (length (m_funs m) + i) = Some f /\
  leads_to (import_tr_prelude m other) (length (m_funs m) + i) s = Some g.
Proof.
  intros m other i f s g [T HL] Hi N I H.
  assert (forall j, j < m_tr other ->
    nth_error (m_funs (import_tr_prelude m other)) (length (m_funs m) + j) = nth_error (m_funs other) j) as E.
  { intros j Hj. cbn. rewrite nth_error_app2 by lia. replace (length (m_funs m) + j - length (m_funs m)) with j by lia.
    rewrite <- (firstn_skipn (m_tr other) (m_funs other)) at 2. rewrite nth_error_app1; [reflexivity|].
    rewrite firstn_length. lia. }
  split; [rewrite E by exact Hi; exact N|]. unfold leads_to in *.
  destruct (HL i f N) as [_ HS]. specialize (HS s).
  destruct (st_index s) as [z| | | | | |]; cbn [meant] in *; try discriminate.
  destruct (HS z I eq_refl) as [_ Hz]. specialize (Hz Hi).
  destruct (Z.ltb_spec (z + Z.of_nat i) 0) as [B|B]; [discriminate|].
  destruct (Z.ltb_spec (z + Z.of_nat (length (m_funs m) + i)) 0) as [B'|B']; [lia|].
  replace (Z.to_nat (z + Z.of_nat (length (m_funs m) + i))) with (length (m_funs m) + Z.to_nat (z + Z.of_nat i)) by lia.
  rewrite E by lia. exact H.
Qed.
Print Assumptions C34_import_transitive.

(** An import does not move the external functions of the module. *)
Theorem C34_import_external : forall m other k x, nth_error (m_ext m) k = Some x -> nth_error (m_ext (import m other)) k = Some x.
Proof.
  intros m other k x. cbn [import m_ext]. generalize (m_ext m). induction (m_ext other) as [|f l IH]; intros e H; cbn [fold_left]; auto.
  apply IH. destruct (existsb _ e); auto. rewrite nth_error_app1; auto. apply nth_error_Some. congruence.
Qed.
Print Assumptions C34_import_external.
Example C34_import_external_example :
  nth_error (m_ext (import (Mdl [] 0 [External [] "f" XReturn false]) (Mdl [] 0 [External [] "g" XReturn false; External [] "f" XReturn false]))) 0 =
  Some (External [] "f" XReturn false).
Proof. reflexivity. Qed.

(** No call leads outside of the module, whatever was loaded and imported; also after files that
    the checkers rejected. *)
Theorem C34_inside : forall m m' i f s z, linked_module m -> grows m m' ->
  nth_error (m_funs m') i = Some f -> In s (f_sites f) -> st_index s = ILoaded z ->
  exists g, leads_to m' i s = Some g.
Proof.
  intros m m' i f s z HL G N I E. destruct (linked_grows m m' G HL) as [_ S].
  destruct (S i f N) as [_ S']. destruct (S' s z I E) as [B _].
  unfold leads_to. rewrite E. cbn [meant]. destruct (Z.ltb_spec (z + Z.of_nat i) 0); [lia|].
  destruct (nth_error (m_funs m') (Z.to_nat (z + Z.of_nat i))) as [g|] eqn:Ng; [exists g; reflexivity|].
  apply nth_error_None in Ng. lia.
Qed.
Print Assumptions C34_inside.

(** ** Examples *)

Definition std_m : module := Mdl [] 0
  [External ["std"] "and_also" XReturn true; External ["std"] "push(mut,_)" XVoid false;
   External ["std"] "sin" XUnOp false].
Definition file1 : source := Source ["math"] []
  [SourceFn "square" TF64 [(None, "mul")]; SourceFn "mul" TF64 []; SourceFn "sin" TF64 []].
Definition m1 : module := make_transitive (snd (load_str file1 (Some []) std_m)).
Definition file2 : source := Source [] [UseImport ["math"] [] "m"; UseImport ["std"] [("sin", Some "sine")] "s"]
  [SourceFn "mul" TF64 []; SourceFn "main" TVoid [(None, "mul"); (Some "m", "mul"); (None, "sin"); (Some "s", "sine")]].

Example linked_std : linked_module std_m.
Proof. split; [cbn; lia|]. intros [|i] f H; discriminate. Qed.
Example C33_example : exists m2, load_str file2 (Some [("main", TVoid)]) m1 = (true, m2) /\
  ~ renames_mut_external m1 (s_uses file2) /\
  map (fun s => meant 4 (st_index s)) (f_sites (nth 4 (m_funs m2) (Function [] "" false TVoid []))) =
  [Some (MLoaded 3); Some (MLoaded 1); Some (MLoaded 2); Some (MExternal 2)].
Proof.
  eexists. split; [reflexivity|]. split; [|reflexivity].
  intros (u & n & new & f & Hu & Hn & _ & Hf & Hns & Hm). cbn in Hu, Hf.
  destruct Hu as [<-|[<-|[]]]; cbn in Hn; [contradiction|]. destruct Hn as [E|[]]. injection E as <- <-.
  destruct Hf as [<-|[<-|[<-|[]]]]; discriminate.
Qed.
Example C34_example :
  leads_to m1 0 (Site None "mul" (ILoaded 1)) =
    leads_to (snd (load_str file2 None (import m1 m1))) 3 (Site None "mul" (ILoaded 1)) /\
  leads_to m1 0 (Site None "mul" (ILoaded 1)) <> None.
Proof. split; [reflexivity|discriminate]. Qed.

(** ** Refutations *)

(** [use std as s { push as add }]: the checkers know [s::add(mut,_)], the run time does not. *)
Theorem C33_rename_refuted : exists src m m' f s,
  load_str src (Some []) m = (true, m') /\ nth_error (m_funs m') 0 = Some f /\ nth_error (f_sites f) 0 = Some s /\
  meant 0 (st_index s) = None /\
  checked_as m (link_call (map sf_name (s_fns src)) (from_module m) (s_uses src) (st_alias s) (st_name s)) = Some (MExternal 1).
Proof.
  exists (Source [] [UseImport ["std"] [("push", Some "add")] "s"] [SourceFn "main" TVoid [(Some "s", "add(mut,_)")]]).
  exists std_m. do 3 eexists. repeat split; reflexivity.
Qed.
Print Assumptions C33_rename_refuted.

(** Called through an import, a lazy function is not called in its own way: its arguments are all
    evaluated. *)
Theorem C33_lazy_refuted : exists src m m' f s s',
  load_str src (Some []) m = (true, m') /\ nth_error (m_funs m') 0 = Some f /\
  nth_error (f_sites f) 0 = Some s /\ nth_error (f_sites f) 1 = Some s' /\
  meant 0 (st_index s) = meant 0 (st_index s') /\
  way_used (st_index s) = Some ByReturn /\ way_used (st_index s') = Some ByLazy.
Proof.
  exists (Source [] [UseImport ["std"] [] "s"] [SourceFn "main" TVoid [(Some "s", "and_also"); (None, "and_also")]]).
  exists std_m. do 4 eexists. repeat split; reflexivity.
Qed.
Print Assumptions C33_lazy_refuted.

(** [go a::f()] starts the function that the plain name [f] means when it runs. *)
Theorem C33_go_refuted : exists src m m' f s,
  load_str src (Some []) m = (true, m') /\ nth_error (m_funs m') 4 = Some f /\ nth_error (f_sites f) 1 = Some s /\
  meant 4 (st_index s) = Some (MLoaded 1) /\ meant 4 (go_index m' 4 s) = Some (MLoaded 3).
Proof. exists file2, m1. do 3 eexists. repeat split; reflexivity. Qed.
Print Assumptions C33_go_refuted.

(** A file that the checkers reject is loaded all the same: later files see its functions. *)
Theorem C33_rejected_refuted : exists src m m',
  load_str src (Some []) m = (false, m') /\
  meant 0 (find_function m "sin" 0) = Some (MExternal 2) /\
  meant 0 (find_function m' "sin" 0) = Some (MLoaded 0).
Proof.
  exists (Source [] [] [SourceFn "sin" TF64 [(None, "unknown")]]), std_m. eexists. repeat split; reflexivity.
Qed.
Print Assumptions C33_rejected_refuted.
