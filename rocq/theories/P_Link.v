(** * Links: properties C01-C04 *)
From Coq Require Import String List Arith NArith Bool Lia.
From Verif Require Import LinkModel LinkSpec LinkBlockProofs LinkHeapProofs LinkProofs.
Import ListNotations.
Local Open Scope string_scope.
Local Open Scope list_scope.

(** C01: every history of operations runs without fault and gives the outputs of the same
    history on plain lists ([LinkSpec]). *)
Theorem C01_links_are_lists : forall os : list op,
  exists w, run world0 os = Ok (w, snd (srun sworld0 os)).
Proof.
  intros os. destruct (@run_sim false os) with (w := world0) (sw := sworld0) as (w & R & _).
  - discriminate.
  - apply Rel0.
  - exists w. exact R.
Qed.
Print Assumptions C01_links_are_lists.

(** and after any history, reading a live link with [head]/[tail] gives the list of the
    specification. *)
Theorem C01_contents : forall os w outs i vs n,
  run world0 os = Ok (w, outs) -> slink (fst (srun sworld0 os)) i = Some vs ->
  elems n w i = Some (firstn n vs).
Proof.
  intros os w outs i vs n R E. destruct (@run_sim false os) with (w := world0) (sw := sworld0) as (w0 & R' & RL).
  - discriminate.
  - apply Rel0.
  - rewrite R' in R. inversion R; subst. eapply (@elems_spec false); eauto.
Qed.
Print Assumptions C01_contents.

(** a history crossing a block boundary: 130 pushes, then slices of the result *)
Definition pushes (n : nat) : list op := map (fun k => OPush 0 (IF64 (N.of_nat k))) (seq 0 n).
Definition ex_hist : list op :=
  ONewLink :: ONewStr "a" :: pushes 130 ++
  [OPush 0 (IStr 0); ODropStr 0; ONeck 0; ODrop 0; OPush 1 (IBool true);
   OTip 1; OHead 1; OTail 1; OHead 2; OAdd 2 1; OTip 3; OIsEmpty 3].
Example C01_example :
  exists w, run world0 ex_hist = Ok (w, snd (srun sworld0 ex_hist)) /\
  skipn 137 (snd (srun sworld0 ex_hist)) =
   [OVal (Some (VBool true)); OVal (Some (VF64 0)); ONone; OVal (Some (VF64 1)); ONone;
    OVal (Some (VBool true)); OBool false].
Proof.
  destruct (C01_links_are_lists ex_hist) as [w E]. exists w. split; [exact E|]. vm_compute. reflexivity.
Qed.

(** C02: one operation never changes the elements observed through a link variable other than
    the one it is applied to, whatever storage they share. *)
Theorem C02_links_persistent : forall os w outs o w' r i l n,
  run world0 os = Ok (w, outs) -> step w o = Ok (w', r) ->
  get_link w i = Some l -> writes o <> Some i ->
  elems n w' i = elems n w i.
Proof. intros. eapply (@persistent false); eauto; discriminate. Qed.
Print Assumptions C02_links_persistent.

(** two variables sharing a block, one of them appended to *)
Example C02_example :
  match run world0 [ONewLink; OPush 0 (IBool true); OClone 0] with
  | Ok (w, _) =>
      match step w (OPush 1 (IBool false)) with
      | Ok (w', _) => (get_link w 0, elems 5 w' 0, elems 5 w' 1)
      | Fault _ => (None, None, None) end
  | Fault _ => (None, None, None) end
  = (Some [mkSlice 0 0 1], Some [VBool true], Some [VBool true; VBool false]).
Proof. vm_compute. reflexivity. Qed.

(** C03: no history touches freed memory, an EMPTY slot, a slot outside a block or frees
    twice: every such access is a [Fault] of the model. *)
Theorem C03_memory_safe : forall os f, run world0 os <> Fault f.
Proof. intros os f. destruct (C01_links_are_lists os) as [w E]. rewrite E. discriminate. Qed.
Print Assumptions C03_memory_safe.

(** when no link variable is left, no block is left *)
Theorem C03_blocks_freed : forall os w outs,
  run world0 os = Ok (w, outs) -> (forall i, get_link w i = None) ->
  forall b, match nth_error (blocks (wmem w)) b with Some (Some _) => False | _ => True end.
Proof.
  intros os w outs R N. destruct (@run_sim false os) with (w := world0) (sw := sworld0) as (w0 & R' & RL).
  - discriminate.
  - apply Rel0.
  - rewrite R' in R. inversion R; subst. eapply (@all_blocks_freed false); eauto.
Qed.
Print Assumptions C03_blocks_freed.

(** Strings: freed when no variable is left, for every history that does not use [neck]. *)
Theorem C03_strings_freed_partial : forall os w outs,
  (forall i, ~ In (ONeck i) os) ->
  run world0 os = Ok (w, outs) -> (forall i, get_link w i = None) -> (forall v, get_sv w v = None) ->
  forall p, match nth_error (strs (wmem w)) p with Some (Some _) => False | _ => True end.
Proof.
  intros os w outs NN R N1 N2. destruct (@run_sim true os) with (w := world0) (sw := sworld0) as (w0 & R' & RL).
  - intros _. exact NN.
  - apply Rel0.
  - rewrite R' in R. inversion R; subst. eapply (@all_strings_freed true); eauto.
Qed.
Print Assumptions C03_strings_freed_partial.

Definition drop_hist : list op :=
  [ONewStr "a"; ONewLink; OPush 0 (IStr 0); OClone 0; OPush 1 (IStr 0); OTail 1; ODropStr 0;
   ODrop 0; ODrop 1; ODrop 2].
Example C03_example :
  match run world0 drop_hist with
  | Ok (w, _) => (wlinks w, wstrs w, strs (wmem w), length (blocks (wmem w)))
  | Fault _ => ([], [], [], 0) end
  = ([None; None; None], [None], [None], 2).
Proof. vm_compute. reflexivity. Qed.

(** With [neck] the full statement is false: appending after [neck] overwrites a string slot
    without dropping the string ([Block::push]); the string is leaked. *)
Definition leak_hist : list op :=
  [ONewStr "a"; ONewLink; OPush 0 (IStr 0); OPush 0 (IStr 0); ONeck 0; ODrop 0;
   OPush 1 (IBool true); ODrop 1; ODropStr 0].
Theorem C03_strings_freed_refuted : exists os w outs,
  run world0 os = Ok (w, outs) /\ (forall i, get_link w i = None) /\ (forall v, get_sv w v = None) /\
  exists p s rc, nth_error (strs (wmem w)) p = Some (Some (s, rc)).
Proof.
  exists leak_hist.
  assert (E : exists w outs, run world0 leak_hist = Ok (w, outs) /\ wlinks w = [None; None] /\ wstrs w = [None]
     /\ strs (wmem w) = [Some ("a", 1)]).
  { assert (C : match run world0 leak_hist with
                | Ok (w, _) => (wlinks w, wstrs w, strs (wmem w)) | Fault _ => ([], [], []) end
                = ([None; None], [None], [Some ("a", 1)])) by (vm_compute; reflexivity).
    destruct (run world0 leak_hist) as [[w outs]|]; [|discriminate]. exists w, outs. inversion C; auto. }
  destruct E as (w & outs & E & E1 & E2 & E3). exists w, outs. split; [exact E|].
  unfold get_link, get_sv. rewrite E1, E2, E3. split; [|split].
  - intros [|[|[|]]]; reflexivity.
  - intros [|[|]]; reflexivity.
  - exists 0, "a", 1. reflexivity.
Qed.
Print Assumptions C03_strings_freed_refuted.

(** C04: whatever a block contains, writing an element to a slot makes exactly that element
    readable there and changes no other slot. *)
Theorem C04_slot_read_back : forall (c : block) (r : raw) (pos : nat),
  length (data c) = BLOCK_SIZE -> length (tys c) = 4 -> pos < BLOCK_SIZE ->
  exists c', block_push c r pos = Ok c' /\ block_var c' pos = Ok r /\
    (forall k, k <> pos -> block_var c' k = block_var c k) /\
    length (data c') = BLOCK_SIZE /\ length (tys c') = 4.
Proof.
  intros c r pos A B L. destruct (block_push_ok c r pos L) as [c' E]. exists c'.
  assert (W : wfb c) by (split; auto). split; [exact E|]. split; [|split].
  - eapply push_var_same; eauto.
  - intros. eapply push_var_other; eauto.
  - exact (push_wfb _ _ _ _ W E).
Qed.
Print Assumptions C04_slot_read_back.

(** at the level of variables: after a push, [tip] gives the pushed value *)
Theorem C04_push_tip : forall os w outs i l x v,
  run world0 os = Ok (w, outs) -> get_link w i = Some l ->
  sitem (fst (srun sworld0 os)) x = Some v ->
  exists w1 w2 , step w (OPush i x) = Ok (w1, ONone) /\ step w1 (OTip i) = Ok (w2, OVal (Some v)).
Proof.
  intros os w outs i l x v R G V.
  destruct (@run_sim false os) with (w := world0) (sw := sworld0) as (w0 & R' & RL);
    [discriminate|apply Rel0|].
  rewrite R' in R. inversion R; subst w0 outs. clear R R'.
  destruct (get_link_some _ _ _ _ RL G) as [vs E].
  destruct (step_sim w _ (OPush i x) RL) as (w1 & r1 & S1 & F1 & RL1); [discriminate|].
  cbn [sstep] in F1, RL1. rewrite E, V in F1, RL1. cbn in F1. subst r1. cbn [fst sset] in RL1.
  destruct (step_sim w1 _ (OTip i) RL1) as (w2 & r2 & S2 & F2 & _); [discriminate|].
  exists w1, w2. split; [exact S1|]. rewrite S2. repeat f_equal. rewrite <- F2.
  cbn [sstep].
  assert (E2 : slink (mkS (upd i (Some (vs ++ [v])) (slinks (fst (srun sworld0 os)))) (sstrs (fst (srun sworld0 os)))) i
     = Some (vs ++ [v])).
  { unfold slink; cbn [slinks]. rewrite nth_error_upd_same; auto.
    unfold slink in E. destruct (nth_error (slinks (fst (srun sworld0 os))) i) eqn:X; [|discriminate].
    eapply nth_error_lt; eauto. }
  rewrite E2. cbn. unfold list_last. now rewrite rev_unit.
Qed.
Print Assumptions C04_push_tip.

Example C04_example : exists c', block_push block_new (RStr 7) 77 = Ok c' /\ block_var c' 77 = Ok (RStr 7).
Proof. eexists; vm_compute; split; reflexivity. Qed.
