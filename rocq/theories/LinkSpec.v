(** * Specification of links: plain lists.

    Link variables hold lists of values, string variables hold strings. Nothing is shared. *)
From Coq Require Import String List Arith NArith Bool.
From Verif Require Import LinkModel.
Import ListNotations.
Local Open Scope list_scope.

Record sworld := mkS { slinks : list (option (list val)); sstrs : list (option string) }.
Definition sworld0 : sworld := mkS [] [].

Definition slink (w : sworld) (i : nat) : option (list val) :=
  match nth_error (slinks w) i with Some (Some l) => Some l | _ => None end.
Definition sstr (w : sworld) (i : nat) : option string :=
  match nth_error (sstrs w) i with Some (Some l) => Some l | _ => None end.
Definition sitem (w : sworld) (x : item) : option val :=
  match x with
  | IBool b => Some (VBool b)
  | IF64 d => Some (VF64 d)
  | IStr v => match sstr w v with Some s => Some (VStr s) | None => None end
  end.

Definition list_last (l : list val) : option val :=
  match rev l with [] => None | x :: _ => Some x end.
Definition list_head (l : list val) : option val :=
  match l with [] => None | x :: _ => Some x end.

Definition sobserve (w : sworld) (v : option val) : sworld * out :=
  (mkS (slinks w) (match v with Some (VStr s) => sstrs w ++ [Some s] | _ => sstrs w end), OVal v).
Definition snew (w : sworld) (l : list val) : sworld * out :=
  (mkS (slinks w ++ [Some l]) (sstrs w), ONone).
Definition sset (w : sworld) (i : nat) (l : option (list val)) : sworld * out :=
  (mkS (upd i l (slinks w)) (sstrs w), ONone).

Definition sstep (w : sworld) (o : op) : sworld * out :=
  let bad := (w, OInvalid) in
  match o with
  | ONewStr s => (mkS (slinks w) (sstrs w ++ [Some s]), ONone)
  | ODropStr v => match sstr w v with None => bad
                  | Some _ => (mkS (slinks w) (upd v None (sstrs w)), ONone) end
  | ONewLink => snew w []
  | OClone i => match slink w i with None => bad | Some l => snew w l end
  | ODrop i => match slink w i with None => bad | Some _ => sset w i None end
  | OPush i x => match slink w i, sitem w x with
                 | Some l, Some v => sset w i (Some (l ++ [v])) | _, _ => bad end
  | OPushLink i j => match slink w i, slink w j with
                 | Some l, Some l2 => if Nat.eqb i j then bad else sset w i (Some (l ++ l2))
                 | _, _ => bad end
  | OAdd i j => match slink w i, slink w j with
                 | Some l, Some l2 => snew w (l ++ l2) | _, _ => bad end
  | OTail i => match slink w i with None => bad | Some l => snew w (tl l) end
  | ONeck i => match slink w i with None => bad | Some l => snew w (removelast l) end
  | OHead i => match slink w i with None => bad | Some l => sobserve w (list_head l) end
  | OTip i => match slink w i with None => bad | Some l => sobserve w (list_last l) end
  | OIsEmpty i => match slink w i with None => bad
                  | Some l => (w, OBool (match l with [] => true | _ => false end)) end
  end.

Fixpoint srun (w : sworld) (os : list op) : sworld * list out :=
  match os with
  | [] => (w, [])
  | o :: t => let '(w1, r) := sstep w o in let '(w2, rs) := srun w1 t in (w2, r :: rs)
  end.

(** ** Observing a variable

    The first [n] elements of link variable [i], read with [head] and [tail] only. *)
Fixpoint elems (n : nat) (w : world) (i : nat) : option (list val) :=
  match n with
  | O => Some []
  | S n' =>
      match step w (OHead i) with
      | Ok (w1, OVal None) => Some []
      | Ok (w1, OVal (Some v)) =>
          match step w1 (OTail i) with
          | Ok (w2, _) => match elems n' w2 (length (wlinks w1)) with
                          | Some vs => Some (v :: vs) | None => None end
          | Fault _ => None
          end
      | _ => None
      end
  end.

(** the link variable an operation may modify *)
Definition writes (o : op) : option nat :=
  match o with OPush i _ | OPushLink i _ | ODrop i => Some i | _ => None end.
