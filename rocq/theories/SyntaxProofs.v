(** * Induction over values and syntax. *)
From Coq Require Import String List ZArith Bool.
From Verif Require Import Float64 Syntax.
Import ListNotations.
Local Open Scope list_scope.

Definition forall_all {A} {P : A -> Prop} (f : forall x, P x) : forall l, Forall P l :=
  fix go l := match l with [] => Forall_nil P | x :: l => Forall_cons x (f x) (go l) end.
Definition opt_all {A} (P : A -> Prop) (o : option A) : Prop :=
  match o with Some x => P x | None => True end.
Definition opt_all_all {A} {P : A -> Prop} (f : forall x, P x) (o : option A) : opt_all P o :=
  match o with Some x => f x | None => I end.

Section Ind.
Variables (Pv : value -> Prop) (Pe : expr -> Prop) (Pi : item -> Prop) (Px : idx -> Prop) (Pc : closure -> Prop).
Hypotheses
  (HRef : forall i, Pv (VRef i)) (HReturn : Pv VReturn)
  (HBool : forall b sec, opt_all (Forall Pv) sec -> Pv (VBool b sec))
  (HF64 : forall x sec, opt_all (Forall Pv) sec -> Pv (VF64 x sec))
  (HVec4 : forall v, Pv (VVec4 v)) (HMat4 : forall m, Pv (VMat4 m)) (HStr : forall s, Pv (VStr s))
  (HArray : forall l, Forall Pv l -> Pv (VArray l))
  (HObject : forall l, Forall (fun kv => Pv (snd kv)) l -> Pv (VObject l))
  (HLink : forall l, Pv (VLink l)) (HUnsafe : forall r p, Pv (VUnsafeRef r p))
  (HRust : forall i, Pv (VRust i)) (HNone : Pv VNone) (HSome : forall v, Pv v -> Pv (VSome v))
  (HOk : forall v, Pv v -> Pv (VOk v)) (HErr : forall m t, Pv m -> Pv (VErr m t))
  (HThread : forall t, Pv (VThread t))
  (HClosure : forall c md rel, Pc c -> Pv (VClosure c md rel)) (HIn : forall c, Pv (VIn c)).
Hypotheses
  (EHLink : forall l, Forall Pe l -> Pe (ELink l))
  (EHObject : forall l, Forall (fun kv => Pe (snd kv)) l -> Pe (EObject l))
  (EHArray : forall l, Forall Pe l -> Pe (EArray l))
  (EHArrayFill : forall a b, Pe a -> Pe b -> Pe (EArrayFill a b))
  (EHReturn : forall e, Pe e -> Pe (EReturn e))
  (EHReturnVoid : Pe EReturnVoid)
  (EHBreak : forall l, Pe (EBreak l)) (EHContinue : forall l, Pe (EContinue l))
  (EHBlock : forall l, Forall Pe l -> Pe (EBlock l))
  (EHGo : forall n l, Forall Pe l -> Pe (EGo n l))
  (EHCall : forall f n l, Forall Pe l -> Pe (ECall f n l))
  (EHItem : forall it, Pi it -> Pe (EItem it))
  (EHAssign : forall op a b, Pe a -> Pe b -> Pe (EAssign op a b))
  (EHVec4 : forall l, Forall Pe l -> Pe (EVec4 l))
  (EHMat4 : forall l, Forall Pe l -> Pe (EMat4 l))
  (EHFor : forall lb a b c l, Pe a -> Pe b -> Pe c -> Forall Pe l -> Pe (EFor lb a b c l))
  (EHForN : forall k lb n a b l, opt_all Pe a -> Pe b -> Forall Pe l -> Pe (EForN k lb n a b l))
  (EHForIn : forall k lb n a l, Pe a -> Forall Pe l -> Pe (EForIn k lb n a l))
  (EHIf : forall c tb cs bs eb, Pe c -> Forall Pe tb -> Forall Pe cs -> Forall (Forall Pe) bs ->
          opt_all (Forall Pe) eb -> Pe (EIf c tb cs bs eb))
  (EHVar : forall v, Pv v -> Pe (EVar v))
  (EHTry : forall e, Pe e -> Pe (ETry e))
  (EHSwizzle : forall i e, Pe e -> Pe (ESwizzle i e))
  (EHClosure : forall c, Pc c -> Pe (EClosure c))
  (EHCallClosure : forall it l, Pi it -> Forall Pe l -> Pe (ECallClosure it l))
  (EHGrab : forall n e, Pe e -> Pe (EGrab n e))
  (EHTryExpr : forall e, Pe e -> Pe (ETryExpr e))
  (EHIn : forall f, Pe (EIn f)).
Hypotheses
  (IHItem : forall n s c t ids ti, Forall Px ids -> Pi (Item n s c t ids ti))
  (XStr : forall s, Px (IdStr s)) (XF64 : forall x, Px (IdF64 x)) (XExpr : forall e, Pe e -> Px (IdExpr e))
  (CClosure : forall a c b, Pe b -> Pc (Closure a c b)).

Fixpoint v_ind (v : value) : Pv v :=
  match v with
  | VRef i => HRef i
  | VReturn => HReturn
  | VBool b sec => HBool b sec (opt_all_all (forall_all v_ind) sec)
  | VF64 x sec => HF64 x sec (opt_all_all (forall_all v_ind) sec)
  | VVec4 v => HVec4 v
  | VMat4 m => HMat4 m
  | VStr s => HStr s
  | VArray l => HArray l (forall_all v_ind l)
  | VObject l => HObject l (forall_all (P := fun kv => Pv (snd kv)) (fun kv => v_ind (snd kv)) l)
  | VLink l => HLink l
  | VUnsafeRef r p => HUnsafe r p
  | VRust i => HRust i
  | VNone => HNone
  | VSome v => HSome v (v_ind v)
  | VOk v => HOk v (v_ind v)
  | VErr m t => HErr m t (v_ind m)
  | VThread t => HThread t
  | VClosure c md rel => HClosure c md rel (c_ind c)
  | VIn c => HIn c
  end
with e_ind (e : expr) : Pe e :=
  match e with
  | ELink l => EHLink l (forall_all e_ind l)
  | EObject l => EHObject l (forall_all (P := fun kv => Pe (snd kv)) (fun kv => e_ind (snd kv)) l)
  | EArray l => EHArray l (forall_all e_ind l)
  | EArrayFill a b => EHArrayFill a b (e_ind a) (e_ind b)
  | EReturn e => EHReturn e (e_ind e)
  | EReturnVoid => EHReturnVoid
  | EBreak l => EHBreak l
  | EContinue l => EHContinue l
  | EBlock l => EHBlock l (forall_all e_ind l)
  | EGo n l => EHGo n l (forall_all e_ind l)
  | ECall f n l => EHCall f n l (forall_all e_ind l)
  | EItem it => EHItem it (i_ind it)
  | EAssign op a b => EHAssign op a b (e_ind a) (e_ind b)
  | EVec4 l => EHVec4 l (forall_all e_ind l)
  | EMat4 l => EHMat4 l (forall_all e_ind l)
  | EFor lb a b c l => EHFor lb a b c l (e_ind a) (e_ind b) (e_ind c) (forall_all e_ind l)
  | EForN k lb n a b l => EHForN k lb n a b l (opt_all_all e_ind a) (e_ind b) (forall_all e_ind l)
  | EForIn k lb n a l => EHForIn k lb n a l (e_ind a) (forall_all e_ind l)
  | EIf c tb cs bs eb =>
      EHIf c tb cs bs eb (e_ind c) (forall_all e_ind tb) (forall_all e_ind cs)
        (forall_all (forall_all e_ind) bs) (opt_all_all (forall_all e_ind) eb)
  | EVar v => EHVar v (v_ind v)
  | ETry e => EHTry e (e_ind e)
  | ESwizzle i e => EHSwizzle i e (e_ind e)
  | EClosure c => EHClosure c (c_ind c)
  | ECallClosure it l => EHCallClosure it l (i_ind it) (forall_all e_ind l)
  | EGrab n e => EHGrab n e (e_ind e)
  | ETryExpr e => EHTryExpr e (e_ind e)
  | EIn f => EHIn f
  end
with i_ind (it : item) : Pi it :=
  match it with Item n s c t ids ti => IHItem n s c t ids ti (forall_all x_ind ids) end
with x_ind (x : idx) : Px x :=
  match x with
  | IdStr s => XStr s
  | IdF64 x => XF64 x
  | IdExpr e => XExpr e (e_ind e)
  end
with c_ind (c : closure) : Pc c :=
  match c with Closure a cu b => CClosure a cu b (e_ind b) end.

Lemma syntax_ind : (forall v, Pv v) /\ (forall e, Pe e) /\ (forall i, Pi i) /\ (forall x, Px x) /\ (forall c, Pc c).
Proof. repeat split; [exact v_ind | exact e_ind | exact i_ind | exact x_ind | exact c_ind]. Qed.
End Ind.
