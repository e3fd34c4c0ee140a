(** * C75: What the values for the nodes say. *)
From Coq Require Import String List ZArith Bool Arith.
From Verif Require Import Float64 Syntax InterpModel.
From Verif Require Import TypeModel LifetimeModel NodesModel NodeValModel.
From Verif Require TypeTextModel TypeTextSpec.
Import ListNotations.
Local Open Scope string_scope.
Local Open Scope nat_scope.
Local Open Scope list_scope.

(** An object with a value under a name *)
Definition holds (v : value) (k : string) (w : value) : Prop := exists o, v = VObject o /\ NoDup (map fst o) /\ In (k, w) o.
Definition number (z : Z) : value := VF64 (f_of_Z z) None.
Definition maybe {A} (f : A -> value) (o : option A) : value := match o with Some x => VSome (f x) | None => VNone end.
Definition node_number (i : nat) : value := number (Z.of_nat i).
(** the text for the lifetime of an argument *)
Inductive lt_says : lt -> string -> Prop :=
| Ls_arg i d : TypeTextSpec.number_text i d -> lt_says (LtArg i) ("Arg(" ++ d ++ ")")
| Ls_return : lt_says LtReturn "Return"
| Ls_default : lt_says LtDefault "Default".
Definition keys : list string :=
  ["kind"; "children"; "names"; "parent"; "ty"; "alias"; "mutable"; "try"; "grab_level"; "source_offset"; "source_length"; "start"; "end";
   "lifetime"; "declaration"; "op"; "lts"].
(** The object [v] has the parts of the node [n] at [p], and nothing else. *)
Record tells (v : value) (n : fnode) (p : place) : Prop := {
  te_kind : holds v "kind" (VStr (kind_text (f_kind n)));
  te_children : holds v "children" (VArray (map node_number (f_children n)));
  te_names : holds v "names" (VArray (map VStr (x_names (f_data n))));
  te_parent : holds v "parent" (maybe node_number (f_parent n));
  te_type : match x_ty (f_data n) with
            | None => holds v "ty" VNone
            | Some t => exists d, TypeTextModel.description t = Some d /\ holds v "ty" (VSome (VStr d))
            end;
  te_alias : holds v "alias" (maybe VStr (x_alias (f_data n)));
  te_mutable : holds v "mutable" (VBool (x_mut (f_data n)) None);
  te_try : holds v "try" (VBool (x_try (f_data n)) None);
  te_grab : holds v "grab_level" (number (x_grab (f_data n)));
  te_offset : holds v "source_offset" (number (p_offset p));
  te_length : holds v "source_length" (number (p_length p));
  te_start : holds v "start" (number (p_start p));
  te_end : holds v "end" (number (p_end p));
  te_lifetime : holds v "lifetime" (maybe VStr (x_lifetime (f_data n)));
  te_decl : holds v "declaration" (maybe node_number (f_decl n));
  te_op : holds v "op" (maybe (fun o => VStr (op_text o)) (x_op (f_data n)));
  te_lts : exists l, Forall2 lt_says (f_lts n) l /\ holds v "lts" (VArray (map VStr l));
  te_keys : forall k w, holds v k w -> In k keys }.

(** A node without its list of operators, which is not told. After the operators are replaced by calls it is not used. *)
Definition forget (n : fnode) : fnode :=
  let d := f_data n in
  FNode (Data (x_kind d) (x_alias d) (x_names d) (x_ty d) (x_mut d) (x_try d) (x_grab d) (x_lifetime d) (x_op d) [])
    (f_parent n) (f_children n) (f_decl n) (f_lts n).
(** Numbers that [f64] has, a grab level of [u16], and a type that can be written in a program, or none, or the type of
    what has no value. *)
Definition exact (z : Z) : Prop := (0 <= z <= 2 ^ 53)%Z.
Definition said (t : ty) : Prop := TypeTextSpec.sayable t \/ t = TVoid \/ t = TUnreachable.
Record plain (n : fnode) (p : place) : Prop := {
  pl_children : Forall (fun i => exact (Z.of_nat i)) (f_children n);
  pl_parent : forall i, f_parent n = Some i -> exact (Z.of_nat i);
  pl_decl : forall i, f_decl n = Some i -> exact (Z.of_nat i);
  pl_grab : (0 <= x_grab (f_data n) < 2 ^ 16)%Z;
  pl_place : exact (p_offset p) /\ exact (p_length p) /\ exact (p_start p) /\ exact (p_end p);
  pl_type : forall t, x_ty (f_data n) = Some t -> said t }.
