(** * C53: the text of an operator stands for the function of the standard library that computes it. *)
From Coq Require Import String List.
From Verif Require Import Syntax Float64 PrintModel NodesModel InterpModel StdModel.
Import ListNotations.
Local Open Scope string_scope.
Local Open Scope list_scope.

(** operators that are computed from two values: text and function *)
Definition operators (O : math) : list (string * (value -> value -> pres)) :=
  [("+", StdModel.add); ("-", StdModel.sub); ("*", StdModel.mul O); ("/", StdModel.div); ("%", StdModel.rem O); ("^", StdModel.pow O);
   ("<", StdModel.less); ("<=", StdModel.less_or_equal); (">", StdModel.greater); (">=", StdModel.greater_or_equal); ("==", StdModel.equal); ("!=", StdModel.not_equal)].
Theorem C53_functions : forall O text f, In (text, f) (operators O) -> exists b, assoc text binop_table = Some b /\ forall x y, std_bin O (binop_name b) x y = f x y.
Proof.
  intros O text f I. repeat (destruct I as [I|I]; [injection I as <- <-; eexists; split; [reflexivity|intros; reflexivity]|]). destruct I.
Qed.
Print Assumptions C53_functions.
(** the other operators, and the two operators with one operand *)
Theorem C53_other_functions : map (fun t => option_map binop_name (assoc t binop_table)) ["&&"; "||"; "*."; "x"] = map Some ["and_also"; "or_else"; "dot"; "cross"] /\
  map unop_name [LifetimeModel.K_Not; LifetimeModel.K_Neg; LifetimeModel.K_Norm] = map Some ["not"; "neg"; "norm"] /\
  (forall x, std_un "not" x = StdModel.not x) /\ (forall x, std_un "neg" x = StdModel.neg x).
Proof. repeat split. Qed.
Print Assumptions C53_other_functions.
Example C53_example_function : assoc "%" binop_table = Some PrintModel.Rem /\ binop_name PrintModel.Rem = "rem".
Proof. split; reflexivity. Qed.
