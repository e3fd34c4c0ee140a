(** * Independent specification for the graphs that reach the type checker.

    The type checker (TypecheckModel.v) works on the graph that the passes before it have linked (NodesModel.v). This file
    says how one is seen as the other, and which files give graphs that the rules of TypecheckSpec.v are about. *)
From Coq Require Import String List Bool Arith ZArith.
From Verif Require Import Syntax Float64 TypeModel LifetimeModel TypecheckModel TypecheckSpec PrintModel NodesModel NodesSpec LivesSpec.
Import ListNotations.
Local Open Scope string_scope.
Local Open Scope nat_scope.
Local Open Scope list_scope.

(** node.rs 12-48 [Node]: the fields that typecheck.rs uses, with the link to the declaration *)
Definition checked_node (n : fnode) : gnode :=
  let d := f_data n in
  GNode (x_kind d) (x_names d) (x_alias d) (x_ty d) (x_try d) (f_parent n) (f_children n) (f_decl n) (x_op d).
Definition checked (g : fgraph) : graph := map checked_node g.

(** One node and its parts: only assignments have a left side, with at most one part and without [?]; variables and calls have no
    declared type, arguments of calls are one expression without [?] behind it, and what [:=] declares is a variable without [?]. *)
Definition typable (t : ntree) : bool :=
  let d := t_data t in
  let ts := t_children t in
  (match t_kind t with
   | K_Left => (length ts <=? 1) && negb (x_try d)
   | K_Item => match x_ty d with None => true | Some _ => false end
   | K_Call => match x_ty d with None => true | Some _ => false end &&
               forallb (fun c => negb (x_try (t_data c)) && (length (t_children c) =? 1)) ts
   | _ => true
   end) &&
  (of_ K_Assign t || forallb (fun c => negb (of_ K_Left c)) ts) &&
  (match x_op d with
   | Some OpAssign =>
       match ts with
       | l :: _ => match t_children l with
                   | v :: _ => of_ K_Item v && (negb (x_try (t_data v)) || negb (length (t_children v) =? 0))
                   | [] => true
                   end
       | [] => true
       end
   | _ => true
   end).
Definition typable_file (ts : list ntree) : Prop := forall t, In t ts -> every typable (without_operators t) = true.

(** variables are stored behind the declarations that they are linked to *)
Definition declared_before (g : fgraph) : Prop := forall i n d dn, nth_error g i = Some n -> f_kind n = K_Item -> f_decl n = Some d ->
  nth_error g d = Some dn -> f_kind dn = K_Item -> d < i.

(** the types and the lifetimes of the functions from outside are of the same functions, and their extra signatures fit *)
Record known_fit (K : known) (O : outside) : Prop := {
  kf_count : forall x f l, k_fun K x = Some f -> o_fun O x = Some l -> length l = length (d_tys f);
  kf_sigs : forall x f, k_fun K x = Some f -> d_ext f <> [] -> fitting (d_ext f) (d_tys f) }.
(** the extra signatures of the functions in the file fit *)
Definition own_fit (g : graph) : Prop := forall d f sigs ps, is_node g d f -> g_kind f = K_Fn -> sigs_are g f sigs -> sigs <> [] ->
  Forall2 (fun c p => p = match ty_at g c with Some t => t | None => TAny end)
          (filter (fun c => match nth_error g c with Some m => is_kind (g_kind m) K_Arg | None => false end) (g_children f)) ps ->
  fitting sigs ps.
