(** * Independent specification of the graph that the checkers work on.

    The meaning of a graph of nodes is a forest: this file says which forest a text stands for, what
    becomes of the operators in it, which declarations can be seen from a place in it, and what a
    sorted copy of a graph is. The record of the data of one node and the names of operators and
    kinds are shared with NodesModel.v; the algorithms there are not used. *)
From Coq Require Import String List Bool Arith ZArith Sorting.Sorted.
From Verif Require Import Syntax Float64 TypeModel LifetimeModel PrintModel NodesModel.
Import ListNotations.
Local Open Scope string_scope.
Local Open Scope nat_scope.
Local Open Scope list_scope.

(** ** Trees and graphs *)
Inductive ntree := NT (d : data) (ts : list ntree).
Definition t_data (t : ntree) : data := match t with NT d _ => d end.
Definition t_children (t : ntree) : list ntree := match t with NT _ ts => ts end.

(** the tree below node [i] *)
Inductive reads (g : fgraph) : nat -> ntree -> Prop :=
| Reads i n ts : nth_error g i = Some n -> Forall2 (reads g) (f_children n) ts -> reads g i (NT (f_data n) ts).

(** parents and children agree *)
Record tree_ok (g : fgraph) : Prop := {
  to_child : forall i n c, nth_error g i = Some n -> In c (f_children n) ->
    exists cn, nth_error g c = Some cn /\ f_parent cn = Some i;
  to_nodup : forall i n, nth_error g i = Some n -> NoDup (f_children n);
  to_parent : forall i n p, nth_error g i = Some n -> f_parent n = Some p ->
    exists pn, nth_error g p = Some pn /\ In i (f_children pn) }.
(** parents come before their children, and children in the order of the text *)
Record in_order (g : fgraph) : Prop := {
  io_parent : forall i n p, nth_error g i = Some n -> f_parent n = Some p -> p < i;
  io_sorted : forall i n, nth_error g i = Some n -> StronglySorted Peano.lt (f_children n) }.

(** ** What a text stands for *)

(** The syntax tree with its tokens. A type is one piece, and so are the types in an extra signature. *)
Inductive stx :=
| SNode (name : string) (body : list stx)
| SValue (m : meta)
| SType (name : string) (inner : list meta)
| SSig (name : string) (inner : list meta).
Fixpoint tokens (t : stx) : list meta :=
  match t with
  | SNode name body => MStart name :: flat_map tokens body ++ [MEnd name]
  | SValue m => [m]
  | SType name inner => MStart name :: inner ++ [MEnd name]
  | SSig name inner => MStart name :: inner ++ [MEnd name]
  end.
(** the parser of types reads this piece as [t] *)
Definition type_is (P : type_parser) (name : string) (inner : list meta) (t : ty) : Prop :=
  forall rest, P name (MStart name :: inner ++ MEnd name :: rest) = Some (length inner + 2, t).

(** what a value says about the node it is in *)
Definition says (m : meta) (d d' : data) : Prop :=
  match m with
  | MString n v => d' = set_string n v d
  | MBool n v => d' = set_bool n v d
  | MF64 n v => set_f64 n v d = NOk d'
  | _ => False
  end.
(** [stands P t l]: the piece [t] of the body of a node changes the data of the node from [d] to [d'] and adds the
    trees [l] to its children. *)
Inductive stands (P : type_parser) : stx -> data -> data -> list ntree -> Prop :=
| St_node name k body d d' ts : kind_new name = Some k -> is_type k = false -> is_sig_type k = false ->
    all_stand P body (blank k (start_ty k)) d' ts -> stands P (SNode name body) d d [NT d' ts]
| St_value m d d' : says m d d' -> stands P (SValue m) d d' []
| St_type name k inner t d : kind_new name = Some k -> is_type k = true -> type_is P name inner t ->
    stands P (SType name inner) d (with_ty t d) []
| St_sig name k inner t d : kind_new name = Some k -> is_sig_type k = true -> type_is P name inner t ->
    stands P (SSig name inner) d d [NT (blank k (Some t)) []]
with all_stand (P : type_parser) : list stx -> data -> data -> list ntree -> Prop :=
| As_nil d : all_stand P [] d d []
| As_cons t body d d' d'' l l' : stands P t d d' l -> all_stand P body d' d'' l' -> all_stand P (t :: body) d d'' (l ++ l').
(** a file: nodes only *)
Inductive file_stands (P : type_parser) : list stx -> list ntree -> Prop :=
| Fs_nil : file_stands P [] []
| Fs_cons name body d t l l' : stands P (SNode name body) d d [t] -> file_stands P l l' ->
    file_stands P (SNode name body :: l) (t :: l').

(** ** How a forest is stored: every node before its children, in the order of the text *)
Fixpoint size (t : ntree) : nat := match t with NT _ ts => S (fold_right (fun t n => size t + n) 0 ts) end.
Fixpoint places (b : nat) (ts : list ntree) : list nat :=
  match ts with [] => [] | t :: ts => b :: places (b + size t) ts end.
(** [lay b p t]: the nodes of [t] from place [b] on, below the node [p] *)
Fixpoint lay (b : nat) (p : option nat) (t : ntree) : list fnode :=
  match t with
  | NT d ts => FNode d p (places (S b) ts) None [] ::
               (fix lays (b' : nat) (l : list ntree) : list fnode :=
                  match l with [] => [] | t :: l => lay b' (Some b) t ++ lays (b' + size t) l end) (S b) ts
  end.
Fixpoint lays (b : nat) (p : option nat) (l : list ntree) : list fnode :=
  match l with [] => [] | t :: l => lay b p t ++ lays (b + size t) p l end.

(** ** What becomes of operators *)
Definition argument (t : ntree) : ntree := NT (blank K_CallArg None) [t].
(** the call that stands for an operator; it keeps the other data of the node of the operator *)
Definition op_call (d : data) (b : binop) (l r : ntree) : ntree :=
  NT (with_binops [] (to_call (binop_name b) d)) [argument l; argument r].
(** [a + b - c] is [(a + b) - c] *)
Definition op_calls (d : data) (b : binop) (l r : ntree) (rest : list (binop * ntree)) : ntree :=
  fold_left (fun acc x => op_call (blank (x_kind d) None) (fst x) acc (snd x)) rest (op_call d b l r).
Definition as_argument (t : ntree) : ntree := NT (with_kind K_CallArg (t_data t)) (t_children t).
(** one node with operands that are already without operators: sums and products of one part are the part *)
Definition without_operator (d : data) (ts : list ntree) : ntree :=
  match x_binops d, ts with
  | b :: bs, l :: r :: rest => op_calls d b l r (combine bs rest)
  | _, [t] => match unop_name (x_kind d) with
              | Some name => NT (to_call name d) [as_argument t]
              | None => if is_kind (x_kind d) K_Add || is_kind (x_kind d) K_Mul then t else NT d ts
              end
  | _, _ => NT d ts
  end.
Fixpoint without_operators (t : ntree) : ntree :=
  match t with NT d ts => without_operator d (map without_operators ts) end.

(** what the grammar says about operators (assets/syntax.txt, rules 28-30, 50, 205-208): one operand more than operators
    (the letter x of a swizzle, rule 92, counts as an operator without operands), an operand of [!], [-] or a norm is an expression without operators of its own, and operators are within something *)
Fixpoint operators_fit (top : bool) (t : ntree) : Prop :=
  match t with
  | NT d ts =>
      ((x_binops d = [] \/ (ts = [] /\ length (x_binops d) = 1)) \/ (length ts = S (length (x_binops d)) /\ top = false)) /\
      (x_kind d = K_Add \/ x_kind d = K_Mul -> top = false) /\
      (unop_name (x_kind d) <> None -> x_binops d = [] /\ forall t, In t ts -> x_kind (t_data t) = K_Expr /\ x_binops (t_data t) = []) /\
      (fix all (l : list ntree) : Prop := match l with [] => True | t :: l => operators_fit false t /\ all l end) ts
  end.

(** ** Sorting in memory *)

(** [g'] is [g] with node [i] at place [p i] (crate tree_mem_sort: all children are sorted in memory, and no child is
    stored before its parent) *)
Record sorted_by (p : nat -> nat) (g g' : fgraph) : Prop := {
  sb_length : length g' = length g;
  sb_inj : forall i j, i < length g -> j < length g -> p i = p j -> i = j;
  sb_node : forall i n, nth_error g i = Some n ->
    nth_error g' (p i) = Some (FNode (f_data n) (option_map p (f_parent n)) (map p (f_children n)) (f_decl n) (f_lts n));
  sb_order : in_order g' }.

(** ** The names that variables and functions are looked up by *)

(** [mut] is a part of the name of a function, a call, and the call of a closure: [f(mut,_)] *)
Definition marks (g : fgraph) (n : fnode) : list bool :=
  flat_map (fun c => match nth_error g c with
                     | Some m => match f_kind m with K_Arg | K_CallArg => [x_mut (f_data m)] | _ => [] end
                     | None => []
                     end) (f_children n).
Definition mark (b : bool) : string := if b then "mut" else "_".
Definition marked (x : string) (l : list bool) : string :=
  match l with [] => x | b :: l => (x ++ "(" ++ fold_left (fun s b => s ++ "," ++ mark b) l (mark b) ++ ")")%string end.
Definition first_item (g : fgraph) (n : fnode) : option nat :=
  find (fun c => match nth_error g c with Some m => is_kind (f_kind m) K_Item | None => false end) (f_children n).
(** the words of [\f word(x)] are a part of the name of the variable, unless it is a property *)
Definition word_of (g : fgraph) (i : nat) (n : fnode) : option string :=
  match f_children n, f_parent n with
  | [], Some p =>
      match nth_error g p with
      | Some pn => match f_kind pn, first_item g pn with
                   | K_CallClosure, Some it => if it =? i then f_name pn else None
                   | _, _ => None
                   end
      | None => None
      end
  | _, _ => None
  end.
Definition new_names (g : fgraph) (i : nat) (n : fnode) : list string :=
  let l := x_names (f_data n) in
  match f_kind n with
  | K_Fn | K_Call | K_CallClosure =>
      if existsb id (marks g n) then match l with y :: _ => [marked y (marks g n)] | [] => [] end else l
  | K_Item => match word_of g i n, l with Some w, y :: l => (y ++ "__" ++ w)%string :: l | _, _ => l end
  | _ => l
  end.
(** what is called has a name if an argument is marked, and the call of a closure with words has a name or a property to call *)
Record names_fit (g : fgraph) : Prop := {
  nf_marked : forall i n, nth_error g i = Some n -> In (f_kind n) [K_Fn; K_Call; K_CallClosure] -> In true (marks g n) -> f_name n <> None;
  nf_word : forall i n w, nth_error g i = Some n -> f_kind n = K_CallClosure -> f_name n = Some w ->
    exists it m, first_item g n = Some it /\ nth_error g it = Some m /\ (f_children m = [] -> f_name m <> None) }.

(** ** Scopes *)
Definition looping (k : kind) : Prop :=
  In k [K_ForN; K_Sum; K_Prod; K_SumVec4; K_ProdVec4; K_Min; K_Max; K_Sift; K_Any; K_All; K_LinkFor; K_Vec4UnLoop;
        K_ForIn; K_SumIn; K_ProdIn; K_MinIn; K_MaxIn; K_AnyIn; K_AllIn; K_SiftIn; K_LinkIn].
Definition has_name (g : fgraph) (i : nat) (x : string) : Prop := exists n, nth_error g i = Some n /\ f_name n = Some x.
(** [p] is a loop over [x] *)
Definition loops_over (g : fgraph) (p : nat) (x : string) : Prop :=
  exists n, nth_error g p = Some n /\ looping (f_kind n) /\ In x (x_names (f_data n)).
(** the statement [j] is [it := ...] *)
Definition introduces (g : fgraph) (j it : nat) : Prop :=
  exists n a an l ln m, nth_error g j = Some n /\ hd_error (f_children n) = Some a /\ nth_error g a = Some an /\
    x_op (f_data an) = Some OpAssign /\ hd_error (f_children an) = Some l /\ nth_error g l = Some ln /\
    hd_error (f_children ln) = Some it /\ nth_error g it = Some m /\ ~ (f_kind m = K_Item /\ f_children m <> []).
(** the last [x := ...] before the part [c] of [p] *)
Definition local_before (g : fgraph) (c p : nat) (x : string) (it : nat) : Prop :=
  exists n l j m r, nth_error g p = Some n /\ f_children n = l ++ j :: m ++ c :: r /\ introduces g j it /\ has_name g it x /\
    forall j' it', In j' m -> introduces g j' it' -> ~ has_name g it' x.
(** the argument or current object [x] of the function or closure [p] *)
Definition is_parameter (g : fgraph) (a : nat) (x : string) : Prop :=
  has_name g a x /\ exists n, nth_error g a = Some n /\ (f_kind n = K_Arg \/ f_kind n = K_Current).
Definition parameter (g : fgraph) (p : nat) (x : string) (a : nat) : Prop :=
  exists n l r, nth_error g p = Some n /\ (f_kind n = K_Fn \/ f_kind n = K_Closure) /\ f_children n = l ++ a :: r /\
    is_parameter g a x /\ forall a', In a' l -> ~ is_parameter g a' x.

(** What [x] means in the part [c] of [p], as far as [p] says: a loop first, then statements, then parameters. *)
Inductive way := WLoop | WLocal | WParam.
Inductive binds (g : fgraph) (c p : nat) (x : string) : way -> nat -> Prop :=
| Bi_loop : loops_over g p x -> binds g c p x WLoop p
| Bi_local it : ~ loops_over g p x -> local_before g c p x it -> binds g c p x WLocal it
| Bi_param a : ~ loops_over g p x -> (forall it, ~ local_before g c p x it) -> parameter g p x a -> binds g c p x WParam a.

(** The places to look at for the item [i], from the inside to the outside. [grab] and [grab 'n] ask for a variable from
    outside of [n] closures; [l] is the number of closures still to leave, and a closure is left only when [l] is not 0. *)
Definition asked (g : fgraph) (q : nat) (l : Z) : Z :=
  match nth_error g q with
  | Some n => if is_kind (f_kind n) K_Grab then Z.max 1 (x_grab (f_data n)) else l
  | None => l
  end.
Definition is_closure (g : fgraph) (p : nat) : Prop := exists n, nth_error g p = Some n /\ f_kind n = K_Closure.
Inductive outwards (g : fgraph) (i : nat) : nat -> nat -> nat -> Z -> Prop :=
| Ow_start n p : nth_error g i = Some n -> f_parent n = Some p -> outwards g i 0 i p (asked g p 0)
| Ow_closure k c p l n q : outwards g i k c p l -> nth_error g p = Some n -> f_kind n = K_Closure -> f_parent n = Some q ->
    l <> 0%Z -> outwards g i (S k) p q (asked g q (l - 1))
| Ow_step k c p l n q : outwards g i k c p l -> nth_error g p = Some n -> f_kind n <> K_Closure -> f_parent n = Some q ->
    outwards g i (S k) p q (asked g q l).

(** [d] is the nearest meaning of [x] for the item [i], found at the place [k] where [l] closures are still to leave *)
Definition nearest (g : fgraph) (i : nat) (x : string) (p : nat) (l : Z) (w : way) (d : nat) : Prop :=
  exists k c, outwards g i k c p l /\ binds g c p x w d /\
    forall k' c' p' l', k' < k -> outwards g i k' c' p' l' -> forall w' d', ~ binds g c' p' x w' d'.
Definition meaningless (g : fgraph) (i : nat) (x : string) : Prop :=
  forall k c p l w d, outwards g i k c p l -> ~ binds g c p x w d.

(** [a] is above [i] *)
Inductive above (g : fgraph) (i : nat) : nat -> Prop :=
| Ab_parent n p : nth_error g i = Some n -> f_parent n = Some p -> above g i p
| Ab_step a n p : above g i a -> nth_error g a = Some n -> f_parent n = Some p -> above g i p.
(** what the grammar gives: functions are not within anything, only the last part of a closure is a statement, items have
    names and are within something that is not [grab] or a closure, the level of [grab] is not negative, and there is something on the left of [:=] *)
Record scopes_fit (g : fgraph) : Prop := {
  sf_tree : tree_ok g;
  sf_order : in_order g;
  sf_fn : forall i n, nth_error g i = Some n -> f_kind n = K_Fn -> f_parent n = None;
  sf_item : forall i n r m, nth_error g i = Some n -> f_kind n = K_Item -> above g i r -> nth_error g r = Some m -> f_parent m = None -> f_kind m = K_Fn;
  sf_closure : forall i n l c r j it, nth_error g i = Some n -> f_kind n = K_Closure -> f_children n = l ++ c :: r -> In j l -> ~ introduces g j it;
  sf_within : forall i n, nth_error g i = Some n -> f_kind n = K_Item -> f_name n <> None /\
    exists p m, f_parent n = Some p /\ nth_error g p = Some m /\ f_kind m <> K_Grab /\ f_kind m <> K_Closure;
  sf_level : forall i n, nth_error g i = Some n -> (0 <= x_grab (f_data n))%Z;
  sf_left : forall i n, nth_error g i = Some n -> x_op (f_data n) = Some OpAssign ->
    exists l ln, hd_error (f_children n) = Some l /\ nth_error g l = Some ln /\ f_children ln <> [] }.

(** the assignment [a] declares the item [i], ... *)
Definition declares (g : fgraph) (a i : nat) : Prop :=
  exists an l ln n, nth_error g a = Some an /\ x_op (f_data an) = Some OpAssign /\ hd_error (f_children an) = Some l /\
    nth_error g l = Some ln /\ hd_error (f_children ln) = Some i /\ nth_error g i = Some n /\ ~ (f_kind n = K_Item /\ f_children n <> []).
Definition declared (g : fgraph) (i : nat) : Prop := exists a, declares g a i.
(** the item [i] stands for the variable [x] *)
Definition variable (g : fgraph) (i : nat) (x : string) : Prop :=
  has_name g i x /\ x <> "return" /\ ~ declared g i /\ exists n, nth_error g i = Some n /\ f_kind n = K_Item.
(** The declaration [d] can be used for the variable: it is the nearest one and no closure is left to leave. Not counted are
    the variables of loops and the parameters of the function. *)
Definition refers (g : fgraph) (i : nat) (x : string) (d : nat) : Prop :=
  exists p l w, nearest g i x p l w d /\ (l = 0%Z \/ w = WLoop \/ (w = WParam /\ ~ is_closure g p)).
(** the error that is given when there is no such declaration *)
Definition lacks (g : fgraph) (i : nat) (x : string) (e : nerr) : Prop :=
  (e = N_declaration /\ meaningless g i x) \/
  (e = N_grab_variable /\ exists p l d, nearest g i x p l WLocal d /\ l <> 0%Z) \/
  (e = N_grab_argument /\ exists p l d, nearest g i x p l WParam d /\ l <> 0%Z /\ is_closure g p).
(** the graph without its links *)
Definition bare (g : fgraph) : fgraph := map (fun n => FNode (f_data n) (f_parent n) (f_children n) None []) g.

(** ** Functions, arguments, signatures and calls *)
Definition kind_at (g : fgraph) (k : kind) (c : nat) : bool :=
  match nth_error g c with Some n => is_kind (f_kind n) k | None => false end.
(** the parts of a node that have a kind *)
Definition parts (g : fgraph) (k : kind) (n : fnode) : list nat := filter (kind_at g k) (f_children n).
Definition function (g : fgraph) (f : nat) (x : string) : Prop := exists n, nth_error g f = Some n /\ f_kind n = K_Fn /\ f_name n = Some x.
Definition functions_differ (g : fgraph) : Prop := forall f f' x, function g f x -> function g f' x -> f = f'.
Definition arguments_differ (g : fgraph) : Prop := forall f n a a' x, nth_error g f = Some n -> f_kind n = K_Fn ->
  In a (parts g K_Arg n) -> In a' (parts g K_Arg n) -> has_name g a x -> has_name g a' x -> a = a'.

(** a declared type of an extra signature works with the declared type of the argument or the result *)
Definition type_at (g : fgraph) (c : nat) : option ty := match nth_error g c with Some n => x_ty (f_data n) | None => None end.
Definition works_with (p t : option ty) : Prop := match p, t with Some p, Some t => goes_with p t = true | _, _ => True end.
Record sig_ok (g : fgraph) (fn sn : fnode) : Prop := {
  so_count : length (parts g K_TyArg sn) = length (parts g K_Arg fn);
  so_args : forall j c a, nth_error (parts g K_TyArg sn) j = Some c -> nth_error (parts g K_Arg fn) j = Some a -> works_with (type_at g a) (type_at g c);
  so_ret : forall c, In c (parts g K_TyRet sn) -> works_with (x_ty (f_data fn)) (type_at g c) }.
Definition signatures_fit (g : fgraph) : Prop := forall f n s sn, nth_error g f = Some n -> f_kind n = K_Fn -> x_ty (f_data n) <> None ->
  In s (parts g K_Ty n) -> nth_error g s = Some sn -> x_ty (f_data n) <> Some TVoid /\ sig_ok g n sn.

(** the number of values of the arguments of a call: a swizzle gives one for each of its letters *)
Definition letters (g : fgraph) (s : nat) : nat :=
  match nth_error g s with
  | Some n => length (filter (fun c => kind_at g K_Sw0 c || kind_at g K_Sw1 c || kind_at g K_Sw2 c || kind_at g K_Sw3 c) (f_children n))
  | None => 0
  end.
Definition width (g : fgraph) (a : nat) : nat :=
  match nth_error g a with
  | Some n => match parts g K_Swizzle n with s :: _ => letters g s | [] => 1 end
  | None => 0
  end.
Definition values (g : fgraph) (n : fnode) : nat := fold_right (fun a m => width g a + m) 0 (parts g K_CallArg n).

(** what a call is linked to: [(Some f, [])] for the function [f] of the file, [(None, l)] for one from outside with the constraints [l] *)
Inductive calls (K : outside) (g : fgraph) (n : fnode) : option nat -> list lt -> Prop :=
| Ca_alias a x l : f_name n = Some x -> x_alias (f_data n) = Some a -> o_alias K a x = Some l -> calls K g n None l
| Ca_file x f fn : f_name n = Some x -> x_alias (f_data n) = None -> function g f x -> nth_error g f = Some fn ->
    length (parts g K_Arg fn) = values g n -> calls K g n (Some f) []
| Ca_outside x l : f_name n = Some x -> x_alias (f_data n) = None -> (forall f, ~ function g f x) -> o_fun K x = Some l ->
    length l = values g n -> calls K g n None l.
(** an [in] expression names a function *)
Inductive listens (K : outside) (g : fgraph) (n : fnode) : list lt -> Prop :=
| Li_alias a x l : f_name n = Some x -> x_alias (f_data n) = Some a -> o_alias K a x = Some l -> listens K g n l
| Li_name x : f_name n = Some x -> x_alias (f_data n) = None -> ((exists f, function g f x) \/ o_fun K x <> None) -> listens K g n [].

(** ** Loops without an end: every variable of such a loop is an index somewhere in its body *)
Inductive index_use (g : fgraph) : nat -> Prop :=
| Iu_id c n p pn : nth_error g c = Some n -> f_parent n = Some p -> nth_error g p = Some pn -> f_kind pn = K_Id -> index_use g c
| Iu_up c n p pn : nth_error g c = Some n -> f_parent n = Some p -> nth_error g p = Some pn ->
    (f_kind pn = K_Val \/ f_kind pn = K_Expr \/ ((f_kind pn = K_Mul \/ f_kind pn = K_Add) /\ length (f_children pn) <= 1)) ->
    index_use g p -> index_use g c.
Definition index_loop (k : kind) : Prop :=
  In k [K_ForN; K_Sum; K_Prod; K_SumVec4; K_ProdVec4; K_Min; K_Max; K_Sift; K_Any; K_All; K_LinkFor].
Definition open_loop (g : fgraph) (i : nat) (x : string) : Prop :=
  exists n, nth_error g i = Some n /\ index_loop (f_kind n) /\ parts g K_End n = [] /\ In x (x_names (f_data n)).
Definition range_known (g : fgraph) (i : nat) (x : string) : Prop := exists c, variable g c x /\ refers g c x i /\ index_use g c.

(** what the grammar gives: functions, their arguments, calls and [in] have names, arguments come first in functions, and
    there is something on the left of an assignment *)
Record calls_fit (g : fgraph) : Prop := {
  cf_left : forall i n, nth_error g i = Some n -> x_op (f_data n) <> None -> exists l ln, hd_error (f_children n) = Some l /\ nth_error g l = Some ln /\ f_children ln <> [];
  cf_named : forall i n, nth_error g i = Some n -> In (f_kind n) [K_Fn; K_Arg; K_Call; K_In] -> f_name n <> None;
  cf_first : forall i n, nth_error g i = Some n -> f_kind n = K_Fn -> exists r, f_children n = parts g K_Arg n ++ r }.

(** ** What is wrong with a file that is rejected *)
Inductive wrong (K : outside) (g : fgraph) : nerr -> nat -> Prop :=
| Wr_variable e i x : variable g i x -> lacks g i x e -> wrong K g e i
| Wr_range i x : open_loop g i x -> ~ range_known g i x -> wrong K g N_range i
| Wr_argument f n a a' x : nth_error g f = Some n -> f_kind n = K_Fn -> In a (parts g K_Arg n) -> In a' (parts g K_Arg n) -> a <> a' ->
    has_name g a x -> has_name g a' x -> wrong K g N_dup_argument a
| Wr_void f n s : nth_error g f = Some n -> f_kind n = K_Fn -> x_ty (f_data n) = Some TVoid -> In s (parts g K_Ty n) -> wrong K g N_sig_void s
| Wr_type f n s sn j c a : nth_error g f = Some n -> f_kind n = K_Fn -> x_ty (f_data n) <> None -> In s (parts g K_Ty n) -> nth_error g s = Some sn ->
    nth_error (parts g K_TyArg sn) j = Some c -> nth_error (parts g K_Arg n) j = Some a -> ~ works_with (type_at g a) (type_at g c) -> wrong K g N_sig_type c
| Wr_ret f n s sn c : nth_error g f = Some n -> f_kind n = K_Fn -> x_ty (f_data n) <> None -> In s (parts g K_Ty n) -> nth_error g s = Some sn ->
    In c (parts g K_TyRet sn) -> ~ works_with (x_ty (f_data n)) (type_at g c) -> wrong K g N_sig_type c
| Wr_count f n s sn : nth_error g f = Some n -> f_kind n = K_Fn -> x_ty (f_data n) <> None -> In s (parts g K_Ty n) -> nth_error g s = Some sn ->
    length (parts g K_TyArg sn) <> length (parts g K_Arg n) -> wrong K g N_sig_count s
| Wr_function f f' x : function g f x -> function g f' x -> f <> f' -> wrong K g N_dup_function f
| Wr_alias c n a x : nth_error g c = Some n -> (f_kind n = K_Call \/ f_kind n = K_In) -> f_name n = Some x -> x_alias (f_data n) = Some a ->
    o_alias K a x = None -> wrong K g N_alias c
| Wr_values c n x m : nth_error g c = Some n -> f_kind n = K_Call -> f_name n = Some x -> x_alias (f_data n) = None ->
    ((exists f fn, function g f x /\ nth_error g f = Some fn /\ m = length (parts g K_Arg fn)) \/
     (~ (exists f, function g f x) /\ exists l, o_fun K x = Some l /\ m = length l)) -> m <> values g n -> wrong K g N_count c
| Wr_name c n x : nth_error g c = Some n -> (f_kind n = K_Call \/ f_kind n = K_In) -> f_name n = Some x -> x_alias (f_data n) = None ->
    ~ (exists f, function g f x) -> o_fun K x = None -> wrong K g N_function c.
(** the variables that are declared stand in the order of their declarations *)
Definition locals_in_order (g : fgraph) : Prop := forall a b i j, declares g a i -> declares g b j -> a < b -> i <= j.

(** ** What is known of a file that is accepted: [g] is the graph before and [g'] the graph after linking *)
Definition unlinked (g : fgraph) : Prop := forall i n, nth_error g i = Some n -> f_decl n = None /\ f_lts n = [].
Record right_file (K : outside) (g g' : fgraph) : Prop := {
  ri_bare : bare g' = bare g;
  ri_variables : forall i x, variable g i x -> exists n d, nth_error g' i = Some n /\ f_decl n = Some d /\ refers g i x d;
  ri_ranges : forall i x, open_loop g i x -> range_known g i x;
  ri_arguments : arguments_differ g;
  ri_signatures : signatures_fit g;
  ri_functions : functions_differ g;
  ri_calls : forall c n, nth_error g c = Some n -> f_kind n = K_Call -> exists n', nth_error g' c = Some n' /\ calls K g n (f_decl n') (f_lts n');
  ri_ins : forall c n, nth_error g c = Some n -> f_kind n = K_In -> exists n', nth_error g' c = Some n' /\ f_decl n' = None /\ listens K g n (f_lts n');
  ri_others : forall i n, nth_error g i = Some n -> f_kind n <> K_Call -> f_kind n <> K_In -> (forall x, ~ variable g i x) -> nth_error g' i = Some n }.

(** ** What the grammar gives, as a property of the trees *)
Definition t_kind (t : ntree) : kind := x_kind (t_data t).
Definition of_ (k : kind) (t : ntree) : bool := is_kind (t_kind t) k.
Definition has_names (d : data) : bool := match x_names d with [] => false | _ => true end.
Fixpoint every (Q : ntree -> bool) (t : ntree) : bool := match t with NT d ts => Q (NT d ts) && forallb (every Q) ts end.
(** [x := ...] *)
Definition starts_local (t : ntree) : bool :=
  match t_children t with a :: _ => match x_op (t_data a) with Some OpAssign => true | _ => false end | [] => false end.
Fixpoint first_of (k : kind) (ts : list ntree) : bool :=
  match ts with [] => true | t :: ts => if of_ k t then first_of k ts else forallb (fun t => negb (of_ k t)) ts end.
(** one node and its parts *)
Definition written (t : ntree) : bool :=
  let d := t_data t in
  let ts := t_children t in
  (match t_kind t with K_Item | K_Fn | K_Arg | K_Call | K_In => has_names d | _ => true end) &&
  (match t_kind t with
   | K_CallClosure => (negb (has_names d) || existsb (of_ K_Item) ts) &&
                      (has_names d || negb (existsb (fun t => (of_ K_Arg t || of_ K_CallArg t) && x_mut (t_data t)) ts))
   | K_Grab => forallb (fun t => negb (of_ K_Item t)) ts
   | K_Closure => forallb (fun t => negb (of_ K_Item t)) ts && forallb (fun t => negb (starts_local t)) (removelast ts)
   | K_Fn => first_of K_Arg ts
   | _ => true
   end) &&
  forallb (fun t => negb (of_ K_Fn t)) ts &&
  (match x_op d with None => true | Some _ => match ts with NT _ (_ :: _) :: _ => true | _ => false end end).
(** a part of the file: a function, or something without variables *)
Definition top_level (t : ntree) : bool := every written t && (of_ K_Fn t || every (fun t => negb (of_ K_Item t)) t).
(** before the operators become calls *)
Definition unsimplified (t : ntree) : bool :=
  every (fun t => (0 <=? x_grab (t_data t))%Z &&
                  match t_kind t, x_op (t_data t) with K_Add, Some _ | K_Mul, Some _ => false | _, _ => true end) t.
Definition file_fits (ts : list ntree) : Prop := forall t, In t ts -> unsimplified t = true /\ top_level (without_operators t) = true.
