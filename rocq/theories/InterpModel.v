(** * The interpreter.

    Model of /repo/src/runtime/mod.rs, runtime/for_n.rs, runtime/for_in.rs, grab.rs and the parts
    of lib.rs (deep_clone, PartialEq) and module.rs (find_function) they use.

    Simplifications, for the whole file:
    - error messages are reduced to short labels; source ranges and file names are dropped;
    - [Arc] sharing is invisible: values are trees, so [Arc::make_mut] is the identity;
    - an object is an association list in insertion order (HashMap order is unspecified);
    - a Rust panic, an out-of-bounds access or a dangling raw pointer is [Panic];
    - recursion and loops consume fuel; running out of fuel is [OOF], which no theorem counts as
      a result;
    - external functions are parameters of the environment; the random generator, the file
      lookup and [arg_err_index] are left out;
    - a channel keeps its queue after the receiver was dropped (nothing can observe it);
    - [go] records the new runtime; other threads do not run in between. *)
From Coq Require Import String List ZArith Bool Arith Floats.SpecFloat.
From Verif Require Import Float64 Syntax.
Import ListNotations.
Local Open Scope string_scope.
Local Open Scope nat_scope.
Local Open Scope list_scope.

(** ** State *)

(** runtime/mod.rs 20-40 [Call] *)
Record call := Call { c_name : string; c_index : nat; c_stack : nat; c_local : nat; c_current : nat }.

(** What [go] starts (mod.rs 995-1026): the module, stack and call of the new runtime, and the
    function it calls. *)
Record spawn := Spawn { sp_mod : nat; sp_stack : list value; sp_call : call;
                        sp_fn : callee; sp_name : string; sp_args : list expr }.

(** State outside one runtime: channel queues (oldest message first), the senders registered
    on loaded functions (module, function, channel), started threads. *)
Record world := World { w_queues : list (list value); w_senders : list (nat * nat * nat);
                        w_threads : list spawn }.

(** mod.rs 102-129. The stack is stored bottom first; the other stacks top first. *)
Record rt := RT { r_mod : nat; r_stack : list value; r_calls : list call;
                  r_locals : list (string * nat); r_currents : list (string * nat);
                  r_world : world }.

Definition set_mod (m : nat) (s : rt) : rt :=
  RT m (r_stack s) (r_calls s) (r_locals s) (r_currents s) (r_world s).
Definition set_stack (l : list value) (s : rt) : rt :=
  RT (r_mod s) l (r_calls s) (r_locals s) (r_currents s) (r_world s).
Definition set_calls (l : list call) (s : rt) : rt :=
  RT (r_mod s) (r_stack s) l (r_locals s) (r_currents s) (r_world s).
Definition set_locals (l : list (string * nat)) (s : rt) : rt :=
  RT (r_mod s) (r_stack s) (r_calls s) l (r_currents s) (r_world s).
Definition set_currents (l : list (string * nat)) (s : rt) : rt :=
  RT (r_mod s) (r_stack s) (r_calls s) (r_locals s) l (r_world s).
Definition set_world (w : world) (s : rt) : rt :=
  RT (r_mod s) (r_stack s) (r_calls s) (r_locals s) (r_currents s) w.

(** [Vec::truncate] on a top-first list. *)
Definition trunc_top {A} (n : nat) (l : list A) : list A := skipn (length l - n) l.

Inductive outcome (A : Type) :=
| Ok (a : A) (s : rt)
| Err (e : string) (s : rt)
| Panic (w : string)
| OOF.
Arguments Ok {A}. Arguments Err {A}. Arguments Panic {A}. Arguments OOF {A}.

Definition M (A : Type) := rt -> outcome A.
Definition ret {A} (a : A) : M A := fun s => Ok a s.
Definition fail {A} (e : string) : M A := fun s => Err e s.
Definition panic {A} (w : string) : M A := fun _ => Panic w.
Definition oof {A} : M A := fun _ => OOF.
Definition bind {A B} (m : M A) (k : A -> M B) : M B := fun s =>
  match m s with
  | Ok a s' => k a s'
  | Err e s' => Err e s'
  | Panic w => Panic w
  | OOF => OOF
  end.
Notation "x <- m ;; k" := (bind m (fun x => k)) (at level 100, m at next level, right associativity).
Notation "m ;;; k" := (bind m (fun _ => k)) (at level 100, right associativity).

Definition gets {A} (f : rt -> A) : M A := fun s => Ok (f s) s.
Definition modify (f : rt -> rt) : M unit := fun s => Ok tt (f s).
Definition push (v : value) : M unit := modify (fun s => set_stack (r_stack s ++ [v]) s).
Definition push_local (n : string) (i : nat) : M unit :=
  modify (fun s => set_locals ((n, i) :: r_locals s) s).
Definition push_current (n : string) (i : nat) : M unit :=
  modify (fun s => set_currents ((n, i) :: r_currents s) s).
Definition trunc_stack (n : nat) : M unit := modify (fun s => set_stack (firstn n (r_stack s)) s).
Definition trunc_locals (n : nat) : M unit :=
  modify (fun s => set_locals (trunc_top n (r_locals s)) s).
Definition trunc_currents (n : nat) : M unit :=
  modify (fun s => set_currents (trunc_top n (r_currents s)) s).
Definition trunc_calls (n : nat) : M unit :=
  modify (fun s => set_calls (trunc_top n (r_calls s)) s).
Definition stack_len : M nat := gets (fun s => length (r_stack s)).
Definition local_len : M nat := gets (fun s => length (r_locals s)).
Definition current_len : M nat := gets (fun s => length (r_currents s)).
(** Indexing the stack: out of bounds panics. *)
Definition slot (i : nat) : M value := fun s =>
  match nth_error (r_stack s) i with Some v => Ok v s | None => Panic "index" end.
(** [self.stack.pop().expect(TINVOTS)] *)
Definition pop : M value := fun s =>
  match rev (r_stack s) with
  | [] => Panic "TINVOTS"
  | v :: _ => Ok v (set_stack (removelast (r_stack s)) s)
  end.

(** mod.rs 509-511 [get] *)
Definition getv (v : value) : M value := match v with VRef i => slot i | _ => ret v end.

(** mod.rs 60-80 [Flow], [Side] *)
Inductive flow := FContinue | FReturn | FBreak (l : option string) | FContinueLoop (l : option string).
Inductive side := Right | LeftInsert (insert : bool).
Definition res := (option value * flow)%type.

(** ** Environment *)

Inductive pres := POk (v : value) | PErr (e : string) | PPanic (w : string).

(** How variables are found: by the slot number found when loading ([static_stack_id]); or, with the
    feature [debug_lookup], at run time by name, which is an error if the slot number is different.
    [Checked] is no mode of the code: it looks up in both ways and panics with [clash] if either
    way fails or they disagree. *)
Inductive lookup := ByName | BySlot | Checked.
Definition clash : string := "lookup clash".

(** module.rs 30-60: functions and the external prelude. *)
Record modl := Modl { m_funs : list func; m_ext : list (string * callee) }.

Record env := Env {
  e_look : lookup;
  e_mods : list modl;
  e_void : string -> rt -> outcome unit;
  e_ret : string -> rt -> outcome value;
  e_bin : string -> value -> value -> pres;
  e_un : string -> value -> pres;
  (** Lazy invariants of external functions (lib.rs 82-88). *)
  e_lazy : string -> list (list lazy);
  (** Can an array of this length be allocated? *)
  e_alloc : Z -> bool;
  e_frem : f64 -> f64 -> f64;
  e_fpow : f64 -> f64 -> f64;
  e_grem : f32 -> f32 -> f32;
  e_gpow : f32 -> f32 -> f32;
  e_matmul : mat4 -> mat4 -> mat4 }.

(** module.rs 792-815 [find_function]: last loaded function of that name, else last external. *)
Fixpoint find_last (name : string) (i : nat) (fs : list func) (acc : option nat) : option nat :=
  match fs with
  | [] => acc
  | f :: fs => find_last name (S i) fs (if String.eqb (fn_name f) name then Some i else acc)
  end.
Fixpoint find_ext (name : string) (l : list (string * callee)) (acc : callee) : callee :=
  match l with
  | [] => acc
  | (n, c) :: l => find_ext name l (if String.eqb n name then c else acc)
  end.
Definition find_function (m : modl) (name : string) (relative : nat) : callee :=
  match find_last name 0 (m_funs m) None with
  | Some i => FLoaded (Z.of_nat i - Z.of_nat relative)
  | None => find_ext name (m_ext m) FNone
  end.

(** ** Values *)

Fixpoint assoc {A} (k : string) (l : list (string * A)) : option A :=
  match l with
  | [] => None
  | (k', v) :: l => if String.eqb k' k then Some v else assoc k l
  end.
Fixpoint assoc_set {A} (k : string) (v : A) (l : list (string * A)) : list (string * A) :=
  match l with
  | [] => []
  | (k', v') :: l => if String.eqb k' k then (k', v) :: l else (k', v') :: assoc_set k v l
  end.
Fixpoint list_set {A} (i : nat) (x : A) (l : list A) : list A :=
  match l, i with
  | [], _ => []
  | _ :: l, O => x :: l
  | y :: l, S i => y :: list_set i x l
  end.

(** A raw pointer: a stack slot and a path inside the value stored there. *)
Definition ptr := (nat * list step)%type.
Fixpoint rd (v : value) (p : list step) : option value :=
  match p with
  | [] => Some v
  | SKey k :: p =>
      match v with
      | VObject l => match assoc k l with Some x => rd x p | None => None end
      | _ => None
      end
  | SIdx i :: p =>
      match v with
      | VArray l => match nth_error l i with Some x => rd x p | None => None end
      | _ => None
      end
  end.
Fixpoint wr (v : value) (p : list step) (y : value) : option value :=
  match p with
  | [] => Some y
  | SKey k :: p =>
      match v with
      | VObject l =>
          match assoc k l with
          | Some x => match wr x p y with Some x' => Some (VObject (assoc_set k x' l)) | None => None end
          | None => None
          end
      | _ => None
      end
  | SIdx i :: p =>
      match v with
      | VArray l =>
          match nth_error l i with
          | Some x => match wr x p y with Some x' => Some (VArray (list_set i x' l)) | None => None end
          | None => None
          end
      | _ => None
      end
  end.
Definition pread (p : ptr) : M value :=
  v <- slot (fst p) ;; match rd v (snd p) with Some x => ret x | None => panic "dangling" end.
Definition pwrite (p : ptr) (y : value) : M unit :=
  v <- slot (fst p) ;;
  match wr v (snd p) y with
  | Some v' => modify (fun s => set_stack (list_set (fst p) v' (r_stack s)) s)
  | None => panic "dangling"
  end.

(** lib.rs 279-320 [deep_clone]. Chains of references consume fuel: [DOOF]. *)
Inductive dres := DOk (v : value) | DPanic | DOOF.
Definition dmap_arr (f : value -> dres) : list value -> list value + dres :=
  fix go l :=
    match l with
    | [] => inl []
    | x :: l =>
        match f x with
        | DOk y => match go l with inl l' => inl (y :: l') | inr d => inr d end
        | d => inr d
        end
    end.
Definition dmap_obj (f : value -> dres) : list (string * value) -> list (string * value) + dres :=
  fix go l :=
    match l with
    | [] => inl []
    | (k, x) :: l =>
        match f x with
        | DOk y => match go l with inl l' => inl ((k, y) :: l') | inr d => inr d end
        | d => inr d
        end
    end.
Fixpoint deep_val (via : nat -> dres) (v : value) : dres :=
  match v with
  | VObject l => match dmap_obj (deep_val via) l with inl l' => DOk (VObject l') | inr d => d end
  | VArray l => match dmap_arr (deep_val via) l with inl l' => DOk (VArray l') | inr d => d end
  | VRef i => via i
  | VUnsafeRef _ _ => DPanic
  | _ => DOk v
  end.
Fixpoint deep_clone (n : nat) (stack : list value) (v : value) : dres :=
  deep_val (fun i =>
    match n with
    | O => DOOF
    | S n => match nth_error stack i with Some w => deep_clone n stack w | None => DPanic end
    end) v.
Definition deep (n : nat) (v : value) : M value := fun s =>
  match deep_clone n (r_stack s) v with
  | DOk w => Ok w s
  | DPanic => Panic "deep_clone"
  | DOOF => OOF
  end.

(** lib.rs 323-338 [PartialEq]; objects compare as maps. *)
Definition forall2b {A} (f : A -> A -> bool) : list A -> list A -> bool :=
  fix go l1 l2 :=
    match l1, l2 with
    | [], [] => true
    | x :: l1, y :: l2 => f x y && go l1 l2
    | _, _ => false
    end.
Fixpoint veq (a b : value) {struct a} : bool :=
  match a with
  | VBool x _ => match b with VBool y _ => Bool.eqb x y | _ => false end
  | VF64 x _ => match b with VF64 y _ => feq x y | _ => false end
  | VStr x => match b with VStr y => String.eqb x y | _ => false end
  | VObject l =>
      match b with
      | VObject l' =>
          Nat.eqb (length l) (length l') &&
          (fix go (l : list (string * value)) : bool :=
             match l with
             | [] => true
             | (k, x) :: l => match assoc k l' with Some y => veq x y | None => false end && go l
             end) l
      | _ => false
      end
  | VArray l =>
      match b with
      | VArray l' =>
          (fix go (l1 l2 : list value) : bool :=
             match l1, l2 with
             | [], [] => true
             | x :: l1, y :: l2 => veq x y && go l1 l2
             | _, _ => false
             end) l l'
      | _ => false
      end
  | _ => false
  end.

(** link.rs 252-282 [Link::push] on contents. *)
Definition link_push (l : list lelem) (v : value) : option (list lelem) :=
  match v with
  | VBool b _ => Some (l ++ [LBool b])
  | VF64 x _ => Some (l ++ [LF64 x])
  | VStr s => Some (l ++ [LStr s])
  | VLink l' => Some (l ++ l')
  | _ => None
  end.

Definition vmap2 (f : f32 -> f32 -> f32) (a b : vec4) : vec4 :=
  V4 (f (vx a) (vx b)) (f (vy a) (vy b)) (f (vz a) (vz b)) (f (vw a) (vw b)).
Definition vmap1 (f : f32 -> f32) (a : vec4) : vec4 := V4 (f (vx a)) (f (vy a)) (f (vz a)) (f (vw a)).
Definition mmap2 (f : f32 -> f32 -> f32) (a b : mat4) : mat4 :=
  M4 (vmap2 f (mx a) (mx b)) (vmap2 f (my a) (my b)) (vmap2 f (mz a) (mz b)) (vmap2 f (mw a) (mw b)).
Definition vcomp (v : vec4) (i : nat) : option f32 :=
  match i with 0 => Some (vx v) | 1 => Some (vy v) | 2 => Some (vz v) | 3 => Some (vw v) | _ => None end.

(** Index an array with [x as usize]. *)
Definition index_of (x : f64) (len : nat) : option nat :=
  let z := f64_to_usize x in
  if (z <? Z.of_nat len)%Z then Some (Z.to_nat z) else None.

(** ** Evaluating sub-expressions *)
Section Ev.
Context (E : env) (ev : expr -> side -> M res).

(** The common pattern: a value continues, [return] leaves, anything else is an error. *)
Definition vexpr {R} (e : expr) (sd : side) (msg : string)
  (leave : option value -> M R) (k : value -> M R) : M R :=
  r <- ev e sd ;;
  match r with
  | (Some x, FContinue) => k x
  | (x, FReturn) => leave x
  | _ => fail msg
  end.
Definition leave_res (x : option value) : M res := ret (x, FReturn).

(** mod.rs 931-952 [block]: errors leave the stacks as they are. *)
Fixpoint block_go (es : list expr) (last : option value) : M res :=
  match es with
  | [] => ret (last, FContinue)
  | e :: es =>
      r <- ev e Right ;;
      match r with
      | (x, FContinue) => block_go es x
      | _ => ret r
      end
  end.
Definition block (es : list expr) : M res :=
  st <- stack_len ;; lc <- local_len ;; cu <- current_len ;;
  r <- block_go es None ;;
  trunc_stack st ;;; trunc_locals lc ;;; trunc_currents cu ;;; ret r.

(** mod.rs 771-821 [try_msg] *)
Inductive tryr := TOk (v : value) | TErr (m : value) (tr : list string).
Definition try_msg (v : value) : option tryr :=
  match v with
  | VOk x => Some (TOk x)
  | VErr m tr => Some (TErr m tr)
  | VSome x => Some (TOk x)
  | VNone => Some (TErr (VStr "Expected `some(_)`, found `none()`") [])
  | VBool true None => Some (TErr (VStr "This does not make sense, perhaps an array is empty?") [])
  | VBool false _ => Some (TErr (VStr "Must be `true` to have meaning, try add or remove `!`") [])
  | VBool true (Some sec) => Some (TOk (VBool true (Some sec)))
  | VF64 x sec =>
      if fis_nan x then Some (TErr (VStr "Expected number, found `NaN`") [])
      else match sec with
           | None => Some (TErr (VStr "This does not make sense, perhaps an array is empty?") [])
           | Some _ => Some (TOk (VF64 x sec))
           end
  | _ => None
  end.

(** The error path of [?]: mod.rs 842-877, repeated at 2366-2404, 2573-2609, 2649-2685. *)
Definition try_leave (m : value) (tr : list string) : M res :=
  cs <- gets r_calls ;;
  match cs with
  | [] => panic "CSIE"
  | c :: _ =>
      match c_stack c with
      | O => fail "requires ->"
      | S i =>
          v <- slot i ;;
          match v with
          | VReturn => ret (Some (VErr m (tr ++ [c_name c])), FReturn)
          | _ => fail "requires ->"
          end
      end
  end.

(** mod.rs 823-879 [try_fun] *)
Definition try_fun (e : expr) (sd : side) : M res :=
  vexpr e sd "expected something" leave_res (fun x =>
  v <- getv x ;;
  match try_msg v with
  | None => fail "expected ok, err, bool, f64"
  | Some (TOk y) => ret (Some y, FContinue)
  | Some (TErr m tr) => try_leave m tr
  end).

(** mod.rs 707-734 [try_expr] *)
Definition try_expr (e : expr) : M res := fun s =>
  match ev e Right s with
  | Ok (Some x, FContinue) s' => Ok (Some (VOk x), FContinue) s'
  | Ok (None, FContinue) s' => Err "expected something" s'
  | Ok r s' => Ok r s'
  | Err msg s' =>
      (trunc_calls (length (r_calls s)) ;;; trunc_stack (length (r_stack s)) ;;;
       trunc_locals (length (r_locals s)) ;;; trunc_currents (length (r_currents s)) ;;;
       ret (Some (VErr (VStr msg) []), FContinue)) s'
  | Panic w => Panic w
  | OOF => OOF
  end.

(** mod.rs 1801-1832 [swizzle]: on [return] the value is dropped. *)
Fixpoint push_comps (v : vec4) (inds : list nat) : M unit :=
  match inds with
  | [] => ret tt
  | i :: inds =>
      match vcomp v i with
      | Some x => push (vf64 (f64_of_f32 x)) ;;; push_comps v inds
      | None => panic "component"
      end
  end.
Definition swizzle (inds : list nat) (e : expr) : M res :=
  vexpr e Right "expected something" (fun _ => ret (None, FReturn)) (fun x =>
  v <- getv x ;;
  match v with
  | VVec4 w => push_comps w inds ;;; ret (None, FContinue)
  | _ => fail "expected vec4"
  end).

(** mod.rs 1834-1871 [link] *)
Fixpoint link_go (es : list expr) (acc : list lelem) : M (list lelem + res) :=
  match es with
  | [] => ret (inl acc)
  | e :: es =>
      r <- ev e Right ;;
      match r with
      | (Some x, FContinue) =>
          v <- getv x ;;
          match link_push acc v with
          | Some acc => link_go es acc
          | None => fail "expected bool, f64 or str"
          end
      | (None, FContinue) => link_go es acc
      | _ => ret (inr r)
      end
  end.
Definition link (es : list expr) : M res :=
  match es with
  | [] => ret (Some (VLink []), FContinue)
  | _ =>
      st <- stack_len ;; lc <- local_len ;; cu <- current_len ;;
      r <- link_go es [] ;;
      match r with
      | inl acc => trunc_stack st ;;; trunc_locals lc ;;; trunc_currents cu ;;;
                   ret (Some (VLink acc), FContinue)
      | inr r => ret r
      end
  end.

(** mod.rs 1873-1895 [object] *)
Fixpoint object (kvs : list (string * expr)) (acc : list (string * value)) : M res :=
  match kvs with
  | [] => ret (Some (VObject acc), FContinue)
  | (k, e) :: kvs =>
      vexpr e Right "expected something" leave_res (fun x =>
      match assoc k acc with
      | None => object kvs (acc ++ [(k, x)])
      | Some _ => fail "duplicate key"
      end)
  end.

(** mod.rs 1897-1907 [array] *)
Fixpoint array (es : list expr) (acc : list value) : M res :=
  match es with
  | [] => ret (Some (VArray acc), FContinue)
  | e :: es => vexpr e Right "expected something" leave_res (fun x => array es (acc ++ [x]))
  end.

(** mod.rs 1909-1930 [array_fill] *)
Definition array_fill (fill n : expr) : M res :=
  vexpr fill Right "expected something" leave_res (fun f =>
  vexpr n Right "expected something" leave_res (fun m =>
  fv <- getv f ;; mv <- getv m ;;
  match mv with
  | VF64 x _ =>
      let z := f64_to_usize x in
      if e_alloc E z then ret (Some (VArray (repeat fv (Z.to_nat z))), FContinue)
      else panic "capacity overflow"
  | _ => fail "expected number for length"
  end)).

(** ** Items *)

(** mod.rs 247-256: the number used as index inside an array of indices. *)
Definition walk_index (lim : nat) (ind : value) : M f64 :=
  match ind with
  | VF64 x _ => ret x
  | VRef x =>
      if x <? lim then
        v <- slot x ;;
        match v with VF64 y _ => ret y | _ => fail "indices did not match" end
      else panic "index"
  | _ => fail "indices did not match"
  end.
(** mod.rs 232-311: an array of indices. [lim] is the slot that holds it. *)
Fixpoint walk (lim : nat) (inds : list value) (last : bool) (p : ptr) : M ptr :=
  match inds with
  | [] => fail "indices did not match"
  | ind :: rest =>
      x <- walk_index lim ind ;;
      a <- pread p ;;
      match a with
      | VArray l =>
          match index_of x (length l) with
          | None => fail "out of bounds"
          | Some i =>
              let p' := (fst p, snd p ++ [SIdx i]) in
              v <- pread p' ;;
              match rest with
              | [] =>
                  match v with
                  | VRef id => if last then ret p' else if id <? lim then ret (id, []) else panic "index"
                  | _ => ret p'
                  end
              | _ =>
                  match v with
                  | VArray _ => walk lim rest last p'
                  | VRef id =>
                      if id <? lim then
                        w <- slot id ;;
                        match w with
                        | VArray _ => walk lim rest last (id, [])
                        | _ => fail "indices did not match"
                        end
                      else panic "index"
                  | _ => fail "indices did not match"
                  end
              end
          end
      | _ => panic "dangling"
      end
  end.

(** The slot of a computed index, one reference followed (mod.rs 158-164, 219-225). *)
Definition index_slot (i : nat) : M nat :=
  v <- slot i ;; match v with VRef r => ret r | _ => ret i end.

(** mod.rs 202-213, 339-350: a reference found on the way is followed unless it is last. *)
Definition follow (last : bool) (p : ptr) : M ptr :=
  v <- pread p ;;
  match v with
  | VRef id => if last then ret p else (slot id ;;; ret (id, []))
  | _ => ret p
  end.

(** mod.rs 138-361 [item_lookup] *)
Definition item_lookup (p : ptr) (prop : idx) (start j : nat) (insert last : bool) : M (ptr * nat) :=
  v <- pread p ;;
  match v with
  | VObject l =>
      kj <- match prop with
            | IdStr k => ret (k, j)
            | IdExpr _ =>
                i <- index_slot (start + j) ;;
                x <- slot i ;;
                match x with VStr k => ret (k, S j) | _ => fail "expected string" end
            | IdF64 _ => fail "expected string"
            end ;;
      let p' := (fst p, snd p ++ [SKey (fst kj)]) in
      match assoc (fst kj) l with
      | None =>
          if insert && last then
            pwrite p (VObject (l ++ [(fst kj, VReturn)])) ;;; ret (p', snd kj)
          else fail "object has no key"
      | Some _ => q <- follow last p' ;; ret (q, snd kj)
      end
  | VArray l =>
      let at_ (x : f64) (j : nat) : M (ptr * nat) :=
        match index_of x (length l) with
        | None => fail "out of bounds"
        | Some i => q <- follow last (fst p, snd p ++ [SIdx i]) ;; ret (q, j)
        end in
      match prop with
      | IdF64 x => at_ x j
      | IdExpr _ =>
          i <- index_slot (start + j) ;;
          x <- slot i ;;
          match x with
          | VF64 y _ => at_ y (S j)
          | VArray inds => q <- walk i inds last p ;; ret (q, j)
          | _ => fail "expected number"
          end
      | IdStr _ => fail "expected number"
      end
  | _ => fail "look up requires object or array"
  end.

(** mod.rs 2514-2524: computed indices are pushed on the stack. *)
Fixpoint push_ids (ids : list idx) (k : M res) : M res :=
  match ids with
  | [] => k
  | IdExpr e :: ids =>
      vexpr e Right "expected something for index" leave_res (fun x => push x ;;; push_ids ids k)
  | _ :: ids => push_ids ids k
  end.

(** mod.rs 2536-2688: the chain of look-ups; [try_ids] lists the positions followed by [?].
    [?] overwrites the place it unwraps. *)
Fixpoint lookup_ids (ids : list idx) (i : nat) (p : ptr) (start j : nat) (insert : bool)
  (try_ids : list nat) (k : ptr -> M res) : M res :=
  match ids with
  | [] => k p
  | prop :: rest =>
      qj <- item_lookup p prop start j insert (match rest with [] => true | _ => false end) ;;
      let q := fst qj in
      let go tids := lookup_ids rest (S i) q start (snd qj) insert tids k in
      match try_ids with
      | t :: tids =>
          if Nat.eqb t i then
            v <- pread q ;;
            match try_msg v with
            | None => fail "expected ok or err"
            | Some (TOk y) => pwrite q y ;;; go tids
            | Some (TErr m tr) => try_leave m tr
            end
          else go try_ids
      | [] => go []
      end
  end.

(** mod.rs 2409-2480: where the variable lives. The cache [stack_id] of the debug build is left out:
    it keeps the number found once, and the check after it (2467-2480) looks up by name again. *)
Definition find_by_name (name : string) (sid : option nat) : M nat := fun s =>
  match r_calls s with
  | [] => Panic "CSIE"
  | c :: _ =>
      if c_local c <=? length (r_locals s) then
        match assoc name (firstn (length (r_locals s) - c_local c) (r_locals s)) with
        | Some i =>
            if i <=? length (r_stack s) then
              match sid with
              | Some k => if length (r_stack s) - i =? k then Ok i s else Err "lookup not same" s
              | None => Err "lookup not same" s
              end
            else Panic "overflow"
        | None => if String.eqb name "return" then Err "requires ->" s else Err "could not find" s
        end
      else Panic "overflow"
  end.
Definition find_by_slot (sid : option nat) : M nat := fun s =>
  match r_calls s with
  | [] => Panic "CSIE"
  | c :: _ =>
      if c_local c <=? length (r_locals s) then
        match sid with
        | None => Panic "static_stack_id"
        | Some k => if k <=? length (r_stack s) then Ok (length (r_stack s) - k) s else Panic "overflow"
        end
      else Panic "overflow"
  end.
Definition find_slot (name : string) (sid : option nat) : M nat := fun s =>
  match e_look E with
  | ByName => find_by_name name sid s
  | BySlot => find_by_slot sid s
  | Checked =>
      match r_calls s with
      | [] => Panic "CSIE"
      | _ =>
          match find_by_name name sid s, find_by_slot sid s with
          | Ok i _, Ok j _ => if i =? j then Ok i s else Panic clash
          | _, _ => Panic clash
          end
      end
  end.

(** mod.rs 2355-2697 [item] *)
Definition item_ (it : item) (sd : side) : M res :=
  match it with
  | Item name sid current tryf ids try_ids =>
      i0 <- find_slot name sid ;;
      v0 <- slot i0 ;;
      let i := match v0 with VRef r => r | _ => i0 end in
      match ids with
      | [] =>
          if tryf then
            v <- slot i ;;
            match try_msg v with
            | None => fail "expected ok, err, bool, f64"
            | Some (TOk y) => ret (Some y, FContinue)
            | Some (TErr m tr) => try_leave m tr
            end
          else ret (Some (VRef i), FContinue)
      | _ =>
          start <- stack_len ;;
          push_ids ids
            (lookup_ids ids 0 (i, []) start 0
               (match sd with Right => false | LeftInsert b => b end) try_ids
               (fun q =>
                  v <- match sd with
                       | Right => pread q
                       | LeftInsert _ => ret (VUnsafeRef (fst q) (snd q))
                       end ;;
                  trunc_stack start ;;; ret (Some v, FContinue)))
      end
  end.

(** ** Assignment *)

Inductive ares := AOk (v : value) | AErr (e : string) | APanic.

Definition num_op (op : assign_op) (a b : f64) : f64 :=
  match op with
  | OpSet => b
  | OpAdd => fadd a b
  | OpSub => fsub a b
  | OpMul => fmul a b
  | OpDiv => fdiv a b
  | OpRem => e_frem E a b
  | OpPow => e_fpow E a b
  | OpAssign => a
  end.
Definition vec_op (op : assign_op) (a b : vec4) : vec4 :=
  match op with
  | OpSet => b
  | OpAdd => vmap2 gadd a b
  | OpSub => vmap2 gsub a b
  | OpMul => vmap2 gmul a b
  | OpDiv => vmap2 gdiv a b
  | OpRem => vmap2 (e_grem E) a b
  | OpPow => vmap2 (e_gpow E) a b
  | OpAssign => a
  end.
Definition splat (x : f32) : vec4 := V4 x x x x.
(** The variant of a value, as the assignment table distinguishes them. *)
Definition same_kind (a b : value) : bool :=
  match a, b with
  | VObject _, VObject _ | VArray _, VArray _ | VRust _, VRust _ | VClosure _ _ _, VClosure _ _ _ => true
  | (VNone | VSome _), (VNone | VSome _) => true
  | (VOk _ | VErr _ _), (VOk _ | VErr _ _) => true
  | _, _ => false
  end.
Definition ret_set (op : assign_op) (b : value) : ares :=
  match op with OpSet => AOk b | _ => AErr "return has no value" end.
(** mod.rs 1975-2303: new value of the left side [a] for the right side [b]. *)
Definition assign_val (op : assign_op) (a b : value) : ares :=
  match b with
  | VF64 y sec =>
      match a with
      | VF64 x _ => AOk (VF64 (num_op op x y) sec)
      | VVec4 v =>
          match op with
          | OpSet | OpAssign => AErr "expected assigning to a number"
          | _ => AOk (VVec4 (vec_op op v (splat (f32_of_f64 y))))
          end
      | VReturn => ret_set op b
      | VLink l => match op with OpAdd => AOk (VLink (l ++ [LF64 y])) | _ => AErr "link and number" end
      | _ => AErr "expected assigning to a number"
      end
  | VVec4 w =>
      match a with
      | VVec4 v => AOk (VVec4 (vec_op op v w))
      | VReturn => ret_set op b
      | _ => AErr "expected assigning to a vec4"
      end
  | VMat4 n =>
      match a with
      | VMat4 m =>
          match op with
          | OpSet => AOk b
          | OpMul => AOk (VMat4 (e_matmul E m n))
          | OpAdd => AOk (VMat4 (mmap2 gadd m n))
          | OpSub => AOk (VMat4 (mmap2 gsub m n))
          | _ => AErr "mat4"
          end
      | VReturn => ret_set op b
      | _ => AErr "expected assigning to a mat4"
      end
  | VBool y sec =>
      match a with
      | VBool _ _ => match op with OpSet => AOk b | _ => APanic end
      | VReturn => ret_set op b
      | VLink l => match op with OpAdd => AOk (VLink (l ++ [LBool y])) | _ => AErr "link and bool" end
      | _ => AErr "expected assigning to a bool"
      end
  | VStr y =>
      match a with
      | VStr x => match op with OpSet => AOk b | OpAdd => AOk (VStr (x ++ y)%string) | _ => APanic end
      | VReturn => ret_set op b
      | VLink l => match op with OpAdd => AOk (VLink (l ++ [LStr y])) | _ => AErr "link and text" end
      | _ => AErr "expected assigning to text"
      end
  | VLink l2 =>
      match a with
      | VLink l1 =>
          match op with
          | OpSet => AOk b
          | OpAdd => AOk (VLink (l1 ++ l2))
          | OpSub => AOk (VLink (l2 ++ l1))
          | _ => APanic
          end
      | VReturn => ret_set op b
      | _ => AErr "expected assigning to link"
      end
  | VObject _ | VArray _ | VNone | VSome _ | VOk _ | VErr _ _ | VRust _ | VClosure _ _ _ =>
      match a with
      | VReturn => ret_set op b
      | _ => if same_kind a b then match op with OpSet => AOk b | _ => APanic end
             else AErr "expected assigning to same type"
      end
  | VRef _ | VReturn | VUnsafeRef _ _ | VThread _ | VIn _ => AErr "can not use this assignment operator"
  end.

(** mod.rs 1932-2351 [assign] *)
Definition assign (op : assign_op) (left right : expr) : M res :=
  match op with
  | OpAssign =>
      match left with
      | EItem (Item name _ current _ ids _) =>
          vexpr right Right "expected something from the right side" leave_res (fun x =>
          v <- match x with VRef i => slot i | _ => ret x end ;;
          match ids with
          | [] =>
              n <- stack_len ;;
              push_local name n ;;;
              (if current then push_current name n else ret tt) ;;;
              push v ;;; ret (None, FContinue)
          | _ =>
              vexpr left (LeftInsert true) "expected something from the left side" leave_res (fun a =>
              match a with
              | VUnsafeRef r p => pwrite (r, p) v ;;; ret (None, FContinue)
              | _ => panic "expected unsafe reference"
              end)
          end)
      | _ => fail "expected item"
      end
  | _ =>
      vexpr right Right "expected something from the right side" leave_res (fun b =>
      vexpr left (LeftInsert false) "expected something from the left side" leave_res (fun a =>
      p <- match a with
           | VUnsafeRef r p =>
               v <- pread (r, p) ;;
               (match v with
                | VRef i => w <- slot i ;; pwrite (r, p) w
                | _ => ret tt
                end) ;;; ret (r, p)
           | VRef i => slot i ;;; ret (i, [])
           | _ => panic "expected reference"
           end ;;
      bv <- getv b ;;
      av <- pread p ;;
      match assign_val op av bv with
      | AOk v => pwrite p v ;;; ret (None, FContinue)
      | AErr m => fail m
      | APanic => panic "not implemented"
      end))
  end.

(** ** Calls *)

(** mod.rs 514-550 [push_fn], [pop_fn] *)
Definition push_fn (c : call) : M unit := modify (fun s => set_calls (c :: r_calls s) s).
Definition pop_fn (name : string) : M unit := fun s =>
  match r_calls s with
  | [] => Panic "did not call"
  | c :: cs =>
      if String.eqb (c_name c) name then
        (modify (set_calls cs) ;;; trunc_stack (c_stack c) ;;; trunc_locals (c_local c) ;;;
         trunc_currents (c_current c)) s
      else Panic "calling"
  end.
Definition top_index : M nat :=
  gets (fun s => match r_calls s with [] => 0 | c :: _ => c_index c end).

(** mod.rs 1236-1250, 1269-1283: arguments of external functions. *)
Fixpoint push_args (args : list expr) (k : M res) : M res :=
  match args with
  | [] => k
  | e :: args => vexpr e Right "expected something" leave_res (fun x => push x ;;; push_args args k)
  end.
(** mod.rs 1230-1261 [call_void] *)
Definition call_void (args : list expr) (f : string) : M res :=
  push_args args (e_void E f ;;; ret (None, FContinue)).
(** mod.rs 1263-1296 [call_return] *)
Definition call_return (args : list expr) (f : string) : M res :=
  push_args args (v <- e_ret E f ;; ret (Some v, FContinue)).
Definition lift (p : pres) : M res :=
  match p with
  | POk v => ret (Some v, FContinue)
  | PErr e => fail e
  | PPanic w => panic w
  end.
(** mod.rs 1298-1351 [call_binop], through 1715 *)
Definition call_binop (args : list expr) (f : string) : M res :=
  match args with
  | l :: r :: _ =>
      vexpr l Right "expected something" leave_res (fun a =>
      vexpr r Right "expected something" leave_res (fun b =>
      av <- getv a ;; bv <- getv b ;; lift (e_bin E f av bv)))
  | _ => panic "operand"
  end.
(** mod.rs 1353-1389 [call_unop], through 1716 *)
Definition call_unop (args : list expr) (f : string) : M res :=
  match args with
  | e :: _ => vexpr e Right "expected something" leave_res (fun a => av <- getv a ;; lift (e_un E f av))
  | _ => panic "operand"
  end.

(** mod.rs 1403-1428, 1492-1517: the value an early exit gives, if any lazy invariant matches.
    [x] is the argument, [v] the variable it refers to. *)
Fixpoint lazy_exit (ls : list lazy) (x v : value) : option value :=
  match ls with
  | [] => None
  | l :: ls =>
      match l with
      | LzVar c => if veq v c then Some x else lazy_exit ls x v
      | LzOk => match v with VOk y => Some y | _ => lazy_exit ls x v end
      | LzErr => match v with VErr m _ => Some m | _ => lazy_exit ls x v end
      | LzSome => match v with VSome y => Some y | _ => lazy_exit ls x v end
      end
  end.
(** Checks the invariants of argument [i]; without invariants the argument is not looked at. *)
Definition lazy_check (inv : list (list lazy)) (i : nat) (x : value) : M (option value) :=
  match nth_error inv i with
  | None | Some [] => ret None
  | Some ls => v <- getv x ;; ret (lazy_exit ls x v)
  end.
(** mod.rs 1398-1443 *)
Fixpoint push_lazy (inv : list (list lazy)) (i : nat) (args : list expr) (k : M res) : M res :=
  match args with
  | [] => k
  | e :: args =>
      vexpr e Right "expected something" leave_res (fun x =>
      z <- lazy_check inv i x ;;
      match z with
      | Some y => ret (Some y, FContinue)
      | None => push x ;;; push_lazy inv (S i) args k
      end)
  end.
(** mod.rs 1391-1456 [call_lazy] *)
Definition call_lazy (args : list expr) (f : string) : M res :=
  push_lazy (e_lazy E f) 0 args (v <- e_ret E f ;; ret (Some v, FContinue)).

(** mod.rs 1487-1533, 1073-1088: arguments of loaded functions and closures; an argument that
    gives nothing (a swizzle) has pushed its values itself. *)
Fixpoint push_loaded (inv : list (list lazy)) (i : nat) (args : list expr) (k : M res) : M res :=
  match args with
  | [] => k
  | e :: args =>
      r <- ev e Right ;;
      match r with
      | (Some x, FContinue) =>
          z <- lazy_check inv i x ;;
          match z with
          | Some y => ret (Some y, FContinue)
          | None => push x ;;; push_loaded inv (S i) args k
          end
      | (None, FContinue) => push_loaded inv (S i) args k
      | (x, FReturn) => ret (x, FReturn)
      | _ => fail "expected something"
      end
  end.

(** mod.rs 1090-1116, 1535-1561: current objects are passed by reference. *)
Fixpoint push_currents (names : list string) : M unit :=
  match names with
  | [] => ret tt
  | c :: names =>
      cu <- gets r_currents ;;
      match assoc c cu with
      | None => fail "could not find current variable"
      | Some ind => n <- stack_len ;; push_local c n ;;; push (VRef ind) ;;; push_currents names
      end
  end.

Fixpoint push_arg_locals (st : nat) (i : nat) (names : list string) : M unit :=
  match names with
  | [] => ret tt
  | a :: names => push_local a (st + i) ;;; push_arg_locals st (S i) names
  end.

(** mod.rs 1563-1589: a deep copy of the arguments goes to every channel opened on the function. *)
Definition send_all (chans : list nat) (msg : value) (qs : list (list value)) : list (list value) :=
  fold_left (fun qs c => match nth_error qs c with Some q => list_set c (q ++ [msg]) qs | None => qs end)
    chans qs.
Fixpoint deep_all (n : nat) (vs : list value) : M (list value) :=
  match vs with
  | [] => ret []
  | v :: vs => x <- deep n v ;; xs <- deep_all n vs ;; ret (x :: xs)
  end.
Definition send_args (n : nat) (fi st : nat) : M unit :=
  w <- gets r_world ;; md <- gets r_mod ;;
  let chans := map snd (filter (fun x => Nat.eqb (fst (fst x)) md && Nat.eqb (snd (fst x)) fi) (w_senders w)) in
  match chans with
  | [] => ret tt
  | _ =>
      stk <- gets r_stack ;;
      msg <- deep_all n (skipn st stk) ;;
      modify (set_world (World (send_all chans (VArray msg) (w_queues w)) (w_senders w) (w_threads w)))
  end.

(** mod.rs 1135-1163, 1608-1636: what may leave a function body. *)
Definition body_flow (fl : flow) : M unit :=
  match fl with
  | FBreak None => fail "can not break from function"
  | FContinueLoop None => fail "can not continue from function"
  | FBreak (Some _) | FContinueLoop (Some _) => fail "there is no loop labeled"
  | _ => ret tt
  end.

(** mod.rs 1642-1645, 1664-1667, 1681-1684: the source text for the message is looked up first,
    even if a custom source was given. *)
Definition caller_source : M unit := fun s =>
  match r_calls s with
  | [] => Panic "no caller"
  | c :: _ =>
      match nth_error (e_mods E) (r_mod s) with
      | Some m => if c_index c <? length (m_funs m) then Ok tt s else Panic "no caller"
      | None => Panic "no caller"
      end
  end.

(** mod.rs 1165-1213, 1638-1702: the result of a call. *)
Definition finish (src : M unit) (returns : bool) (x : option value) : M res :=
  match returns, x with
  | true, None =>
      v <- pop ;;
      match v with
      | VReturn => src ;;; fail "did not return a value"
      | _ => ret (Some v, FContinue)
      end
  | false, Some _ => src ;;; fail "should not return a value"
  | true, Some VReturn => src ;;; fail "did not return a value"
  | true, b =>
      (** [self.stack.pop();] *)
      modify (fun s => set_stack (removelast (r_stack s)) s) ;;; ret (b, FContinue)
  | false, b => ret (b, FContinue)
  end.

(** mod.rs 1458-1703 [call_loaded]; [relative] is computed by the caller. *)
Definition call_loaded (n : nat) (args : list expr) (f_index : Z) (name : string) (loader : bool) : M res :=
  top <- top_index ;;
  let zi := (f_index + Z.of_nat (if loader then 0%nat else top))%Z in
  md <- gets r_mod ;;
  match nth_error (e_mods E) md with
  | None => panic "no such function"
  | Some m =>
      if (zi <? 0)%Z then panic "no such function" else
      match nth_error (m_funs m) (Z.to_nat zi) with
      | None => panic "no such function"
      | Some f =>
          (if fn_ret f then push VReturn else ret tt) ;;;
          st <- stack_len ;; lc <- local_len ;; cu <- current_len ;;
          push_loaded (fn_lazy f) 0 args (
            push_currents (fn_currents f) ;;;
            send_args n (Z.to_nat zi) st ;;;
            push_fn (Call name (Z.to_nat zi) st lc cu) ;;;
            (if fn_ret f then push_local "return" (st - 1) else ret tt) ;;;
            push_arg_locals st 0 (fn_args f) ;;;
            r <- block (fn_block f) ;;
            body_flow (snd r) ;;;
            pop_fn name ;;;
            finish caller_source (fn_ret f) (fst r))
      end
  end.

(** mod.rs 1710-1730 [call_internal] *)
Definition call_internal (n : nat) (f : callee) (name : string) (args : list expr) (loader : bool) : M res :=
  match f with
  | FVoid g => call_void args g
  | FRet g => call_return args g
  | FLazy g => call_lazy args g
  | FBin g => call_binop args g
  | FUn g => call_unop args g
  | FLoaded i => call_loaded n args i name loader
  | FNone => fail "unknown function"
  end.

(** mod.rs 552-563 [expression_module]: the module is restored on errors too. *)
Definition expression_module (e : expr) (md : nat) : M res := fun s =>
  match ev e Right (set_mod md s) with
  | Ok r s' => Ok r (set_mod (r_mod s) s')
  | Err m s' => Err m (set_mod (r_mod s) s')
  | Panic w => Panic w
  | OOF => OOF
  end.

(** ast/mod.rs 3046-3058 [arg_len]: a swizzle counts for its components. *)
Definition arg_len (args : list expr) : nat :=
  fold_left (fun n a => match a with ESwizzle inds _ => n + length inds | _ => S n end) args 0.

(** mod.rs 1031-1214 [call_closure] *)
Definition call_closure (it : item) (args : list expr) : M res :=
  r <- item_ it Right ;;
  match r with
  | (Some x, FContinue) =>
      v <- getv x ;;
      match v with
      | VClosure (Closure cargs currents body) md rel =>
          let name := match it with Item name _ _ _ _ _ => name end in
          if Nat.eqb (arg_len args) (length cargs) then
            push VReturn ;;;
            st <- stack_len ;; lc <- local_len ;; cu <- current_len ;;
            push_loaded [] 0 args (
              push_currents currents ;;;
              push_fn (Call name rel st lc cu) ;;;
              push_local "return" (st - 1) ;;;
              push_arg_locals st 0 cargs ;;;
              r <- expression_module body md ;;
              body_flow (snd r) ;;;
              pop_fn name ;;;
              finish (ret tt) true (fst r))
          else fail "expected arguments"
      | _ => fail "expected closure"
      end
  | (x, FReturn) => ret (x, FReturn)
  | _ => fail "expected something"
  end.

(** mod.rs 682-705 [in_expr]: opens a channel on a loaded function. *)
Definition in_expr (f : callee) : M res :=
  match f with
  | FLoaded i =>
      top <- top_index ;; md <- gets r_mod ;;
      let zi := (i + Z.of_nat top)%Z in
      match nth_error (e_mods E) md with
      | None => panic "no such function"
      | Some m =>
          if ((0 <=? zi) && (zi <? Z.of_nat (length (m_funs m))))%Z then
            w <- gets r_world ;;
            let ch := length (w_queues w) in
            modify (set_world (World (w_queues w ++ [[]]) (w_senders w ++ [(md, Z.to_nat zi, ch)])
                                     (w_threads w))) ;;;
            ret (Some (VIn ch), FContinue)
          else panic "no such function"
      end
  | _ => fail "expected loaded function"
  end.

(** mod.rs 956-1028 [go]: arguments are deep cloned onto the new stack in reverse order. *)
Fixpoint go_args (n : nat) (args : list expr) (acc : list value) : M (list value + option value) :=
  match args with
  | [] => ret (inl acc)
  | e :: args =>
      vexpr e Right "expected something" (fun x => ret (inr x)) (fun x =>
      v <- deep n x ;; go_args n args (v :: acc))
  end.
Definition go_ (n : nat) (name : string) (args : list expr) : M res :=
  cs <- gets r_calls ;; md <- gets r_mod ;;
  match cs, nth_error (e_mods E) md with
  | c :: _, Some m =>
      r <- go_args n args [] ;;
      match r with
      | inr x => ret (x, FReturn)
      | inl stk =>
          let k := length args in
          let fake := map (fun i => EVar (VRef (k - i - 1))) (seq 0 k) in
          w <- gets r_world ;;
          let t := length (w_threads w) in
          modify (set_world (World (w_queues w) (w_senders w)
            (w_threads w ++ [Spawn md stk (Call (c_name c) (c_index c) 0 0 0)
                               (find_function m name (c_index c)) name fake]))) ;;;
          ret (Some (VThread (Some t)), FContinue)
      end
  | _, _ => panic "CSIE"
  end.

(** ** Conditionals, vectors *)

(** mod.rs 2698-2748 [if_expr] *)
Fixpoint else_if (conds : list expr) (blocks : list (list expr)) (eb : option (list expr)) : M res :=
  match conds, blocks with
  | c :: conds, b :: blocks =>
      vexpr c Right "expected bool from else if condition" leave_res (fun x =>
      v <- getv x ;;
      match v with
      | VBool false _ => else_if conds blocks eb
      | VBool true _ => block b
      | _ => fail "expected bool from else if condition"
      end)
  | _, _ => match eb with Some b => block b | None => ret (None, FContinue) end
  end.
Definition if_expr (c : expr) (tb : list expr) conds blocks eb : M res :=
  vexpr c Right "expected bool from if condition" leave_res (fun x =>
  v <- getv x ;;
  match v with
  | VBool b _ => if b then block tb else else_if conds blocks eb
  | _ => fail "expected bool from if condition"
  end).

(** mod.rs 2845-2856, 2883-2890; [cap]: stop when more than three values were pushed. *)
Fixpoint push_comp_args (sd : side) (cap : option nat) (args : list expr) (k : M res) : M res :=
  match args with
  | [] => k
  | e :: args =>
      r <- ev e sd ;;
      match r with
      | (None, FContinue) | (Some _, FContinue) =>
          (match fst r with Some x => push x | None => ret tt end) ;;;
          n <- stack_len ;;
          match cap with
          | Some st =>
              if n <? st then panic "overflow" else
              if 3 <? n - st then k else push_comp_args sd cap args k
          | None => push_comp_args sd cap args k
          end
      | (x, FReturn) => ret (x, FReturn)
      | _ => fail "expected something"
      end
  end.
(** The range of argument [i] is looked up for the message: a missing argument panics. *)
Definition arg_fail {R} (args : list expr) (i : nat) (msg : string) : M R :=
  if i <? length args then fail msg else panic "index".
Definition pop_num (args : list expr) (i : nat) : M f64 :=
  x <- pop ;; v <- getv x ;;
  match v with VF64 y _ => ret y | _ => arg_fail args i "expected number" end.
Definition pop_vec (args : list expr) (i : nat) : M vec4 :=
  x <- pop ;; v <- getv x ;;
  match v with VVec4 y => ret y | _ => arg_fail args i "expected vec4" end.
(** mod.rs 2843-2881 [vec4] *)
Definition vec4_ (args : list expr) (sd : side) : M res :=
  st <- stack_len ;;
  push_comp_args sd (Some st) args (
    w <- pop_num args 3 ;; z <- pop_num args 2 ;; y <- pop_num args 1 ;; x <- pop_num args 0 ;;
    ret (Some (VVec4 (V4 (f32_of_f64 x) (f32_of_f64 y) (f32_of_f64 z) (f32_of_f64 w))), FContinue)).
(** mod.rs 2882-2920 [mat4] *)
Definition mat4_ (args : list expr) (sd : side) : M res :=
  push_comp_args sd None args (
    w <- pop_vec args 3 ;; z <- pop_vec args 2 ;; y <- pop_vec args 1 ;; x <- pop_vec args 0 ;;
    ret (Some (VMat4 (M4 (V4 (vx x) (vx y) (vx z) (vx w)) (V4 (vy x) (vy y) (vy z) (vy w))
                         (V4 (vz x) (vz y) (vz z) (vz w)) (V4 (vw x) (vw y) (vw z) (vw w)))), FContinue)).

(** ** Loops *)

(** for_n.rs 54-94: does a [break]/[continue] with label [l] concern the loop labelled [label]? *)
Definition concerns (label l : option string) : bool :=
  match l with
  | None => true
  | Some x => match label with Some y => String.eqb x y | None => false end
  end.

(** What one iteration gives: go on, stop here, [return], [break], [continue]. *)
Inductive bstep (A : Type) :=
| BNext (a : A) | BStop (a : A) | BRet (x : option value)
| BBreak (l : option string) (a : A) | BCont (l : option string) (a : A).
Arguments BNext {A}. Arguments BStop {A}. Arguments BRet {A}. Arguments BBreak {A}. Arguments BCont {A}.
(** How a loop ended. *)
Inductive lres (A : Type) := LDone (a : A) (fl : flow) | LRet (x : option value).
Arguments LDone {A}. Arguments LRet {A}.

(** The loop shared by all functions of for_n.rs and for_in.rs: [test] gives the counter or
    ends the loop, [next] advances it or ends the loop. *)
Fixpoint loop {A} (n : nat) (label : option string) (st lc : nat) (test : M (option value))
  (body : value -> A -> M (bstep A)) (next : M bool) (a : A) : M (lres A) :=
  match n with
  | O => oof
  | S n =>
      t <- test ;;
      match t with
      | None => ret (LDone a FContinue)
      | Some ind =>
          b <- body ind a ;;
          let advance a :=
            ok <- next ;;
            if ok : bool then
              trunc_stack st ;;; trunc_locals lc ;;; loop n label st lc test body next a
            else ret (LDone a FContinue) in
          match b with
          | BNext a => advance a
          | BStop a => ret (LDone a FContinue)
          | BRet x => ret (LRet x)
          | BBreak l a => ret (LDone a (if concerns label l then FContinue else FBreak l))
          | BCont l a => if concerns label l then advance a else ret (LDone a (FContinueLoop l))
          end
      end
  end.

(** for_n.rs 40-52 [cond!], 96-107 [inc!] *)
Definition count_test (st : nat) (stop : f64) : M (option value) :=
  v <- slot (st - 1) ;;
  match v with
  | VF64 x _ => ret (if flt x stop then Some (vf64 x) else None)
  | _ => fail "expected number"
  end.
Definition count_next (st : nat) : M bool :=
  v <- slot (st - 1) ;;
  match v with
  | VF64 x sec =>
      modify (fun s => set_stack (list_set (st - 1) (VF64 (fadd x f1) sec) (r_stack s)) s) ;;; ret true
  | _ => fail "expected number"
  end.
(** for_n.rs 3-38 [start!], [end!] *)
Definition num_expr {A} (e : expr) (k : f64 -> M (lres A)) : M (lres A) :=
  vexpr e Right "expected number" (fun x => ret (LRet x)) (fun x =>
  v <- getv x ;; match v with VF64 y _ => k y | _ => fail "expected number" end).

(** The frame of a counting loop: for_n.rs 114-144 and its copies. *)
Definition for_n_core {A} (n : nat) (label : option string) (name : string) (start : option expr)
  (stop : expr) (body : nat -> value -> A -> M (bstep A)) (a : A) : M (lres A) :=
  prev_st <- stack_len ;; prev_lc <- local_len ;;
  let go (x : f64) :=
    num_expr stop (fun y =>
    i <- stack_len ;; push_local name i ;;; push (vf64 x) ;;;
    st <- stack_len ;; lc <- local_len ;;
    r <- loop n label st lc (count_test st y) (body st) (count_next st) a ;;
    match r with
    | LDone a fl => trunc_stack prev_st ;;; trunc_locals prev_lc ;;; ret (LDone a fl)
    | LRet x => ret (LRet x)
    end) in
  match start with
  | Some e => num_expr e go
  | None => go f0
  end.

(** for_in.rs 20-33 [iter_val!], 65-78 [iter_val_inc!]: [try_recv] on the channel. *)
Definition recv (ch : nat) : M (option value) := fun s =>
  let w := r_world s in
  match nth_error (w_queues w) ch with
  | Some (m :: q) =>
      Ok (Some m) (set_world (World (list_set ch q (w_queues w)) (w_senders w) (w_threads w)) s)
  | _ => Ok None s
  end.
Definition in_next (ch st : nat) : M bool :=
  m <- recv ch ;;
  match m with
  | Some v =>
      slot (st - 1) ;;;
      modify (fun s => set_stack (list_set (st - 1) v (r_stack s)) s) ;;; ret true
  | None => ret false
  end.
(** The frame of an [in] loop: for_in.rs 85-115 and its copies. [None]: nothing to receive. *)
Definition for_in_core {A} (n : nat) (label : option string) (name : string) (iter : expr)
  (body : nat -> value -> A -> M (bstep A)) (a : A) : M (option (lres A)) :=
  prev_st <- stack_len ;; prev_lc <- local_len ;;
  vexpr iter Right "expected in-type" (fun x => ret (Some (LRet x))) (fun x =>
  v <- getv x ;;
  match v with
  | VIn ch =>
      m <- recv ch ;;
      match m with
      | None => ret None
      | Some m =>
          i <- stack_len ;; push_local name i ;;; push m ;;;
          st <- stack_len ;; lc <- local_len ;;
          r <- loop n label st lc (ret (Some VReturn)) (body st) (in_next ch st) a ;;
          match r with
          | LDone a fl => trunc_stack prev_st ;;; trunc_locals prev_lc ;;; ret (Some (LDone a fl))
          | LRet x => ret (Some (LRet x))
          end
      end
  | _ => fail "expected in"
  end).

(** The body is a block; its value is handled by [some], the absence of one by [none]. *)
Definition block_body {A} (b : list expr) (some : A -> value -> M (bstep A)) (none : A -> M (bstep A))
  (a : A) : M (bstep A) :=
  r <- block b ;;
  match r with
  | (Some x, FContinue) => some a x
  | (None, FContinue) => none a
  | (x, FReturn) => ret (BRet x)
  | (_, FBreak l) => ret (BBreak l a)
  | (_, FContinueLoop l) => ret (BCont l a)
  end.

Definition skip_none {A} (a : A) : M (bstep A) := ret (BNext a).
Definition need_value {A} (a : A) : M (bstep A) := fail "expected a value".
Definition num_step (f : f64 -> f64 -> f64) (a : f64) (x : value) : M (bstep f64) :=
  v <- getv x ;; match v with VF64 y _ => ret (BNext (f a y)) | _ => fail "expected number" end.
Definition vec_step (f : f32 -> f32 -> f32) (a : vec4) (x : value) : M (bstep vec4) :=
  v <- getv x ;; match v with VVec4 y => ret (BNext (vmap2 f a y)) | _ => fail "expected vec4" end.
(** The secret of the body value followed by the index of this loop. *)
Definition add_ind (sec : option (list value)) (ind : value) : option (list value) :=
  match sec with None => Some [ind] | Some l => Some (l ++ [ind]) end.
(** for_n.rs 284-294, 353-363; [better old new] *)
Definition best_step (better : f64 -> f64 -> bool) (ind : M value) (a : f64 * option (list value))
  (x : value) : M (bstep (f64 * option (list value))) :=
  v <- getv x ;;
  match v with
  | VF64 y sec =>
      if fis_nan (fst a) || better (fst a) y then
        i <- ind ;; ret (BNext (y, add_ind sec i))
      else ret (BNext a)
  | _ => fail "expected number"
  end.
(** for_n.rs 421-434, 491-504; [want]: the value that ends the loop *)
Definition find_step (want : bool) (ind : M value) (a : bool * option (list value)) (x : value)
  : M (bstep (bool * option (list value))) :=
  v <- getv x ;;
  match v with
  | VBool y sec =>
      if Bool.eqb y want then i <- ind ;; ret (BStop (want, add_ind sec i)) else ret (BNext a)
  | _ => fail "expected boolean"
  end.
(** for_n.rs 670 *)
Definition sift_step (a : list value) (x : value) : M (bstep (list value)) := ret (BNext (a ++ [x])).

Definition done {A} (fin : A -> option value) (r : lres A) : M res :=
  match r with LDone a fl => ret (fin a, fl) | LRet x => ret (x, FReturn) end.
Definition fin_num (a : f64) : option value := Some (vf64 a).
Definition fin_best (a : f64 * option (list value)) : option value := Some (VF64 (fst a) (snd a)).
Definition fin_find (a : bool * option (list value)) : option value := Some (VBool (fst a) (snd a)).

(** for_n.rs 565-605, for_in.rs 523-575: the items of a link body are evaluated directly. *)
Fixpoint link_items (items : list expr) (acc : list lelem) : M (bstep (list lelem)) :=
  match items with
  | [] => ret (BNext acc)
  | e :: items =>
      r <- ev e Right ;;
      match r with
      | (Some x, FContinue) =>
          v <- getv x ;;
          match link_push acc v with
          | Some acc => link_items items acc
          | None => fail "expected bool, f64 or str"
          end
      | (x, FReturn) => ret (BRet x)
      | (None, FContinue) => link_items items acc
      | (_, FBreak l) => ret (BBreak l acc)
      | (_, FContinueLoop l) => ret (BCont l acc)
      end
  end.
(** The result of an inner link loop as a step of the outer one (608-625, 578-607). *)
Definition pass_on (r : lres (list lelem)) : bstep (list lelem) :=
  match r with
  | LRet x => BRet x
  | LDone a FContinue => BNext a
  | LDone a (FBreak l) => BBreak l a
  | LDone a (FContinueLoop l) => BCont l a
  | LDone a FReturn => BRet None
  end.
(** for_n.rs 542-639; nesting consumes [d]. *)
Fixpoint sub_link_n (d n : nat) (label : option string) (name : string) (start : option expr)
  (stop : expr) (b : list expr) (a : list lelem) : M (lres (list lelem)) :=
  for_n_core n label name start stop (fun _ _ a =>
    match b with
    | ELink items :: _ => link_items items a
    | EForN KLink l2 nm2 st2 sp2 b2 :: _ =>
        match d with
        | O => oof
        | S d => r <- sub_link_n d n l2 nm2 st2 sp2 b2 a ;; ret (pass_on r)
        end
    | _ => panic "link body is not link"
    end) a.
(** for_in.rs 502-621 *)
Fixpoint sub_link_in (d n : nat) (label : option string) (name : string) (iter : expr)
  (b : list expr) (a : list lelem) : M (lres (list lelem)) :=
  r <- for_in_core n label name iter (fun _ _ a =>
    match b with
    | ELink items :: _ => link_items items a
    | EForIn KLink l2 nm2 it2 b2 :: _ =>
        match d with
        | O => oof
        | S d => r <- sub_link_in d n l2 nm2 it2 b2 a ;; ret (pass_on r)
        end
    | _ => panic "link body is not link"
    end) a ;;
  match r with Some r => ret r | None => ret (LDone a FContinue) end.
(** for_n.rs 641-645, for_in.rs 623-627 *)
Definition link_done (r : lres (list lelem)) : M res :=
  match r with
  | LDone a FContinue => ret (Some (VLink a), FContinue)
  | LDone _ fl => ret (None, fl)
  | LRet x => ret (x, FReturn)
  end.

(** for_n.rs: all counting loops. *)
Definition for_n (n : nat) (k : loopk) (label : option string) (name : string) (start : option expr)
  (stop : expr) (b : list expr) : M res :=
  match k with
  | KFor =>
      r <- for_n_core n label name start stop
             (fun _ _ => block_body b (fun a _ => ret (BNext a)) skip_none) tt ;;
      done (fun _ => None) r
  | KSum =>
      r <- for_n_core n label name start stop (fun _ _ => block_body b (num_step fadd) need_value) f0 ;;
      done fin_num r
  | KProd =>
      r <- for_n_core n label name start stop (fun _ _ => block_body b (num_step fmul) need_value) f1 ;;
      done fin_num r
  | KMin =>
      r <- for_n_core n label name start stop
             (fun _ ind => block_body b (best_step (fun m x => flt x m) (ret ind)) need_value) (fnan, None) ;;
      done fin_best r
  | KMax =>
      r <- for_n_core n label name start stop
             (fun _ ind => block_body b (best_step (fun m x => flt m x) (ret ind)) need_value) (fnan, None) ;;
      done fin_best r
  | KAny =>
      r <- for_n_core n label name start stop
             (fun _ ind => block_body b (find_step true (ret ind)) need_value) (false, None) ;;
      done fin_find r
  | KAll =>
      r <- for_n_core n label name start stop
             (fun _ ind => block_body b (find_step false (ret ind)) need_value) (true, None) ;;
      done fin_find r
  | KSift =>
      r <- for_n_core n label name start stop (fun _ _ => block_body b sift_step need_value) [] ;;
      done (fun a => Some (VArray a)) r
  | KSumVec4 =>
      r <- for_n_core n label name start stop
             (fun _ _ => block_body b (vec_step gadd) need_value) (splat (S754_zero false)) ;;
      done (fun a => Some (VVec4 a)) r
  | KProdVec4 =>
      r <- for_n_core n label name start stop
             (fun _ _ => block_body b (vec_step gmul) need_value) (splat (g_of_Z 1)) ;;
      done (fun a => Some (VVec4 a)) r
  | KLink => r <- sub_link_n n n label name start stop b [] ;; link_done r
  end.

(** The first failing [try_recv] gives no value at all (for_in.rs 25). *)
Definition done_in {A} (fin : A -> option value) (r : option (lres A)) : M res :=
  match r with Some r => done fin r | None => ret (None, FContinue) end.
(** for_in.rs: all loops over a channel. There is no vec4 version. The index in a secret is
    read from the stack after the body (247, 384). *)
Definition for_in (n : nat) (k : loopk) (label : option string) (name : string) (iter : expr)
  (b : list expr) : M res :=
  match k with
  | KFor =>
      r <- for_in_core n label name iter
             (fun _ _ => block_body b (fun a _ => ret (BNext a)) skip_none) tt ;;
      done_in (fun _ => None) r
  | KSum =>
      r <- for_in_core n label name iter (fun _ _ => block_body b (num_step fadd) skip_none) f0 ;;
      done_in fin_num r
  | KProd =>
      r <- for_in_core n label name iter (fun _ _ => block_body b (num_step fmul) skip_none) f1 ;;
      done_in fin_num r
  | KMin =>
      r <- for_in_core n label name iter
             (fun st _ => block_body b (best_step (fun m x => flt x m) (slot (st - 1))) need_value)
             (fnan, None) ;;
      done_in fin_best r
  | KMax =>
      r <- for_in_core n label name iter
             (fun st _ => block_body b (best_step (fun m x => flt m x) (slot (st - 1))) need_value)
             (fnan, None) ;;
      done_in fin_best r
  | KAny =>
      r <- for_in_core n label name iter
             (fun st _ => block_body b (find_step true (slot (st - 1))) need_value) (false, None) ;;
      done_in fin_find r
  | KAll =>
      r <- for_in_core n label name iter
             (fun st _ => block_body b (find_step false (slot (st - 1))) need_value) (true, None) ;;
      done_in fin_find r
  | KSift =>
      r <- for_in_core n label name iter (fun _ _ => block_body b sift_step need_value) [] ;;
      done_in (fun a => Some (VArray a)) r
  | KLink => r <- sub_link_in n n label name iter b [] ;; link_done r
  | KSumVec4 | KProdVec4 => panic "no such loop"
  end.

(** mod.rs 2767-2838: the C-style loop. After [continue] the step runs, but the stacks are not
    truncated (2813-2823). *)
Fixpoint for_loop (n : nat) (label : option string) (st lc : nat) (cond step_ : expr) (b : list expr)
  : M (lres unit) :=
  match n with
  | O => oof
  | S n =>
      let run_step (k : M (lres unit)) : M (lres unit) :=
        r <- ev step_ Right ;;
        match r with
        | (None, FContinue) => k
        | (x, FReturn) => ret (LRet x)
        | _ => fail "expected nothing from for step"
        end in
      vexpr cond Right "expected bool from for condition" (fun x => ret (LRet x)) (fun v =>
      match v with
      | VBool false _ => ret (LDone tt FContinue)
      | VBool true _ =>
          r <- block b ;;
          match r with
          | (x, FReturn) => ret (LRet x)
          | (_, FContinue) =>
              run_step (trunc_stack st ;;; trunc_locals lc ;;; for_loop n label st lc cond step_ b)
          | (_, FBreak l) => ret (LDone tt (if concerns label l then FContinue else FBreak l))
          | (_, FContinueLoop l) =>
              if concerns label l then run_step (for_loop n label st lc cond step_ b)
              else ret (LDone tt (FContinueLoop l))
          end
      | _ => fail "expected bool"
      end)
  end.
(** mod.rs 2749-2842 [for_expr] *)
Definition for_expr (n : nat) (label : option string) (init cond step_ : expr) (b : list expr) : M res :=
  prev_st <- stack_len ;; prev_lc <- local_len ;;
  r <- ev init Right ;;
  match r with
  | (None, FContinue) =>
      st <- stack_len ;; lc <- local_len ;;
      r <- for_loop n label st lc cond step_ b ;;
      match r with
      | LRet x => ret (x, FReturn)
      | LDone _ fl => trunc_stack prev_st ;;; trunc_locals prev_lc ;;; ret (None, fl)
      end
  | (x, FReturn) => ret (x, FReturn)
  | _ => fail "expected nothing from for init"
  end.

(** ** Grab (grab.rs) *)

(** A grabbed tree, or [return] inside a grabbed expression. *)
Inductive gres (A : Type) := GOk (a : A) | GRet (x : option value).
Arguments GOk {A}. Arguments GRet {A}.
Definition gbind {A B} (m : M (gres A)) (k : A -> M (gres B)) : M (gres B) :=
  r <- m ;; match r with GOk a => k a | GRet x => ret (GRet x) end.
Definition gret {A} (a : A) : M (gres A) := ret (GOk a).
Definition gmap {A B} (f : A -> M (gres B)) : list A -> M (gres (list B)) :=
  fix go l :=
    match l with
    | [] => gret []
    | x :: l => gbind (f x) (fun y => gbind (go l) (fun l' => gret (y :: l')))
    end.
Definition gopt {A B} (f : A -> M (gres B)) (o : option A) : M (gres (option B)) :=
  match o with None => gret None | Some x => gbind (f x) (fun y => gret (Some y)) end.

(** grab.rs 19-1040 [grab_expr], [grab_item], [grab_block], [grab_for_n] *)
Fixpoint grab_expr (fuel : nat) (lv : nat) (e : expr) {struct e} : M (gres expr) :=
  match e with
  | EGrab l x =>
      if Nat.eqb l lv then
        vexpr x Right "expected something" (fun x => ret (GRet x)) (fun v =>
        w <- deep fuel v ;; gret (EVar w))
      else gret e
  | EReturn x => gbind (grab_expr fuel lv x) (fun x => gret (EReturn x))
  | ETry x => gbind (grab_expr fuel lv x) (fun x => gret (ETry x))
  | EReturnVoid | EBreak _ | EContinue _ | EVar _ | EIn _ => gret e
  | EClosure c => gbind (grab_closure fuel lv c) (fun c => gret (EClosure c))
  | EItem it => gbind (grab_item fuel lv it) (fun it => gret (EItem it))
  | EBlock b => gbind (gmap (grab_expr fuel lv) b) (fun b => gret (EBlock b))
  | EAssign op l r =>
      gbind (grab_expr fuel lv l) (fun l =>
      gbind (grab_expr fuel lv r) (fun r => gret (EAssign op l r)))
  | EIf c tb cs bs eb =>
      gbind (grab_expr fuel lv c) (fun c =>
      gbind (gmap (grab_expr fuel lv) tb) (fun tb =>
      gbind (gmap (grab_expr fuel lv) cs) (fun cs =>
      gbind (gmap (gmap (grab_expr fuel lv)) bs) (fun bs =>
      gbind (gopt (gmap (grab_expr fuel lv)) eb) (fun eb => gret (EIf c tb cs bs eb))))))
  | EGo name args => gbind (gmap (grab_expr fuel lv) args) (fun args => gret (EGo name args))
  | ECall f name args => gbind (gmap (grab_expr fuel lv) args) (fun args => gret (ECall f name args))
  | ECallClosure it args =>
      gbind (grab_item fuel lv it) (fun it =>
      gbind (gmap (grab_expr fuel lv) args) (fun args => gret (ECallClosure it args)))
  | EForN k label name start stop b =>
      gbind (gopt (grab_expr fuel lv) start) (fun start =>
      gbind (grab_expr fuel lv stop) (fun stop =>
      gbind (gmap (grab_expr fuel lv) b) (fun b => gret (EForN k label name start stop b))))
  | EForIn k label name iter b =>
      gbind (grab_expr fuel lv iter) (fun iter =>
      gbind (gmap (grab_expr fuel lv) b) (fun b => gret (EForIn k label name iter b)))
  | EFor label init cond st b =>
      gbind (grab_expr fuel lv init) (fun init =>
      gbind (grab_expr fuel lv cond) (fun cond =>
      gbind (grab_expr fuel lv st) (fun st =>
      gbind (gmap (grab_expr fuel lv) b) (fun b => gret (EFor label init cond st b)))))
  | ELink items => gbind (gmap (grab_expr fuel lv) items) (fun l => gret (ELink l))
  | EObject kvs =>
      gbind (gmap (fun kv => match kv with (k, x) =>
                               gbind (grab_expr fuel lv x) (fun x => gret (k, x)) end) kvs)
        (fun kvs => gret (EObject kvs))
  | EArray items => gbind (gmap (grab_expr fuel lv) items) (fun l => gret (EArray l))
  | EArrayFill f m =>
      gbind (grab_expr fuel lv f) (fun f =>
      gbind (grab_expr fuel lv m) (fun m => gret (EArrayFill f m)))
  | EVec4 args => gbind (gmap (grab_expr fuel lv) args) (fun l => gret (EVec4 l))
  | EMat4 args => gbind (gmap (grab_expr fuel lv) args) (fun l => gret (EMat4 l))
  | ESwizzle inds x => gbind (grab_expr fuel lv x) (fun x => gret (ESwizzle inds x))
  | ETryExpr x => gbind (grab_expr fuel lv x) (fun x => gret (ETryExpr x))
  end
with grab_item (fuel : nat) (lv : nat) (it : item) {struct it} : M (gres item) :=
  match it with
  | Item name sid current tryf ids try_ids =>
      gbind (gmap (grab_idx fuel lv) ids) (fun ids => gret (Item name sid current tryf ids try_ids))
  end
with grab_idx (fuel : nat) (lv : nat) (i : idx) {struct i} : M (gres idx) :=
  match i with
  | IdExpr e => gbind (grab_expr fuel lv e) (fun e => gret (IdExpr e))
  | _ => gret i
  end
with grab_closure (fuel : nat) (lv : nat) (c : closure) {struct c} : M (gres closure) :=
  match c with
  | Closure args cur body => gbind (grab_expr fuel (S lv) body) (fun b => gret (Closure args cur b))
  end.

(** mod.rs 736-769 [closure] *)
Definition closure_ (n : nat) (c : closure) : M res :=
  match c with
  | Closure args cur body =>
      rel <- top_index ;;
      g <- grab_expr n 1 body ;;
      match g with
      | GOk b => md <- gets r_mod ;; ret (Some (VClosure (Closure args cur b) md rel), FContinue)
      | GRet x => ret (x, FReturn)
      end
  end.

(** ** Expressions *)

(** mod.rs 571-679 [expression] *)
Definition expression (n : nat) (e : expr) (sd : side) : M res :=
  match e with
  | ELink items => link items
  | EObject kvs => object kvs []
  | EArray items => array items []
  | EArrayFill f m => array_fill f m
  | EBlock b => block b
  | EReturn x => vexpr x Right "expected something" leave_res (fun v => ret (Some v, FReturn))
  | EReturnVoid => ret (None, FReturn)
  | EBreak l => ret (None, FBreak l)
  | EContinue l => ret (None, FContinueLoop l)
  | EGo name args => go_ n name args
  | ECall f name args => call_internal n f name args false
  | EItem it => item_ it sd
  | EAssign op l r => assign op l r
  | EVec4 args => vec4_ args sd
  | EMat4 args => mat4_ args sd
  | EFor label init cond st b => for_expr n label init cond st b
  | EForN k label name start stop b => for_n n k label name start stop b
  | EForIn k label name iter b => for_in n k label name iter b
  | EIf c tb cs bs eb => if_expr c tb cs bs eb
  | EVar v => ret (Some v, FContinue)
  | ETry x => try_fun x sd
  | ESwizzle inds x => swizzle inds x
  | EClosure c => closure_ n c
  | ECallClosure it args => call_closure it args
  | EGrab _ _ => fail "grab outside closure"
  | ETryExpr x => try_expr x
  | EIn f => in_expr f
  end.
End Ev.

(** The interpreter with [n] levels of nesting and [n] iterations per loop. *)
Fixpoint eval (E : env) (n : nat) (e : expr) (sd : side) : M res :=
  match n with
  | O => oof
  | S n => expression E (eval E n) n e sd
  end.

(** ** Entry points *)

(** mod.rs 1217-1228 [call] *)
Definition call_ (E : env) (n : nat) (f : callee) (name : string) (args : list expr) (md : nat) : M res :=
  fun s =>
  let restore s' := set_mod (r_mod s) (set_calls (trunc_top (length (r_calls s)) (r_calls s')) s') in
  match call_internal E (eval E n) n f name args true (set_mod md s) with
  | Ok r s' => Ok r (restore s')
  | Err m s' => Err m (restore s')
  | Panic w => Panic w
  | OOF => OOF
  end.
(** mod.rs 882-929 [run]: the call stack is not restored on errors. *)
Definition run (E : env) (n : nat) (md : nat) : M unit := fun s =>
  match nth_error (e_mods E) md with
  | None => Panic "index"
  | Some m =>
      match find_function m "main" 0 with
      | FLoaded i =>
          match nth_error (m_funs m) (Z.to_nat i) with
          | None => Panic "index"
          | Some f =>
              match fn_args f with
              | _ :: _ => Err "main should not have arguments" s
              | [] =>
                  match call_internal E (eval E n) n (FLoaded i) "main" [] false (set_mod md s) with
                  | Ok _ s' => Ok tt (set_mod (r_mod s) s')
                  | Err e s' => Err e (set_mod (r_mod s) s')
                  | Panic w => Panic w
                  | OOF => OOF
                  end
              end
          end
      | _ => Err "could not find function main" s
      end
  end.
(** mod.rs 1733-1762 [call_str] *)
Definition call_str (E : env) (n : nat) (name : string) (args : list value) (md : nat) : M unit := fun s =>
  match nth_error (e_mods E) md with
  | None => Panic "index"
  | Some m =>
      match find_function m name 0 with
      | FLoaded i => (call_ E n (FLoaded i) name (map EVar args) md ;;; ret tt) s
      | _ => Err "could not find function" s
      end
  end.
(** mod.rs 1765-1799 [call_str_ret] *)
Definition call_str_ret (E : env) (n : nat) (name : string) (args : list value) (md : nat) : M value := fun s =>
  match nth_error (e_mods E) md with
  | None => Panic "index"
  | Some m =>
      match find_function m name 0 with
      | FNone => Err "could not find function" s
      | f =>
          (r <- call_ E n f name (map EVar args) md ;;
           match r with
           | (Some v, FContinue) => ret v
           | _ => fail "expected something"
           end) s
      end
  end.
(** mod.rs 995-1025: what a started thread computes. *)
Definition thread_rt (w : world) (sp : spawn) : rt := RT (sp_mod sp) (sp_stack sp) [sp_call sp] [] [] w.
Definition thread_run (E : env) (n : nat) (sp : spawn) : M value :=
  r <- call_internal E (eval E n) n (sp_fn sp) (sp_name sp) (sp_args sp) false ;;
  v <- match fst r with Some x => ret x | None => pop end ;;
  deep n v.
