(** * Calls through values: [call], [call_ret], and receiving: [next], [wait_next].

    Model of /repo/src/dyon_std/mod.rs 1410-1482 [_call], 1484-1559 [call_ret], 2086-2113 [wait_next], [next], on top of
    runtime/mod.rs 1217-1228 [call]. Definitions only.

    Simplifications:
    - modules that were loaded are modules of the environment; [mod_of] says which one a Rust object holds, [lifetimes] gives
      the declared arguments of a function (ast/mod.rs 661-674);
    - a Rust object is locked as long as the call of its function runs ([obj.lock()] lives until the end of the [match]). Locking
      it again from the same thread does not return or panics (documentation of [std::sync::Mutex]): [Panic "locked"]. [held]: the objects that are locked;
    - a call through a value runs in an environment with one level of such calls less ([OOF] without any), and with [n] levels of nesting;
    - whether anybody can still send on an empty channel is an oracle; waiting is [OOF]. *)
From Coq Require Import String List ZArith Bool Arith.
From Verif Require Import AstModel LoadModel Float64 Syntax InterpModel LifetimeModel.
Import ListNotations.
Local Open Scope string_scope.
Local Open Scope nat_scope.
Local Open Scope list_scope.

Record outer := Outer { mod_of : nat -> option nat; lifetimes : func -> list sig_arg; can_send : nat -> rt -> bool }.

(** The environment with these two functions instead of its own. *)
Definition put_calls (E : env) (v : string -> option (M unit)) (r : string -> option (M value)) : env :=
  Env (e_look E) (e_mods E) (fun f => match v f with Some g => g | None => e_void E f end) (fun f => match r f with Some g => g | None => e_ret E f end)
    (e_bin E) (e_un E) (e_lazy E) (e_alloc E) (e_frem E) (e_fpow E) (e_grem E) (e_gpow E) (e_matmul E).

Section Dynamic.
Variables (X : outer) (mods : list modl) (n : nat).

(** 1411-1414, 1486-1488: the source of the calling function *)
Definition calling : M unit := fun s =>
  match r_calls s with
  | [] => Panic "no caller"
  | c :: _ =>
      match nth_error mods (r_mod s) with
      | Some m => match nth_error (m_funs m) (c_index c) with Some _ => Ok tt s | None => Panic "index" end
      | None => Panic "index"
      end
  end.
Definition as_text (v : value) : M string := x <- getv v ;; match x with VStr t => ret t | _ => fail "expected text" end.
Definition as_array (v : value) : M (list value) := x <- getv v ;; match x with VArray l => ret l | _ => fail "expected array" end.
Definition as_object (v : value) : M nat := x <- getv v ;; match x with VRust o => ret o | _ => fail "expected Module" end.

Section At.
Variables (inner : nat -> env) (held : list nat).
(** 1432-1479, 1508-1556 *)
Definition through (o : nat) (name : string) (args : list value) : M (option value) :=
  if existsb (Nat.eqb o) held then panic "locked" else
  match mod_of X o with
  | None => fail "expected Module"
  | Some md =>
      match nth_error mods md with
      | None => panic "index"
      | Some m =>
          match find_function m name 0 with
          | FLoaded i =>
              match nth_error (m_funs m) (Z.to_nat i) with
              | None => panic "index"
              | Some f =>
                  if negb (Nat.eqb (length (fn_args f)) (length args)) then fail "Expected arguments" else
                  match check (lifetimes X f) args with
                  | KErr _ => fail "lifetime"
                  | KPanic => panic "index"
                  | KOk => r <- call_ (inner o) n (FLoaded i) name (map EVar args) md ;; ret (fst r)
                  end
              end
          | _ => fail "Could not find function"
          end
      end
  end.
(** 1410-1482 *)
Definition call_value : M unit :=
  x <- (calling ;;; a <- pop ;; f <- pop ;; m <- pop ;; name <- as_text f ;; args <- as_array a ;; o <- as_object m ;; ret (o, name, args)) ;;
  match x with (o, name, args) => through o name args ;;; ret tt end.
(** 1484-1559 *)
Definition call_ret_value : M value :=
  x <- (calling ;;; a <- pop ;; f <- pop ;; m <- pop ;; args <- as_array a ;; name <- as_text f ;; o <- as_object m ;; ret (o, name, args)) ;;
  match x with (o, name, args) => r <- through o name args ;; match r with Some v => ret v | None => fail "Expected some return value" end end.
End At.

(** 2100-2113 *)
Definition next_value : M value :=
  v <- pop ;; x <- getv v ;;
  match x with
  | VIn ch => r <- recv ch ;; ret (match r with Some y => VSome y | None => VNone end)
  | _ => fail "expected in"
  end.
(** 2086-2098 *)
Definition wait_next_value : M value :=
  v <- pop ;; x <- getv v ;;
  match x with
  | VIn ch => r <- recv ch ;; match r with Some y => ret (VSome y) | None => fun s => if can_send X ch s then OOF else Ok VNone s end
  | _ => fail "expected in"
  end.
End Dynamic.

(** The environment with [call], [call_ret], [next] and [wait_next]: [d] levels of calls through values. *)
Fixpoint dyn_env (X : outer) (E : env) (n d : nat) (held : list nat) : env :=
  let c := match d with O => oof | S d => call_value X (e_mods E) n (fun o => dyn_env X E n d (o :: held)) held end in
  let r := match d with O => oof | S d => call_ret_value X (e_mods E) n (fun o => dyn_env X E n d (o :: held)) held end in
  put_calls E
    (fun f => if String.eqb f "call" then Some c else None)
    (fun f => if String.eqb f "call_ret" then Some r else if String.eqb f "next" then Some next_value
              else if String.eqb f "wait_next" then Some (wait_next_value X) else None).

(** A program of several modules, each loaded without imports (dyon_std/mod.rs 1079-1115 [load], lib.rs 566-700). *)
Definition with_files (E : env) (ext : list (string * callee)) (fs : list file) : env :=
  Env (e_look E) (map (load ext) fs) (e_void E) (e_ret E) (e_bin E) (e_un E) (e_lazy E) (e_alloc E) (e_frem E) (e_fpow E) (e_grem E) (e_gpow E) (e_matmul E).
