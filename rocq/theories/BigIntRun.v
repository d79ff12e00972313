(** Single-threaded programs over BigInts: sequences of library calls on named values.  A
    name is a position that is never reused; [None] marks a value that was moved or dropped.
    Using such a name, or moving one value twice, is rejected by Rust's ownership rules, and
    ends the run here; so does a panic.  All BigInts share one interner (the static of
    crates/ints/src/big_int.rs:28), which starts empty. *)
From Coq Require Import ZArith List Bool.
From Verif Require Import Base Words BitSliceModel InternModel BigIntModel BigIntSpec.
Import ListNotations.
Local Open Scope Z_scope.

Definition env := list (option Z).

(** The binary operators of crates/ints/src/big_int.rs:433-529. *)
Inductive operator := OAdd | OSub | OMul | ODiv | ORem | OShl | OShr | OAnd | OOr | OXor.

Definition operate (dbg : bool) (o : operator) : Z -> Z -> M Z :=
  match o with
  | OAdd => bi_add dbg | OSub => bi_sub dbg | OMul => bi_mul dbg | ODiv => bi_div dbg
  | ORem => bi_rem dbg | OShl => bi_shl dbg | OShr => bi_shr dbg | OAnd => bi_bitand dbg
  | OOr => bi_bitor dbg | OXor => bi_bitxor dbg
  end.

(** One library call.  [fuel] bounds the iterations of a [while] loop of the library; a run
    in which it does not suffice is not considered. *)
Inductive command :=
| New                                         (* BigInt::new() *)
| From (t : ity) (v : Z)                      (* BigInt::from(v) *)
| Parse (s : list Z) (radix : Z)              (* BigInt::from_str_radix(s, radix) *)
| Clone (a : nat)                             (* a.clone() *)
| Drop (a : nat)                              (* drop(a) *)
| RefRef (o : operator) (a b : nat)           (* &a + &b *)
| ValVal (o : operator) (a b : nat)           (* a + b *)
| ValRef (o : operator) (a b : nat)           (* a + &b, a += &b *)
| RefVal (o : operator) (a b : nat)           (* &a + b *)
| ValInt (o : operator) (a : nat) (t : ity) (v : Z)  (* a + v, a += v *)
| Neg (a : nat)                               (* -a *)
| NegRef (a : nat)                            (* -&a *)
| Not (a : nat)                               (* !a *)
| Abs (a : nat)                               (* a.abs() *)
| Pow (fuel a b : nat)                        (* a.pow(b) *)
| Eq (a b : nat)                              (* a == b *)
| Cmp (a b : nat)                             (* a.cmp(&b) *)
| EqInt (a : nat) (t : ity) (v : Z)           (* a == v *)
| CmpInt (a : nat) (t : ity) (v : Z)          (* a.partial_cmp(&v) *)
| TryFrom (t : ity) (a : nat)                 (* t::try_from(&a) *)
| Truncate (t : ity) (a : nat)                (* t::truncate_from(a) *)
| Saturate (t : ity) (a : nat)                (* t::saturate_from(a) *)
| Show (fuel a : nat)                         (* a.to_string() *)
| ShowHex (fuel a : nat)                      (* format!("{:X}", a) *)
| ShowBin (a : nat).                          (* format!("{:b}", a) *)

(** Commands other than unary minus. *)
Definition no_minus (c : command) : bool := match c with Neg _ | NegRef _ => false | _ => true end.

(** The values that exist. *)
Definition handles (e : env) : list Z := flat_map (fun o => match o with Some h => [h] | None => [] end) e.

(** The value named [i], by reference and by move. *)
Definition borrow (e : env) (i : nat) : res Z :=
  match nth_error e i with Some (Some h) => Ok h | _ => Panic end.
Definition take (e : env) (i : nat) : res (Z * env) :=
  do h <- borrow e i ;; Ok (h, upd e i None).

(** A literal of a primitive type. *)
Definition literal (t : ity) (v : Z) : bool :=
  existsb (Nat.eqb (ibits t)) [8; 16; 32; 64; 128]%nat && in_range t v.

(** Bind the handle that a call returned to a new name; or ignore a result. *)
Definition bind_new (e : env) (m : M Z) (st : store (list Z)) : res (env * store (list Z)) :=
  do (c, st') <- m st ;; Ok (e ++ [Some c], st').
Definition ignoring {A} (e : env) (m : M A) (st : store (list Z)) : res (env * store (list Z)) :=
  do (_, st') <- m st ;; Ok (e, st').

Definition step (dbg : bool) (c : command) (e : env) (st : store (list Z)) : res (env * store (list Z)) :=
  match c with
  | New => bind_new e (lift bi_new) st
  | From t v => if literal t v then bind_new e (bi_from dbg t v) st else Panic
  | Parse s radix =>
    if literal {| ibits := 32; isigned := false |} radix then
      do (r, st') <- bi_from_str_radix dbg s radix st ;;
      match r with
      | inl c => Ok (e ++ [Some c], st')
      | inr _ => Ok (e, st')
      end
    else Panic
  | Clone a => do x <- borrow e a ;; bind_new e (bi_clone dbg x) st
  | Drop a => do (x, e) <- take e a ;; ignoring e (bi_drop x) st
  | RefRef o a b => do x <- borrow e a ;; do y <- borrow e b ;; bind_new e (operate dbg o x y) st
  | ValVal o a b => do (x, e) <- take e a ;; do (y, e) <- take e b ;; bind_new e (by_val (operate dbg o) x y) st
  | ValRef o a b => do (x, e) <- take e a ;; do y <- borrow e b ;; bind_new e (by_val_ref (operate dbg o) x y) st
  | RefVal o a b => do (y, e) <- take e b ;; do x <- borrow e a ;; bind_new e (by_ref_val (operate dbg o) x y) st
  | ValInt o a t v =>
    if literal t v then do (x, e) <- take e a ;; bind_new e (op_int dbg (operate dbg o) t x v) st else Panic
  | Neg a => do (x, e) <- take e a ;; bind_new e (ret (bi_neg x)) st
  | NegRef a => do x <- borrow e a ;; bind_new e (bi_neg_ref dbg x) st
  | Not a => do (x, e) <- take e a ;; bind_new e (bi_not dbg x) st
  | Abs a => do (x, e) <- take e a ;; bind_new e (ret (bi_abs x)) st
  | Pow fuel a b => do (x, e) <- take e a ;; do (y, e) <- take e b ;; bind_new e (bi_pow dbg fuel x y) st
  | Eq a b => do x <- borrow e a ;; do y <- borrow e b ;; ignoring e (reads (fun st => bi_eq st x y)) st
  | Cmp a b => do x <- borrow e a ;; do y <- borrow e b ;; ignoring e (reads (fun st => bi_cmp st x y)) st
  | EqInt a t v =>
    if literal t v then do x <- borrow e a ;; ignoring e (reads (fun st => bi_eq_int dbg t st x v)) st else Panic
  | CmpInt a t v =>
    if literal t v then do x <- borrow e a ;; ignoring e (bi_cmp_int dbg t x v) st else Panic
  | TryFrom t a => if literal t 0 then do x <- borrow e a ;; ignoring e (bi_try_from dbg t x) st else Panic
  | Truncate t a => if literal t 0 then do (x, e) <- take e a ;; ignoring e (bi_truncate dbg t x) st else Panic
  | Saturate t a => if literal t 0 then do (x, e) <- take e a ;; ignoring e (bi_saturate dbg t x) st else Panic
  | Show fuel a => do x <- borrow e a ;; ignoring e (bi_display dbg fuel x) st
  | ShowHex fuel a => do x <- borrow e a ;; ignoring e (bi_upper_hex dbg fuel x) st
  | ShowBin a => do x <- borrow e a ;; ignoring e (bi_binary x) st
  end.

(** A run also records the peak number of interned values that existed between calls. *)
Fixpoint run (dbg : bool) (cs : list command) (e : env) (st : store (list Z)) (peak : nat)
  : res (env * store (list Z) * nat) :=
  match cs with
  | [] => Ok (e, st, peak)
  | c :: cs' =>
    do (e', st') <- step dbg c e st ;;
    run dbg cs' e' st' (Nat.max peak (live (handles e')))
  end.
