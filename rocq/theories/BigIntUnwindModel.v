(** Model of crates/ints/src/big_int.rs when operations panic and the program catches the panic
    ([std::panic::catch_unwind]).

    BigIntModel.v says which result an operation returns; a panic ends its executions.  Here the
    interner is kept: every frame that owns a BigInt drops it while a panic passes through.
    The operations are those of BigIntModel.v, written again with the frames that own their
    operands and temporaries.  Operations of BigIntModel.v that own nothing at any point where
    they can panic, and change the store last, are used as they are ([leaf]): a panic leaves the
    store as it was.  A second panic, in a drop while unwinding, aborts the process. *)
From Coq Require Import ZArith List Bool.
From Verif Require Import Base Words BitSliceModel ElementModel BitwiseModel InternModel BigIntModel BigIntSpec BigIntRun.
Import ListNotations.
Local Open Scope Z_scope.

(** How a call ends: it returns, it panics and leaves the given store behind once all its frames are
    unwound, the process aborts, or the fuel of a loop does not suffice.  No code of its own. *)
Inductive ending (A : Type) := Returned (a : A) (st : istore) | Unwound (st : istore) | Aborted | Starved.
Arguments Returned {A}. Arguments Unwound {A}. Arguments Aborted {A}. Arguments Starved {A}.

(** Plumbing (not part of the crate).  No code. *)
Definition U (A : Type) := istore -> ending A.
Definition uret {A} (a : A) : U A := Returned a.
Definition ubind {A B} (m : U A) (f : A -> U B) : U B := fun st =>
  match m st with Returned a st' => f a st' | Unwound st' => Unwound st' | Aborted => Aborted | Starved => Starved end.
Definition leaf {A} (m : M A) : U A := fun st =>
  match m st with Ok (a, st') => Returned a st' | Panic => Unwound st | Timeout => Starved end.
Notation "'let?' x := e1 'in' e2" := (ubind e1 (fun x => e2))
  (at level 200, x pattern, e1 at level 100, e2 at level 200, right associativity).

(** [m] runs in a frame that owns [h]: a panic of [m] drops [h] (crates/ints/src/big_int.rs:334-341). *)
Definition owning {A} (h : Z) (m : U A) : U A := fun st =>
  match m st with
  | Unwound st' => match bi_drop h st' with Ok (_, st2) => Unwound st2 | _ => Aborted end
  | r => r
  end.
(** Dropping at the end of a scope.  crates/ints/src/big_int.rs [Drop], called by the compiler. *)
Definition u_drop (h : Z) : U unit := leaf (bi_drop h).

(** crates/ints/src/big_int/macros.rs:82-110 [TryFrom<&BigInt>]: the bounds are temporaries. *)
Definition u_try_from (dbg : bool) (t : ity) (a : Z) : U (Z + side) :=
  let? m := leaf (bi_from dbg t (imax t)) in
  let? c := owning m (leaf (reads (fun st => bi_cmp st a m))) in
  let? _ := u_drop m in
  match c with
  | Gt => uret (inr Above)
  | _ =>
    let? m := leaf (bi_from dbg t (imin t)) in
    let? c := owning m (leaf (reads (fun st => bi_cmp st a m))) in
    let? _ := u_drop m in
    match c with
    | Lt => uret (inr Below)
    | _ =>
      let? l := leaf (reads (fun st => bi_slice st a)) in
      let? o := leaf (lift (arr_to_int dbg 64 t l)) in
      uret (match o with Some v => inl v | None => inr Above end)
    end
  end.

(** crates/ints/src/big_int/macros.rs:66-80, 128-138, 140-158: by value. *)
Definition u_try_from_val (dbg : bool) (t : ity) (a : Z) : U (Z + side) :=
  let? r := owning a (u_try_from dbg t a) in
  let? _ := u_drop a in
  uret r.
Definition u_from_checked (dbg : bool) (t : ity) (a : Z) : U (option Z) :=
  let? r := u_try_from_val dbg t a in
  uret (match r with inl v => Some v | inr _ => None end).
Definition u_saturate (dbg : bool) (t : ity) (a : Z) : U Z :=
  let? r := u_try_from_val dbg t a in
  uret (match r with inl v => v | inr Above => imax t | inr Below => imin t end).

(** crates/ints/src/big_int/macros.rs:114-126 [FromTruncating<BigInt>]. *)
Definition u_truncate (dbg : bool) (t : ity) (a : Z) : U Z :=
  let? l := owning a (leaf (reads (fun st => bi_slice st a))) in
  let? o := owning a (leaf (lift (arr_to_int dbg 64 t l))) in
  let v := unwrap_or o (imax t) in
  let? r := owning a (leaf (lift (if isigned t then
      let p := v * (if is_negative a then -1 else 1) in
      if in_range t p then Ok p else if dbg then Panic else Ok (wrap t p)
    else Ok v))) in
  let? _ := u_drop a in
  uret r.

(** crates/ints/src/big_int/macros.rs:185-195 [PartialOrd] with primitives. *)
Definition u_cmp_int (dbg : bool) (t : ity) (a v : Z) : U comparison :=
  let? b := leaf (bi_from dbg t v) in
  let? c := owning b (leaf (reads (fun st => bi_cmp st a b))) in
  let? _ := u_drop b in
  uret c.

(** crates/ints/src/big_int.rs:156-159 [with_slices] and 496-508 [shl], [shr]; [shift_amount] has dropped its temporaries
    when [expect] panics. *)
Definition u_shift_amount (dbg : bool) (b : Z) : U nat :=
  let? r := u_try_from dbg {| ibits := 64; isigned := false |} b in
  match r with
  | inl n => uret (Z.to_nat n)
  | inr _ => leaf (lift Panic)
  end.
Definition u_with_slices {A} (a b : Z) (f : list Z -> list Z -> U A) : U A :=
  let? la := leaf (reads (fun st => bi_slice st a)) in
  let? lb := leaf (reads (fun st => bi_slice st b)) in
  f la lb.
Definition u_shl (dbg : bool) (a b : Z) : U Z :=
  let? out := u_with_slices a b (fun la _ =>
    let? n := u_shift_amount dbg b in leaf (lift (elem_shl 64 la n))) in
  leaf (new_slice dbg out (is_negative a)).
Definition u_shr (dbg : bool) (a b : Z) : U Z :=
  let? out := u_with_slices a b (fun la _ =>
    let? n := u_shift_amount dbg b in leaf (lift (elem_shr dbg 64 la n))) in
  leaf (new_slice dbg out (is_negative a)).

(** crates/ints/src/big_int.rs:433-529, [&a op &b]. *)
Definition u_operate (dbg : bool) (o : operator) (a b : Z) : U Z :=
  match o with
  | OShl => u_shl dbg a b
  | OShr => u_shr dbg a b
  | _ => leaf (operate dbg o a b)
  end.

(** crates/ints/src/big_int/macros.rs:238-260: the operands taken by value are owned by the method. *)
Definition u_by_val (op : Z -> Z -> U Z) (a b : Z) : U Z :=
  let? c := owning a (owning b (op a b)) in
  let? _ := u_drop b in
  let? _ := u_drop a in
  uret c.
Definition u_by_val_ref (op : Z -> Z -> U Z) (a b : Z) : U Z :=
  let? c := owning a (op a b) in
  let? _ := u_drop a in
  uret c.
Definition u_by_ref_val (op : Z -> Z -> U Z) (a b : Z) : U Z :=
  let? c := owning b (op a b) in
  let? _ := u_drop b in
  uret c.

(** crates/ints/src/big_int/macros.rs:31-37 [BigInt op prim]. *)
Definition u_op_int (dbg : bool) (op : Z -> Z -> U Z) (t : ity) (a v : Z) : U Z :=
  let? b := owning a (leaf (bi_from dbg t v)) in
  u_by_val op a b.

(** crates/ints/src/big_int/macros.rs:9-15 [BigInt op= prim] and crates/ints/src/big_int.rs:580-596 [op= BigInt], [op= &BigInt]:
    the right-hand side of the assignment, while [a] stays with the caller. *)
Definition u_assign_int (dbg : bool) (op : Z -> Z -> U Z) (t : ity) (a v : Z) : U Z :=
  let? b := leaf (bi_from dbg t v) in
  u_by_ref_val op a b.

(** crates/ints/src/big_int.rs:531-542 [Not]. *)
Definition u_not (dbg : bool) (a : Z) : U Z :=
  let? l := owning a (leaf (reads (fun st => bi_slice st a))) in
  let? c := owning a (leaf (new_slice dbg (elem_not 64 l) (is_negative a))) in
  let? _ := u_drop a in
  uret c.

(** crates/ints/src/big_int.rs:716-719, the [while] loop; [self] is owned by the caller below.  (The old value of [out]
    is dropped in the loop here and by the frame in the code, both before the panic gets further.) *)
Fixpoint u_pow_loop (dbg : bool) (fuel : nat) (self rhs out : Z) : U (Z * Z) :=
  match fuel with
  | O => fun _ => Starved
  | S fuel' =>
    let? c := owning rhs (owning out (u_cmp_int dbg t_i32 rhs 1)) in
    match c with
    | Gt =>
      let? s := owning rhs (owning out (leaf (bi_clone dbg self))) in
      let? out' := owning rhs (u_by_val (u_operate dbg OMul) out s) in
      let? rhs' := owning out' (u_op_int dbg (u_operate dbg OSub) t_i32 rhs 1) in
      u_pow_loop dbg fuel' self rhs' out'
    | _ => uret (rhs, out)
    end
  end.

(** crates/ints/src/big_int.rs:710-722 [Pow<BigInt>]. *)
Definition u_pow (dbg : bool) (fuel : nat) (self rhs : Z) : U Z :=
  let? z := owning self (owning rhs (leaf (reads (fun st => bi_eq_int dbg t_i32 st rhs 0)))) in
  if z then
    let? one := owning self (owning rhs (leaf (bi_from dbg t_i32 1))) in
    let? _ := u_drop rhs in
    let? _ := u_drop self in
    uret one
  else
    let? out := owning self (owning rhs (leaf (bi_clone dbg self))) in
    let? (rhs, out) := owning self (u_pow_loop dbg fuel self rhs out) in
    let? _ := u_drop rhs in
    let? _ := u_drop self in
    uret out.

(** crates/ints/src/big_int.rs:214-219, the digit loop of [write_base]. *)
Fixpoint u_digits (dbg : bool) (fuel : nat) (base scratch : Z) (digits : list Z) : U (list Z) :=
  match fuel with
  | O => fun _ => Starved
  | S fuel' =>
    let? c := owning scratch (u_cmp_int dbg t_i32 scratch 0) in
    match c with
    | Gt =>
      let? s := owning scratch (leaf (bi_clone dbg scratch)) in
      let? m := owning scratch (u_op_int dbg (u_operate dbg ORem) t_usize s base) in
      let? o := owning scratch (u_from_checked dbg t_u8 m) in
      let? digit := owning scratch (leaf (lift (unwrap o))) in
      let? scratch' := u_op_int dbg (u_operate dbg ODiv) t_usize scratch base in
      u_digits dbg fuel' base scratch' (digits ++ [digit])
    | _ => let? _ := u_drop scratch in uret digits
    end
  end.

(** crates/ints/src/big_int.rs:208-229 [write_base]. *)
Definition u_write_base (dbg : bool) (fuel : nat) (a base : Z) (chars : list Z) : U (list Z) :=
  let? scratch := leaf (bi_clone dbg a) in
  let? digits := u_digits dbg fuel base scratch [] in
  let digits := match digits with [] => [0] | _ => digits end in
  leaf (lift (foldR (fun out d => do c <- unwrap (nth_error chars (Z.to_nat d)) ;; Ok (out ++ [c]))
          (rev digits) [])).
Definition u_display (dbg : bool) (fuel : nat) (a : Z) : U (list Z) :=
  let? s := u_write_base dbg fuel a 10 dec_digits in uret (minus a ++ s).
Definition u_upper_hex (dbg : bool) (fuel : nat) (a : Z) : U (list Z) :=
  let? s := u_write_base dbg fuel a 16 upper_hex in uret (minus a ++ [48; 120] ++ s).

(** crates/ints/src/big_int.rs:661-668 [from_str_radix]: [out] is moved into the product. *)
Fixpoint u_parse_loop (dbg : bool) (radix : Z) (s : list Z) (out : Z) : U (Z + from_str_error) :=
  match s with
  | [] => uret (inl out)
  | c :: s' =>
    match val_from_char c radix with
    | inr e => let? _ := u_drop out in uret (inr e)
    | inl d =>
      let? p := u_op_int dbg (u_operate dbg OMul) t_u32 out radix in
      let? out' := u_op_int dbg (u_operate dbg OAdd) t_u32 p d in
      u_parse_loop dbg radix s' out'
    end
  end.
Definition u_from_str_radix (dbg : bool) (s : list Z) (radix : Z) : U (Z + from_str_error) :=
  let? z := leaf (lift bi_new) in
  u_parse_loop dbg radix s z.

(** ** Programs that catch panics *)

(** A call of BigIntRun.v, or an assigning operator.  [ValRef] and [ValInt] stand for [a + &b] and [a + v] here.
    No code of its own: what a caller writes (crates/ints/src/big_int/macros.rs:9-37, big_int.rs:401-596 for the forms). *)
Inductive call :=
| Call (c : command)
| AssignVal (o : operator) (a b : nat)            (* a += b *)
| AssignRef (o : operator) (a b : nat)            (* a += &b *)
| AssignInt (o : operator) (a : nat) (t : ity) (v : Z).  (* a += v *)

(** What a call does to a program: it goes on with the given values and store, having caught a panic
    ([true]) or not; or the process aborts; or the fuel does not suffice; or Rust rejects the program.  No code of its own. *)
Inductive event := Next (e : env) (st : istore) (panicked : bool) | Abort | Starve | Illegal.

(** Run [m]; the values left after a panic are [e].  No code of its own: [catch_unwind] in the caller. *)
Definition catching {A} (e : env) (m : U A) (k : A -> istore -> event) (st : istore) : event :=
  match m st with
  | Returned a st' => k a st'
  | Unwound st' => Next e st' true
  | Aborted => Abort
  | Starved => Starve
  end.
Definition named (e : env) (m : U Z) : istore -> event := catching e m (fun c st => Next (e ++ [Some c]) st false).
Definition ignored {A} (e : env) (m : U A) : istore -> event := catching e m (fun _ st => Next e st false).

Definition borrowing (e : env) (a : nat) (k : Z -> istore -> event) (st : istore) : event :=
  match borrow e a with Ok x => k x st | _ => Illegal end.
Definition taking (e : env) (a : nat) (k : Z -> env -> istore -> event) (st : istore) : event :=
  match take e a with Ok (x, e') => k x e' st | _ => Illegal end.
Definition typed (t : ity) (v : Z) (k : istore -> event) (st : istore) : event :=
  if literal t v then k st else Illegal.

(** [*self = new]: once the new value exists the old one is dropped; the result gets a new name, like in BigIntRun.v.
    crates/ints/src/big_int/macros.rs:9-15, big_int.rs:563-596. *)
Definition assigned (e : env) (a : nat) (m : Z -> U Z) (st : istore) : event :=
  borrowing e a (fun x => catching e (m x) (fun c =>
    taking e a (fun x e' => named e' (let? _ := u_drop x in uret c)))) st.

Definition do_call (dbg : bool) (c : call) (e : env) (st : istore) : event :=
  match c with
  | Call New => named e (leaf (lift bi_new)) st
  | Call (From t v) => typed t v (named e (leaf (bi_from dbg t v))) st
  | Call (Parse s radix) =>
    typed {| ibits := 32; isigned := false |} radix (catching e (u_from_str_radix dbg s radix) (fun r st =>
      match r with inl c => Next (e ++ [Some c]) st false | inr _ => Next e st false end)) st
  | Call (Clone a) => borrowing e a (fun x => named e (leaf (bi_clone dbg x))) st
  | Call (Drop a) => taking e a (fun x e => ignored e (leaf (bi_drop x))) st
  | Call (RefRef o a b) => borrowing e a (fun x => borrowing e b (fun y => named e (u_operate dbg o x y))) st
  | Call (ValVal o a b) => taking e a (fun x e => taking e b (fun y e => named e (u_by_val (u_operate dbg o) x y))) st
  | Call (ValRef o a b) => taking e a (fun x e => borrowing e b (fun y => named e (u_by_val_ref (u_operate dbg o) x y))) st
  | Call (RefVal o a b) => taking e b (fun y e => borrowing e a (fun x => named e (u_by_ref_val (u_operate dbg o) x y))) st
  | Call (ValInt o a t v) => typed t v (taking e a (fun x e => named e (u_op_int dbg (u_operate dbg o) t x v))) st
  | Call (Neg a) => taking e a (fun x e => named e (uret (bi_neg x))) st
  | Call (NegRef a) => borrowing e a (fun x => named e (leaf (bi_neg_ref dbg x))) st
  | Call (Not a) => taking e a (fun x e => named e (u_not dbg x)) st
  | Call (Abs a) => taking e a (fun x e => named e (uret (bi_abs x))) st
  | Call (Pow fuel a b) => taking e a (fun x e => taking e b (fun y e => named e (u_pow dbg fuel x y))) st
  | Call (Eq a b) => borrowing e a (fun x => borrowing e b (fun y => ignored e (leaf (reads (fun st => bi_eq st x y))))) st
  | Call (Cmp a b) => borrowing e a (fun x => borrowing e b (fun y => ignored e (leaf (reads (fun st => bi_cmp st x y))))) st
  | Call (EqInt a t v) => typed t v (borrowing e a (fun x => ignored e (leaf (reads (fun st => bi_eq_int dbg t st x v))))) st
  | Call (CmpInt a t v) => typed t v (borrowing e a (fun x => ignored e (u_cmp_int dbg t x v))) st
  | Call (TryFrom t a) => typed t 0 (borrowing e a (fun x => ignored e (u_try_from dbg t x))) st
  | Call (Truncate t a) => typed t 0 (taking e a (fun x e => ignored e (u_truncate dbg t x))) st
  | Call (Saturate t a) => typed t 0 (taking e a (fun x e => ignored e (u_saturate dbg t x))) st
  | Call (Show fuel a) => borrowing e a (fun x => ignored e (u_display dbg fuel x)) st
  | Call (ShowHex fuel a) => borrowing e a (fun x => ignored e (u_upper_hex dbg fuel x)) st
  | Call (ShowBin a) => borrowing e a (fun x => ignored e (leaf (bi_binary x))) st
  | AssignVal o a b => taking e b (fun y e => assigned e a (fun x => u_by_ref_val (u_operate dbg o) x y)) st
  | AssignRef o a b => borrowing e b (fun y => assigned e a (fun x => u_operate dbg o x y)) st
  | AssignInt o a t v => typed t v (assigned e a (fun x => u_assign_int dbg (u_operate dbg o) t x v)) st
  end.

(** A program: its calls in order, all panics caught; the peak is that of BigIntRun.v.  [None]: it aborts, starves
    or is rejected.  No code of its own: the caller. *)
Fixpoint catch_run (dbg : bool) (cs : list call) (e : env) (st : istore) (peak : nat) : option (env * istore * nat) :=
  match cs with
  | [] => Some (e, st, peak)
  | c :: cs' =>
    match do_call dbg c e st with
    | Next e' st' _ => catch_run dbg cs' e' st' (Nat.max peak (live (handles e')))
    | _ => None
    end
  end.
