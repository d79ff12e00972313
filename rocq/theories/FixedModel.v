(** Model of crates/reals/src/fixed.rs: [Fixed<T, N>] over a primitive integer [T].  A value is
    its raw integer; [T] is an [ity] (BitSliceModel.v) and [N] a [nat].  Only primitive [T] are
    modelled.  [Pow::pow] and [Real::log] are [todo!()] in the source and not modelled. *)
From Coq Require Import ZArith List Bool.
From Verif Require Import Base Words TextSpec BitSliceModel PrimModel.
Import ListNotations.
Local Open Scope Z_scope.

(** ** Operators on primitives used by the file *)

(** [x / y] on a primitive: panics on a zero divisor and on [MIN / -1], in every build.
    Rust's operator, used in crates/reals/src/fixed.rs [Div]. *)
Definition prim_div (t : ity) (x y : Z) : res Z :=
  if y =? 0 then Panic
  else if isigned t && (x =? imin t) && (y =? -1) then Panic
  else Ok (Z.quot x y).

(** [x << n] and [x >> n] with a [usize] amount: in a debug build an amount of at least the
    width panics, in a release build it is reduced modulo the width.  Lost bits are no error.
    Rust's operators, used in crates/reals/src/fixed.rs. *)
Definition prim_shl (dbg : bool) (t : ity) (x : Z) (n : nat) : res Z :=
  if Nat.ltb n (ibits t) then Ok (wrap t (Z.shiftl x (Z.of_nat n)))
  else if dbg then Panic
  else Ok (wrap t (Z.shiftl x (Z.of_nat n mod Z.of_nat (ibits t)))).
Definition prim_shr (dbg : bool) (t : ity) (x : Z) (n : nat) : res Z :=
  if Nat.ltb n (ibits t) then Ok (Z.shiftr x (Z.of_nat n))
  else if dbg then Panic
  else Ok (Z.shiftr x (Z.of_nat n mod Z.of_nat (ibits t))).

(** [!x].  Rust's operator, used in crates/reals/src/fixed.rs. *)
Definition prim_not (t : ity) (x : Z) : Z := wrap t (Z.lnot x).

(** ** fixed.rs *)

Section Fixed.
Variables (dbg : bool) (t : ity) (N : nat).

(** fixed.rs:13-15 [mask]. *)
Definition fx_mask : res Z := do a <- prim_shl dbg t 1 N ;; arith dbg t (a - 1).

(** fixed.rs:23-25 [new] (also 172-175 [Zero::zero]), 27-29 [from_val], 31-33 [from_raw]. *)
Definition fx_new : Z := 0.
Definition fx_from_val (v : Z) : res Z := prim_shl dbg t v N.
Definition fx_from_raw (v : Z) : Z := v.

(** fixed.rs:35-37 [is_whole]. *)
Definition fx_is_whole (x : Z) : res bool :=
  do m <- fx_mask ;; Ok (Z.land x (prim_not t m) =? x).

(** fixed.rs:96-100 [eq], 104-114 [partial_cmp] and [cmp]. *)
Definition fx_eq (x y : Z) : bool := x =? y.
Definition fx_cmp (x y : Z) : comparison := x ?= y.

(** fixed.rs:116-162, the operators: all act on the raw value. *)
Definition fx_add (x y : Z) : res Z := arith dbg t (x + y).
Definition fx_sub (x y : Z) : res Z := arith dbg t (x - y).
Definition fx_mul (x y : Z) : res Z := arith dbg t (x * y).
Definition fx_div (x y : Z) : res Z := prim_div t x y.
Definition fx_rem (x y : Z) : res Z := prim_rem t x y.
Definition fx_neg (x : Z) : res Z := arith dbg t (- x).

(** fixed.rs:172-190 [is_zero], [one], [is_one]. *)
Definition fx_is_zero (x : Z) : bool := x =? 0.
Definition fx_one : res Z := prim_shl dbg t 1 N.
Definition fx_is_one (x : Z) : res bool := do o <- fx_one ;; Ok (x =? o).

(** fixed.rs:192-210 [Bounded], [BoundedSigned]. *)
Definition fx_min_value : Z := imin t.
Definition fx_max_value : Z := imax t.
Definition fx_max_negative : res Z := arith dbg t (- 1).
Definition fx_min_positive : Z := 1.

(** fixed.rs:214-226 [Signed]. *)
Definition fx_abs (x : Z) : res Z := prim_abs dbg t x.
Definition fx_is_positive (x : Z) : bool := prim_is_positive x.
Definition fx_is_negative (x : Z) : bool := prim_is_negative x.

(** fixed.rs:232-234 [floor]. *)
Definition fx_floor (x : Z) : res Z := do a <- prim_shr dbg t x N ;; prim_shl dbg t a N.

(** fixed.rs:236-242 [ceil]. *)
Definition fx_ceil (x : Z) : res Z :=
  do w <- fx_is_whole x ;;
  if (w : bool) then fx_floor x
  else do f <- fx_floor x ;; do o <- fx_one ;; fx_add f o.

(** fixed.rs:263-265 [fract]. *)
Definition fx_fract (x : Z) : res Z := do o <- fx_one ;; fx_rem x o.

(** fixed.rs:244-257 [round]. *)
Definition fx_round (x : Z) : res Z :=
  do o1 <- fx_one ;; do o2 <- fx_one ;; do o3 <- fx_one ;;
  do two <- fx_add o2 o3 ;;
  do half <- fx_div o1 two ;;
  do f0 <- fx_fract x ;;
  do f <- (if 0 <=? f0 then Ok f0 else do o <- fx_one ;; fx_sub o f0) ;;
  if half <? f then fx_ceil x else fx_floor x.

(** fixed.rs:259-261 [trunc]. *)
Definition fx_trunc (x : Z) : res Z := do f <- fx_fract x ;; fx_sub x f.

(** fixed.rs:63-71, the loop of [Debug::fmt]; [write!("{digit:?}")] of a digit in 0..9 is the one
    character ['0' + digit].  Characters are code points, newest first is reversed at the end. *)
Fixpoint fx_debug_loop (fuel : nat) (whole : Z) (idx : nat) (buf : list Z) : res (nat * list Z) :=
  match fuel with
  | O => Timeout
  | S fuel' =>
    if 0 <? whole then
      do digit <- prim_rem t whole 10 ;;
      let buf := if Nat.eqb idx N then buf ++ [46] else buf in
      let buf := buf ++ [48 + digit] in
      do whole' <- prim_div t whole 10 ;;
      fx_debug_loop fuel' whole' (S idx) buf
    else Ok (idx, buf)
  end.

(** fixed.rs:50-79 [Debug::fmt]; the formatter errors are not modelled. *)
Definition fx_debug (fuel : nat) (x : Z) : res (list Z) :=
  let two := truncate_from t 2 in
  let ten := truncate_from t 10 in
  do p10 <- prim_pow dbg t ten (truncate_from t (Z.of_nat N)) ;;
  do m <- arith dbg t (x * p10) ;;
  do p2 <- prim_pow dbg t two (truncate_from t (Z.of_nat N)) ;;
  do whole <- prim_div t m p2 ;;
  do r <- fx_debug_loop fuel whole 0 [] ;;
  let '(idx, buf) := r in
  let buf := if Nat.eqb idx N then buf ++ [46] else buf in
  Ok (rev buf).

End Fixed.
