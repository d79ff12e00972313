(** Model of crates/reals/src/rat.rs: [Rat<T>] over a primitive integer [T].  [fuel] bounds the
    iterations of [Gcd::gcd] (PrimModel.v).  [partial_cmp], [cmp], [rem], [pow], [trunc],
    [fract], [log] and [sqrt] are [todo!()] in the source and not modelled; [Debug] is not
    modelled. *)
From Coq Require Import ZArith List Bool.
From Verif Require Import Base Words BitSliceModel PrimModel FixedModel.
Local Open Scope Z_scope.

(** rat.rs:15-19.  rat.rs:68-79: [numerator], [denominator] are the fields. *)
Record rat := mkRat { num : Z; denom : Z }.

Section Rat.
Variables (dbg : bool) (fuel : nat) (t : ity).

(** rat.rs:168-186 [zero], [is_zero], [one], [is_one]; the derived [eq] of rat.rs:15. *)
Definition rat_zero : rat := mkRat 0 1.
Definition rat_one : rat := mkRat 1 1.
Definition rat_eq (a b : rat) : bool := (num a =? num b) && (denom a =? denom b).
Definition rat_is_zero (a : rat) : bool := num a =? 0.
Definition rat_is_one (a : rat) : bool := rat_eq a rat_one.

(** rat.rs:51-66 [reduce]; [||] evaluates left to right. *)
Definition rat_reduce (n d : Z) : res rat :=
  if n =? 0 then Ok rat_zero
  else
    do whole <- (if (n =? 1) && (d =? 1) then Ok true
                 else do r1 <- prim_rem t n d ;;
                      if r1 =? 0 then Ok true
                      else do r2 <- prim_rem t d n ;; Ok (r2 =? 0)) ;;
    if (whole : bool) then Ok (mkRat n d)
    else
      do g <- prim_gcd fuel t n d ;;
      do n' <- prim_div t n g ;;
      do d' <- prim_div t d g ;;
      Ok (mkRat n' d').

(** rat.rs:40-49 [new]. *)
Definition rat_new (n d : Z) : res (option rat) :=
  if d =? 0 then Ok None else do r <- rat_reduce n d ;; Ok (Some r).

(** [Option::unwrap].  core, used in crates/reals/src/rat.rs:120-148, 235-256. *)
Definition unwrap {A} (o : option A) : res A := match o with Some a => Ok a | None => Panic end.
Definition rat_new_unwrap (n d : Z) : res rat := do o <- rat_new n d ;; unwrap o.

(** rat.rs:112-122 [add]. *)
Definition rat_add (a b : rat) : res rat :=
  do p <- arith dbg t (num a * denom b) ;;
  do q <- arith dbg t (num b * denom a) ;;
  do n <- arith dbg t (p + q) ;;
  do d <- arith dbg t (denom a * denom b) ;;
  rat_new_unwrap n d.

(** rat.rs:124-134 [sub]. *)
Definition rat_sub (a b : rat) : res rat :=
  do p <- arith dbg t (num a * denom b) ;;
  do q <- arith dbg t (num b * denom a) ;;
  do n <- arith dbg t (p - q) ;;
  do d <- arith dbg t (denom a * denom b) ;;
  rat_new_unwrap n d.

(** rat.rs:136-142 [mul]. *)
Definition rat_mul (a b : rat) : res rat :=
  do n <- arith dbg t (num a * num b) ;;
  do d <- arith dbg t (denom a * denom b) ;;
  rat_new_unwrap n d.

(** rat.rs:144-150 [div]. *)
Definition rat_div (a b : rat) : res rat :=
  do n <- arith dbg t (num a * denom b) ;;
  do d <- arith dbg t (denom a * num b) ;;
  rat_new_unwrap n d.

(** rat.rs:160-166 [neg]. *)
Definition rat_neg (a : rat) : res rat :=
  do n <- arith dbg t (- num a) ;; Ok (mkRat n (denom a)).

(** rat.rs:188-200 [Signed]. *)
Definition rat_abs (a : rat) : res rat :=
  do n <- prim_abs dbg t (num a) ;; Ok (mkRat n (denom a)).
Definition rat_is_positive (a : rat) : bool := prim_is_positive (num a).
Definition rat_is_negative (a : rat) : bool := prim_is_negative (num a).

(** rat.rs:202-210 [Bounded].  rat.rs:212-220 [BoundedSigned] needs a [BoundedSigned] backing
    type, which no primitive integer is; not modelled. *)
Definition rat_min_value : rat := mkRat (imin t) 1.
Definition rat_max_value : rat := mkRat (imax t) 1.

(** rat.rs:233-236 [floor]. *)
Definition rat_floor (a : rat) : res rat :=
  do diff <- prim_rem t (num a) (denom a) ;;
  do n <- arith dbg t (num a - diff) ;;
  do q <- prim_div t n (denom a) ;;
  rat_new_unwrap q 1.

(** rat.rs:238-241 [ceil]. *)
Definition rat_ceil (a : rat) : res rat :=
  do r <- prim_rem t (num a) (denom a) ;;
  do diff <- arith dbg t (denom a - r) ;;
  do n <- arith dbg t (num a + diff) ;;
  do q <- prim_div t n (denom a) ;;
  rat_new_unwrap q 1.

(** rat.rs:243-257 [round]. *)
Definition rat_round (a : rat) : res rat :=
  do two <- arith dbg t (1 + 1) ;;
  do diff <- prim_rem t (num a) (denom a) ;;
  do half <- prim_div t (denom a) two ;;
  let add := if half <? diff then 1 else 0 in
  do q <- prim_div t (num a) (denom a) ;;
  do n <- arith dbg t (q + add) ;;
  rat_new_unwrap n 1.

End Rat.
