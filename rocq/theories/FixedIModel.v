(** Model of crates/reals/src/fixed.rs for [Fixed<I<K>, N>]: a fixed-point number whose backing
    integer is the [K]-byte signed integer of the ints crate.  A value is its raw byte list.
    The operators are those of IModel.v; FixedModel.v is the same code over primitives and
    FixedUModel.v over [U<K>].  [Debug] and [Binary] need traits that [I] does not implement. *)
From Coq Require Import ZArith List Bool.
From Verif Require Import Base Words BitSliceModel UModel IModel.
Import ListNotations.
Local Open Scope Z_scope.

(** crates/ints/src/i.rs:165-179 [Shl<usize>], [Shr<usize>]: the body is [todo!()], a panic. *)
Definition i_shl (a : I) (s : nat) : res I := Panic.
Definition i_shr (a : I) (s : nat) : res I := Panic.

Section FixedI.
Variables (dbg : bool) (N : nat).

(** fixed.rs:182-190 [One]: [T::one() << N]; [K] is the number of bytes. *)
Definition fi_one (K : nat) : res I := i_shl (i_one K) N.
Definition fi_is_one (x : I) : res bool := do o <- fi_one (length x) ;; Ok (i_eqb x o).

(** fixed.rs:172-180 [Zero] (also 23-25 [new], 40-44 [default]). *)
Definition fi_zero (K : nat) : I := i_zero K.
Definition fi_is_zero (x : I) : bool := i_is_zero x.

(** fixed.rs:13-15 [mask]. *)
Definition fi_mask (K : nat) : res I := do a <- i_shl (i_one K) N ;; Ok (i_sub a (i_one K)).

(** fixed.rs:27-33 [from_val], [from_raw]. *)
Definition fi_from_val (v : I) : res I := i_shl v N.
Definition fi_from_raw (v : I) : I := v.

(** fixed.rs:35-37 [is_whole]. *)
Definition fi_is_whole (x : I) : res bool :=
  do m <- fi_mask (length x) ;; Ok (i_eqb (i_bitand x (i_not m)) x).

(** fixed.rs:96-114 [eq], [cmp]. *)
Definition fi_eq (x y : I) : bool := i_eqb x y.
Definition fi_cmp (x y : I) : res comparison := i_cmp x y.

(** fixed.rs:116-162, the operators act on the raw values. *)
Definition fi_add (x y : I) : I := i_add x y.
Definition fi_sub (x y : I) : I := i_sub x y.
Definition fi_mul (x y : I) : I := i_mul x y.
Definition fi_div (x y : I) : res I := i_div dbg x y.
Definition fi_rem (x y : I) : res I := i_rem dbg x y.
Definition fi_neg (x : I) : I := i_neg x.

(** fixed.rs:192-210 [Bounded], [BoundedSigned]. *)
Definition fi_min_value (K : nat) : I := i_min K.
Definition fi_max_value (K : nat) : I := i_max K.
Definition fi_max_negative (K : nat) : I := i_neg (i_one K).
Definition fi_min_positive (K : nat) : I := i_one K.

(** fixed.rs:214-226 [Signed]. *)
Definition fi_abs (x : I) : res I := i_abs x.
Definition fi_is_positive (x : I) : res bool := i_is_positive x.
Definition fi_is_negative (x : I) : res bool := i_is_negative x.

(** fixed.rs:232-234 [floor]. *)
Definition fi_floor (x : I) : res I := do a <- i_shr x N ;; i_shl a N.

(** fixed.rs:236-242 [ceil]. *)
Definition fi_ceil (x : I) : res I :=
  do w <- fi_is_whole x ;;
  if (w : bool) then fi_floor x
  else do f <- fi_floor x ;; do o <- fi_one (length x) ;; Ok (fi_add f o).

(** fixed.rs:263-265 [fract]. *)
Definition fi_fract (x : I) : res I := do o <- fi_one (length x) ;; fi_rem x o.

(** fixed.rs:259-261 [trunc]. *)
Definition fi_trunc (x : I) : res I := do f <- fi_fract x ;; Ok (fi_sub x f).

(** fixed.rs:244-257 [round]; [f >= zero] is "[cmp] is not [Lt]", [f > half] is "[cmp] is [Gt]". *)
Definition fi_round (x : I) : res I :=
  let K := length x in
  do o1 <- fi_one K ;; do o2 <- fi_one K ;; do o3 <- fi_one K ;;
  do half <- fi_div o1 (fi_add o2 o3) ;;
  do f0 <- fi_fract x ;;
  do c <- fi_cmp f0 (fi_zero K) ;;
  do f <- (match c with
           | Lt => do o <- fi_one K ;; Ok (fi_sub o f0)
           | _ => Ok f0
           end) ;;
  do d <- fi_cmp f half ;;
  match d with Gt => fi_ceil x | _ => fi_floor x end.

(** fixed.rs:164-170 [pow] and 267-269 [log]: [todo!()]. *)
Definition fi_pow (x y : I) : res I := Panic.
Definition fi_log (x y : I) : res I := Panic.

End FixedI.
