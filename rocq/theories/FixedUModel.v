(** Model of crates/reals/src/fixed.rs for [Fixed<U<K>, N>]: a fixed-point number whose backing
    integer is the [K]-byte unsigned integer of the ints crate.  A value is its raw byte list.
    The operators are those of UModel.v; FixedModel.v is the same code over primitives.
    [Debug] and [Binary] need traits that [U] does not implement, [pow] and [log] are [todo!()]. *)
From Coq Require Import ZArith List Bool.
From Verif Require Import Base Words BitSliceModel UModel.
Import ListNotations.
Local Open Scope Z_scope.

Section FixedU.
Variables (dbg : bool) (N : nat).

(** fixed.rs:182-190 [One]: [T::one() << N]; [K] is the number of bytes. *)
Definition fu_one (K : nat) : res U := u_shl dbg (u_one K) N.
Definition fu_is_one (x : U) : res bool := do o <- fu_one (length x) ;; Ok (u_eqb x o).

(** fixed.rs:172-180 [Zero] (also 23-25 [new]). *)
Definition fu_zero (K : nat) : U := u_zero K.
Definition fu_is_zero (x : U) : bool := u_is_zero x.

(** fixed.rs:13-15 [mask]. *)
Definition fu_mask (K : nat) : res U := do a <- u_shl dbg (u_one K) N ;; u_sub dbg a (u_one K).

(** fixed.rs:27-29 [from_val]. *)
Definition fu_from_val (v : U) : res U := u_shl dbg v N.

(** fixed.rs:35-37 [is_whole]. *)
Definition fu_is_whole (x : U) : res bool :=
  do m <- fu_mask (length x) ;; Ok (u_eqb (u_bitand x (u_not m)) x).

(** fixed.rs:96-114 [eq], [cmp]. *)
Definition fu_eq (x y : U) : bool := u_eqb x y.
Definition fu_cmp (x y : U) : comparison := u_cmp x y.

(** fixed.rs:116-154, the operators act on the raw values. *)
Definition fu_add (x y : U) : res U := u_add dbg x y.
Definition fu_sub (x y : U) : res U := u_sub dbg x y.
Definition fu_mul (x y : U) : res U := u_mul dbg x y.
Definition fu_div (x y : U) : res U := u_div dbg x y.
Definition fu_rem (x y : U) : res U := u_rem dbg x y.

(** fixed.rs:192-200 [Bounded]. *)
Definition fu_min_value (K : nat) : U := u_zero K.
Definition fu_max_value (K : nat) : U := u_max K.

(** fixed.rs:232-234 [floor]. *)
Definition fu_floor (x : U) : res U := do a <- u_shr dbg x N ;; u_shl dbg a N.

(** fixed.rs:236-242 [ceil]. *)
Definition fu_ceil (x : U) : res U :=
  do w <- fu_is_whole x ;;
  if (w : bool) then fu_floor x
  else do f <- fu_floor x ;; do o <- fu_one (length x) ;; fu_add f o.

(** fixed.rs:263-265 [fract]. *)
Definition fu_fract (x : U) : res U := do o <- fu_one (length x) ;; fu_rem x o.

(** fixed.rs:259-261 [trunc]. *)
Definition fu_trunc (x : U) : res U := do f <- fu_fract x ;; fu_sub x f.

(** fixed.rs:244-257 [round]; [f >= zero] is "[cmp] is not [Lt]", [f > half] is "[cmp] is [Gt]". *)
Definition fu_round (x : U) : res U :=
  let K := length x in
  do o1 <- fu_one K ;; do o2 <- fu_one K ;; do o3 <- fu_one K ;;
  do two <- fu_add o2 o3 ;;
  do half <- fu_div o1 two ;;
  do f0 <- fu_fract x ;;
  do f <- (match fu_cmp f0 (fu_zero K) with
           | Lt => do o <- fu_one K ;; fu_sub o f0
           | _ => Ok f0
           end) ;;
  match fu_cmp f half with Gt => fu_ceil x | _ => fu_floor x end.

End FixedU.
