(** Arithmetic expressions over [Rat<T>]: the operators of crates/reals/src/rat.rs:112-166 composed, operands evaluated from
    left to right (the types are [Copy] when [T] is). *)
From Coq Require Import ZArith List Bool.
From Verif Require Import RatModel Base Words BitSliceModel PrimModel FixedModel.
Import ListNotations.
Local Open Scope Z_scope.

Inductive rexpr :=
| RArg (i : nat)
| RNew (n d : Z)          (* Rat::new(n, d).unwrap() *)
| RAdd (e f : rexpr)
| RSub (e f : rexpr)
| RMul (e f : rexpr)
| RDiv (e f : rexpr)
| RNeg (e : rexpr).       (* for a signed [T] only *)

(** rat.rs:40-49 [new], rat.rs:112-122 [+], rat.rs:124-134 [-], rat.rs:136-142 [*], rat.rs:144-150 [/], rat.rs:160-166 unary minus. *)
Fixpoint reval (dbg : bool) (fuel : nat) (t : ity) (args : list rat) (e : rexpr) : res rat :=
  match e with
  | RArg i => Ok (nth i args rat_zero)
  | RNew n d => rat_new_unwrap fuel t n d
  | RAdd e f => do a <- reval dbg fuel t args e ;; do b <- reval dbg fuel t args f ;; rat_add dbg fuel t a b
  | RSub e f => do a <- reval dbg fuel t args e ;; do b <- reval dbg fuel t args f ;; rat_sub dbg fuel t a b
  | RMul e f => do a <- reval dbg fuel t args e ;; do b <- reval dbg fuel t args f ;; rat_mul dbg fuel t a b
  | RDiv e f => do a <- reval dbg fuel t args e ;; do b <- reval dbg fuel t args f ;; rat_div dbg fuel t a b
  | RNeg e => do a <- reval dbg fuel t args e ;; rat_neg dbg t a
  end.
