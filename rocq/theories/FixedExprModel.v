(** Arithmetic expressions over [Fixed<T, N>]: the operators and methods of crates/reals/src/fixed.rs composed, operands evaluated
    from left to right.  An argument is its raw value. *)
From Coq Require Import ZArith List Bool.
From Verif Require Import Base Words BitSliceModel PrimModel FixedModel.
Import ListNotations.
Local Open Scope Z_scope.

Inductive fexpr :=
| FArg (i : nat)
| FOne                    (* Fixed::one() *)
| FAdd (e f : fexpr)
| FSub (e f : fexpr)
| FNeg (e : fexpr)
| FAbs (e : fexpr)
| FFloor (e : fexpr)
| FCeil (e : fexpr)
| FTrunc (e : fexpr)
| FFract (e : fexpr)
| FMin (e f : fexpr)
| FMax (e f : fexpr).

(** [Ord::min] and [Ord::max] as core provides them for a type with [cmp] (fixed.rs:110-114). *)
Definition fx_min (x y : Z) : Z := match fx_cmp y x with Lt => y | _ => x end.
Definition fx_max (x y : Z) : Z := match fx_cmp y x with Lt => x | _ => y end.

(** fixed.rs:182-185 [one], 116-124 [+], 126-134 [-], 156-162 unary minus, 214-217 [abs], 232-242 [floor] and [ceil], 259-265
    [trunc] and [fract]. *)
Fixpoint feval (dbg : bool) (t : ity) (N : nat) (args : list Z) (e : fexpr) : res Z :=
  match e with
  | FArg i => Ok (nth i args 0)
  | FOne => fx_one dbg t N
  | FAdd e f => do a <- feval dbg t N args e ;; do b <- feval dbg t N args f ;; fx_add dbg t a b
  | FSub e f => do a <- feval dbg t N args e ;; do b <- feval dbg t N args f ;; fx_sub dbg t a b
  | FNeg e => do a <- feval dbg t N args e ;; fx_neg dbg t a
  | FAbs e => do a <- feval dbg t N args e ;; fx_abs dbg t a
  | FFloor e => do a <- feval dbg t N args e ;; fx_floor dbg t N a
  | FCeil e => do a <- feval dbg t N args e ;; fx_ceil dbg t N a
  | FTrunc e => do a <- feval dbg t N args e ;; fx_trunc dbg t N a
  | FFract e => do a <- feval dbg t N args e ;; fx_fract dbg t N a
  | FMin e f => do a <- feval dbg t N args e ;; do b <- feval dbg t N args f ;; Ok (fx_min a b)
  | FMax e f => do a <- feval dbg t N args e ;; do b <- feval dbg t N args f ;; Ok (fx_max a b)
  end.
