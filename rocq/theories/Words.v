(** Unsigned machine words of width [w] bits (the Rust primitives u8..u128, usize). *)
From Coq Require Import ZArith List Bool.
From Verif Require Import Base.
Import ListNotations.
Local Open Scope Z_scope.

(** 2^w, the number of values of a [w]-bit word. *)
Definition base (w : nat) : Z := 2 ^ Z.of_nat w.

(** std: [uN::overflowing_add], reached through
    crates/traits/src/ops/overflowing.rs:15-19 and crates/traits/src/__impl.rs. *)
Definition wadd_ov (w : nat) (a b : Z) : Z * bool :=
  ((a + b) mod base w, base w <=? a + b).

(** std: [uN::overflowing_sub]. *)
Definition wsub_ov (w : nat) (a b : Z) : Z * bool :=
  ((a - b) mod base w, a <? b).

(** std: [!x] on an unsigned word. *)
Definition wnot (w : nat) (a : Z) : Z := (Z.lnot a) mod base w.

(** std: [x << s] with [s < w] (no overflow check fires). *)
Definition wshl (w : nat) (a : Z) (s : nat) : Z := (Z.shiftl a (Z.of_nat s)) mod base w.

(** std: [x >> s] with [s < w]. *)
Definition wshr (a : Z) (s : nat) : Z := Z.shiftr a (Z.of_nat s).

(** [uN::MAX]. *)
Definition wmax (w : nat) : Z := base w - 1.

(** crates/traits/src/ops/widening.rs:10-21, macro [widening_impl] with [$wide] of
    width [2*w]: wrapping multiply and add in the wide type, then split. *)
Definition widening_wide (w : nat) (l r add : Z) : Z * Z :=
  let W := base (2 * w) in
  let wide := (((l * r) mod W) + add) mod W in
  (wide mod base w, (Z.shiftr wide (Z.of_nat w)) mod base w).

(** crates/traits/src/ops/widening.rs:35-73, the hand-split version for u128, written
    for any word of width [2*h] (the code has [h = 64]). *)
Definition widening_split (h : nat) (l r add : Z) : Z * Z :=
  let w := (2 * h)%nat in
  let lo_mask := wshr (wmax w) h in
  let lhs_lo := Z.land l lo_mask in
  let rhs_lo := Z.land r lo_mask in
  let lhs_hi := wshr l h in
  let rhs_hi := wshr r h in
  let tmp0 := (lhs_lo * rhs_lo) mod base w in
  let tmp1 := (lhs_lo * rhs_hi) mod base w in
  let tmp2 := (lhs_hi * rhs_lo) mod base w in
  let tmp3 := (lhs_hi * rhs_hi) mod base w in
  let '(sum0, carry0) := wadd_ov w tmp0 (wshl w tmp1 h) in
  let '(sum0, carry1) := wadd_ov w sum0 (wshl w tmp2 h) in
  let '(sum0, carry2) := wadd_ov w sum0 add in
  let sum1 := (tmp3 + wshr tmp1 h) mod base w in
  let sum1 := (sum1 + wshr tmp2 h) mod base w in
  let sum1 := (sum1 + Z.b2z carry0) mod base w in
  let sum1 := (sum1 + Z.b2z carry1) mod base w in
  let sum1 := (sum1 + Z.b2z carry2) mod base w in
  (sum0, sum1).

(** crates/traits/src/ops/widening.rs:23-35: which implementation a word type uses.
    [usize] follows [u64] (target_pointer_width = "64"). *)
Definition widening_mul (w : nat) (l r add : Z) : Z * Z :=
  if Nat.eqb w 128 then widening_split 64 l r add else widening_wide w l r add.
