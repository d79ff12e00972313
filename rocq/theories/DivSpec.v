(** Specification for the exact behaviour of the bitwise long division (C16, C29, C46): schoolbook division in base two, and the order
    in which the lowest differing digit decides. *)
From Coq Require Import ZArith.
Local Open Scope Z_scope.

(** Digit [i] of [x] in base 2^w. *)
Definition digit (w : nat) (x : Z) (i : nat) : Z := x / 2 ^ (Z.of_nat w * Z.of_nat i) mod 2 ^ Z.of_nat w.
Definition lowest_first_lt (w : nat) (x y : Z) : Prop :=
  exists i, digit w x i < digit w y i /\ forall j, (j < i)%nat -> digit w x j = digit w y j.

(** What schoolbook division compares with [d] to find bit [k] of [n / d]: twice the remainder of the bits above, and bit [k]. *)
Definition partial_dividend (n d : Z) (k : nat) : Z := 2 * (n / 2 ^ (Z.of_nat k + 1) mod d) + n / 2 ^ Z.of_nat k mod 2.

(** At each of [bits] steps the two orders agree. *)
Definition agreeing (w bits : nat) (n d : Z) : Prop :=
  forall k, (k < bits)%nat -> (lowest_first_lt w (partial_dividend n d k) d <-> partial_dividend n d k < d).
