(** Specification vocabulary for floats: the number a bit pattern denotes (IEEE 754). *)
From Coq Require Import ZArith QArith Bool.
From Verif Require Import FpModel.
Local Open Scope Z_scope.

(** [exp_bits - 1] at least 2, and room for every whole number of [fbits + 1] bits. *)
Definition bias (F : fmt) : Z := 2 ^ (Z.of_nat (ebits F) - 1) - 1.
Definition ieee (F : fmt) : Prop := (2 <= ebits F)%nat /\ Z.of_nat (fbits F) + 1 <= bias F /\ (1 <= fbits F)%nat.

(** Bit patterns, from most to least significant: sign, exponent, fraction. *)
Definition pattern_of (F : fmt) (b : Z) : Prop := 0 <= b < 2 ^ (1 + Z.of_nat (ebits F) + Z.of_nat (fbits F)).
Definition sign_of (F : fmt) (b : Z) : bool := Z.testbit b (Z.of_nat (ebits F) + Z.of_nat (fbits F)).
Definition exponent_of (F : fmt) (b : Z) : Z := b / 2 ^ Z.of_nat (fbits F) mod 2 ^ Z.of_nat (ebits F).
Definition fraction_of (F : fmt) (b : Z) : Z := b mod 2 ^ Z.of_nat (fbits F).

Definition is_nan (F : fmt) (b : Z) : Prop :=
  exponent_of F b = 2 ^ Z.of_nat (ebits F) - 1 /\ fraction_of F b <> 0.
Definition is_inf (F : fmt) (neg : bool) (b : Z) : Prop :=
  exponent_of F b = 2 ^ Z.of_nat (ebits F) - 1 /\ fraction_of F b = 0 /\ sign_of F b = neg.

(** [b] is finite and denotes [q]: [(-1)^s * 1.f * 2^(E - bias)], or [(-1)^s * 0.f * 2^(1 - bias)]
    when [E] is 0. *)
Definition is_num (F : fmt) (b : Z) (q : Q) : Prop :=
  let E := exponent_of F b in
  E <> 2 ^ Z.of_nat (ebits F) - 1 /\
  (q == inject_Z (if sign_of F b then -1 else 1) *
        (inject_Z (if (E =? 0)%Z then 0 else 1) + inject_Z (fraction_of F b) / 2 ^ Z.of_nat (fbits F)) *
        2 ^ (Z.max 1 E - bias F))%Q.
