(** Specification vocabulary for [BigInt::approx_float]: which whole numbers are doubles, and
    when a double approximates a whole number. *)
From Coq Require Import ZArith.
From Verif Require Import FloatModel.
Local Open Scope Z_scope.

(** A whole number that is a double (when below [2^1024]): 53 significant bits. *)
Definition whole_double (y : Z) : Prop := exists m e, y = m * 2 ^ e /\ 0 <= m < 2 ^ 53 /\ 0 <= e.

(** A finite double with a relative error of at most [2^-51]; or infinity, for a number that
    is less than one part in [2^51] below [2^1024], or above. *)
Definition approximates (r : f64) (u : Z) : Prop :=
  (exists y, r = Fin y /\ whole_double y /\ 0 <= y < 2 ^ 1024 /\ Z.abs (y - u) * 2 ^ 51 <= u) \/
  (r = Inf /\ 2 ^ 1024 - 2 ^ 973 <= u).

(** Limb [i] of a number, 64 bits each, least significant first. *)
Definition limb (i x : Z) : Z := x / 2 ^ (64 * i) mod 2 ^ 64.
