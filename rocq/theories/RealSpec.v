(** Specification vocabulary for the reals crate: values are rational numbers. *)
From Coq Require Import ZArith QArith Qround Qabs List.
From Verif Require Import TextSpec.
Import ListNotations.
Local Open Scope Z_scope.

(** The number denoted by the raw value [raw] of a fixed-point number with [N] fraction bits. *)
Definition fixed_val (N : nat) (raw : Z) : Q := (inject_Z raw / inject_Z (2 ^ Z.of_nat N))%Q.

(** The fraction [n/d]. *)
Definition frac (n d : Z) : Q := (inject_Z n / inject_Z d)%Q.

(** Rounding toward zero and away from zero. *)
Definition toward_zero (q : Q) : Z := if Qlt_le_dec q 0 then Qceiling q else Qfloor q.
Definition away_from_zero (q : Q) : Z := if Qlt_le_dec q 0 then Qfloor q else Qceiling q.

(** [k] is a nearest integer. *)
Definition nearest (q : Q) (k : Z) : Prop :=
  forall j, (Qabs (q - inject_Z k) <= Qabs (q - inject_Z j))%Q.

(** [s] is a decimal numeral of [q]: digits, a point, then exactly [n] digits. *)
Definition is_decimal (n : nat) (q : Q) (s : list Z) : Prop :=
  exists ip fp, s = map digit_char ip ++ [46] ++ map digit_char fp /\ length fp = n /\
    Forall (fun d => 0 <= d < 10) (ip ++ fp) /\
    (q == frac (digits_val 10 (ip ++ fp)) (10 ^ Z.of_nat n))%Q.
