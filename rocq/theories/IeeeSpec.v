(** What the results of float arithmetic are measured against. *)
From Coq Require Import ZArith Reals List.
From Flocq Require Import Core BinarySingleNaN.
Import ListNotations.
Local Open Scope R_scope.

Section Format.
Context {prec emax : Z}.
Notation float := (binary_float prec emax).

(** Neither NaN nor infinite. *)
Definition finite (x : float) : Prop := is_finite x = true.
(** The number a finite float stands for. *)
Definition value (x : float) : R := B2R x.
End Format.

(** Half the distance from 1 to the next float. *)
Definition unit_roundoff (prec : Z) : R := powerRZ 2 (- prec).
(** Half the smallest positive float. *)
Definition half_smallest (prec emax : Z) : R := powerRZ 2 (2 - emax - prec).
(** The smallest positive float of full precision. *)
Definition smallest_normal (emax : Z) : R := powerRZ 2 (2 - emax).

(** Sums of numbers, of products, and of their absolute values. *)
Fixpoint total (l : list R) : R := match l with [] => 0 | x :: l' => x + total l' end.
Definition products (a b : list R) : list R := map (fun p => fst p * snd p) (combine a b).
Definition magnitudes (l : list R) : list R := map Rabs l.

(** The error of a sum of [n] products, each product and each addition rounded once. *)
Definition error_bound (prec emax : Z) (n : nat) (ps : list R) : R :=
  ((1 + unit_roundoff prec) ^ n - 1) * total (magnitudes ps) + INR n * (1 + unit_roundoff prec) ^ n * half_smallest prec emax.

(** A number that products and quotients round with full precision. *)
Definition zero_or_normal (emax : Z) (x : R) : Prop := x = 0 \/ smallest_normal emax <= Rabs x.

(** A float that stands for the whole number [n]. *)
Definition is_whole_number {prec emax} (x : binary_float prec emax) (n : Z) : Prop := finite x /\ value x = IZR n.

(** The number in row [i], column [j]. *)
Definition cell {prec emax} (m : list (list (binary_float prec emax))) (i j : nat) : R :=
  value (nth j (nth i m []) B754_nan).

(** The determinant of three rows. *)
Definition det3 (g : nat -> nat -> R) : R :=
  g 0%nat 0%nat * (g 1%nat 1%nat * g 2%nat 2%nat - g 1%nat 2%nat * g 2%nat 1%nat)
  - g 0%nat 1%nat * (g 1%nat 0%nat * g 2%nat 2%nat - g 1%nat 2%nat * g 2%nat 0%nat)
  + g 0%nat 2%nat * (g 1%nat 0%nat * g 2%nat 1%nat - g 1%nat 1%nat * g 2%nat 0%nat).

(** The product of numbers. *)
Fixpoint product_of (l : list R) : R := match l with [] => 1 | x :: l' => x * product_of l' end.
