(** What a reduction by rows with rounding is measured against. *)
From Coq Require Import ZArith Reals List Bool Arith Sorted.
From Verif Require Import IeeeSpec.
Import ListNotations.
Local Open Scope R_scope.

(** Rows exchanged one pair after the other, the last pair first in the list: the row of the input
    that ends up as row [i]. *)
Fixpoint origin (swaps : list (nat * nat)) (i : nat) : nat :=
  match swaps with
  | [] => i
  | (a, b) :: before => origin before (if Nat.eqb i a then b else if Nat.eqb i b then a else i)
  end.

(** The rows from which row [i] was reduced in column [j]: those above it whose pivot is not to the right. *)
Definition used (pivots : list nat) (i j : nat) : list nat :=
  filter (fun k => Nat.leb (nth k pivots 0%nat) j) (seq 0 (Nat.min i (length pivots))).

(** [r] is [a] with the rows exchanged, reduced from above with the multipliers [mult], up to the errors of rounding. *)
Definition rounded_reduction (prec emax : Z) (n : nat) (a r : nat -> nat -> R)
    (swaps : list (nat * nat)) (pivots : list nat) (mult : nat -> nat -> R) : Prop :=
  let u := unit_roundoff prec in
  Forall (fun p => fst p <> snd p /\ (fst p < n)%nat /\ (snd p < n)%nat) swaps /\
  StronglySorted lt pivots /\ Forall (fun c => (c < n)%nat) pivots /\
  (forall k c, nth_error pivots k = Some c -> r k c <> 0) /\
  (forall i j, (i < n)%nat -> (j < n)%nat ->
     let parts := r i j :: map (fun k => mult i k * r k j) (used pivots i j) in
     Rabs (a (origin swaps i) j - total parts) <= error_bound prec emax (length (used pivots i j)) parts) /\
  (forall k c i, nth_error pivots k = Some c -> (k < i < n)%nat ->
     Rabs (r i c) <= (1 + u) * (2 * u * Rabs (mult i k * r k c) + half_smallest prec emax * (1 + Rabs (r k c)))) /\
  (forall i j, (i < n)%nat -> (j < n)%nat -> ~ In j pivots ->
     (forall k c, nth_error pivots k = Some c -> (c < j)%nat -> (k < i)%nat) -> r i j = 0).
