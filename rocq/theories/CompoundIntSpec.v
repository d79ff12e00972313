(** Specification vocabulary for compound types over primitive integers. *)
From Coq Require Import ZArith List.
From Verif Require Import Base Words BitSliceModel StaticIterModel.
Import ListNotations.
Local Open Scope Z_scope.

(** [v] is a value of the type. *)
Definition fits (t : ity) (v : Z) : Prop := imin t <= v <= imax t.

(** [x] is the value of the type congruent to [v] modulo 2^bits. *)
Definition reduces_to (t : ity) (v x : Z) : Prop := fits t x /\ (x - v) mod 2 ^ Z.of_nat (ibits t) = 0.

(** [o] returns [r] when all the values in [vs] fit, and panics otherwise. *)
Definition returns_if_fit {A} (t : ity) (vs : list Z) (o : out A) (r : A) : Prop :=
  (Forall (fits t) vs -> o = Ret r) /\ (~ Forall (fits t) vs -> o = Pan).

(** The entry in row [i], column [j] of a matrix, and the sum of the first [k] values of [f]. *)
Definition elt (m : list (list Z)) (i j : nat) : Z := nth j (nth i m []) 0.
Fixpoint first_sum (f : nat -> Z) (k : nat) : Z := match k with O => 0 | S k' => first_sum f k' + f k' end.
