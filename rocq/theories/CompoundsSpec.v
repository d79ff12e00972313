(** Specification vocabulary for vectors, matrices, complex numbers and bivectors. *)
From Coq Require Import List ZArith.
From Verif Require Import StaticIterModel.
Import ListNotations.

(** Three lists of one length, related position by position. *)
Inductive Forall3 {A B C} (R : A -> B -> C -> Prop) : list A -> list B -> list C -> Prop :=
| Forall3_nil : Forall3 R [] [] []
| Forall3_cons x y z a b c : R x y z -> Forall3 R a b c -> Forall3 R (x :: a) (y :: b) (z :: c).

(** Sums and products of a list, from the left. *)
Definition sum_of {T} (zero : T) (add : T -> T -> T) (l : list T) : T := fold_left add l zero.

(** Pascal's triangle. *)
Fixpoint binom (n r : nat) : Z :=
  match n, r with
  | _, O => 1
  | O, S _ => 0
  | S n', S r' => binom n' r' + binom n' r
  end%Z.

(** All [(i, j)] with [i < j < dim], ordered by [i] and then by [j]. *)
Definition index_pairs (dim : nat) : list (nat * nat) :=
  flat_map (fun i => map (fun j => (i, j)) (seq (S i) (dim - S i))) (seq 0 dim).

(** A rectangular array. *)
Definition shape {T} (row col : nat) (m : list (list T)) : Prop :=
  length m = row /\ Forall (fun r => length r = col) m.

(** The entry in row [i], column [j]. *)
Definition entry {T} (m : list (list T)) (i j : nat) : option T :=
  match nth_error m i with Some r => nth_error r j | None => None end.
