(** The derived [PartialEq] and [Hash] of vectors and matrices, and [Default], for any element type.  [Complex] is in VectorModel.v ([c_eqb]). *)
From Coq Require Import ZArith List Bool.
From Verif Require Import Base StaticIterModel VectorModel MatrixModel.
Import ListNotations.

Section Equality.
Context {T : Type} (eqb : T -> T -> bool).

(** [==] of slices, and so of arrays and of [Vec]: the lengths, then the elements in order.  core and alloc, used by the derives below.
    The overrides for element types compared byte by byte are not modelled apart: they give the same answer. *)
Fixpoint elements_eqb (a b : list T) : bool :=
  match a, b with
  | x :: a, y :: b => eqb x y && elements_eqb a b
  | _, _ => true
  end.
Definition slice_eqb (a b : list T) : bool := Nat.eqb (length a) (length b) && elements_eqb a b.
End Equality.

(** crates/compounds/src/vector.rs:15-16, derived. *)
Definition vec_eqb {T} (eqb : T -> T -> bool) (a b : list T) : bool := slice_eqb eqb a b.
(** crates/compounds/src/matrix/static.rs:11-12, derived: an array of arrays. *)
Definition mat_eqb {T} (eqb : T -> T -> bool) (a b : list (list T)) : bool := slice_eqb (slice_eqb eqb) a b.
(** crates/compounds/src/matrix/dynamic.rs:6-11, derived: the fields in order. *)
Definition dyn_eqb {T} (eqb : T -> T -> bool) (a b : dyn T) : bool :=
  slice_eqb eqb (data a) (data b) && (rows a =? rows b)%Z && (cols a =? cols b)%Z.

(** crates/compounds/src/vector.rs:15, derived [Hash]: an array hashes its length and then its elements in order.  The state of the
    hasher is any type [S].  The overrides of [hash_slice] for primitive integers, which write all bytes at once, are not modelled. *)
Definition vec_hash {T S} (write_length : nat -> S -> S) (hash : T -> S -> S) (v : list T) (s : S) : S :=
  fold_left (fun s x => hash x s) v (write_length (length v) s).

(** vector.rs:270-274, static.rs:78-85 [default]. *)
Definition vec_default {T} (d : T) (n : nat) : out (list T) := from_fn n (fun _ => Ret d).
Definition mat_default {T} (d : T) (row col : nat) : out (list (list T)) := from_fn row (fun _ => from_fn col (fun _ => Ret d)).
