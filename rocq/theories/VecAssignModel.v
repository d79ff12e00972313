(** Model of what crates/compounds/src/vector.rs leaves in a vector whose assigning operator panics.

    VectorModel.v gives the outcome of [a op= b]; here the vector is kept as well.  The assigning
    operator of the element type returns what it leaves in the element, and whether it returned
    ([true]) or panicked ([false]). *)
From Coq Require Import List Bool.
From Verif Require Import StaticIterModel.
Import ListNotations.

(** vector.rs:370-376 and 393-399: [iter_mut] zipped with the right-hand side, then [for_each], which calls the
    closure on one pair after the other until it panics.  (Owned and borrowed right-hand sides are the same list; the elements
    of an owned one that were not reached are dropped while unwinding.) *)
Fixpoint vec_assign_st {A B} (op : A -> B -> A * bool) (a : list A) (b : list B) : list A * bool :=
  match a, b with
  | x :: a', y :: b' =>
      match op x y with
      | (x', true) => let (r, ok) := vec_assign_st op a' b' in (x' :: r, ok)
      | (x', false) => (x' :: a', false)
      end
  | _, _ => (a, true)
  end.

(** vector.rs:383-386 and 406-409: [iter_mut().for_each] with (a clone of) the scalar. *)
Fixpoint vec_assign_scalar_st {A B} (op : A -> B -> A * bool) (a : list A) (s : B) : list A * bool :=
  match a with
  | [] => ([], true)
  | x :: a' =>
      match op x s with
      | (x', true) => let (r, ok) := vec_assign_scalar_st op a' s in (x' :: r, ok)
      | (x', false) => (x' :: a', false)
      end
  end.

(** The assigning operators of element types that compute first and store afterwards: the
    primitive integers (the overflow check precedes the store), and crates/ints/src/big_int.rs:592-596,
    [*self = &*self op rhs]. *)
Definition store_after {A B} (op : A -> B -> out A) (x : A) (y : B) : A * bool :=
  match op x y with Ret z => (z, true) | _ => (x, false) end.
