(** Model of [fmt::Debug] for [Rat<T>] over primitive integers and of the [rand] support of [U<N>] and [I<N>]. *)
From Coq Require Import ZArith List Bool.
From Verif Require Import Base RatModel.
Import ListNotations.
Local Open Scope Z_scope.

(** std [fmt::Debug] of a primitive integer: an optional minus sign and the decimal digits.  Text is a list of
    character codes.  Used in crates/reals/src/fixed.rs:50-90 and crates/ints. *)
Fixpoint decimal (fuel : nat) (v : Z) : list Z :=
  match fuel with
  | O => []
  | S fuel' => if v <? 10 then [48 + v] else decimal fuel' (v / 10) ++ [48 + v mod 10]
  end.
Definition int_debug (v : Z) : list Z :=
  (if v <? 0 then [45] else []) ++ decimal (S (Z.to_nat (Z.log2 (Z.abs v)))) (Z.abs v).

(** crates/reals/src/rat.rs:82-87 [fmt]: ["{:?} / {:?}"]. *)
Definition rat_debug (r : rat) : list Z := int_debug (num r) ++ [32; 47; 32] ++ int_debug (denom r).

(** crates/ints/src/u/rand_impl.rs:6-16, crates/ints/src/i/rand_impl.rs:6-16: [fill] and [sample] take the bytes from the
    generator's array of [N] bytes, [rand] being trusted to produce such arrays. *)
Definition u_sample (bytes : list Z) : list Z := bytes.
Definition i_sample (bytes : list Z) : list Z := bytes.
