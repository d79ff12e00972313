(** Vectors, matrices and complex numbers whose elements are [Rat<T>]: the generic code of crates/compounds
    (VectorModel.v, MatrixModel.v, CompoundIntModel.v) over the operators of crates/reals/src/rat.rs. *)
From Coq Require Import ZArith List Bool.
From Verif Require Import RatModel Base Words BitSliceModel PrimModel FixedModel StaticIterModel VectorModel MatrixModel CompoundIntModel.
Import ListNotations.

Section RatCompounds.
Context (dbg : bool) (fuel : nat) (t : ity).

(** rat.rs:112-122 [+], 124-134 [-], 136-142 [*], 144-150 [/]. *)
Definition rq_add (x y : rat) : out rat := of_res (rat_add dbg fuel t x y).
Definition rq_sub (x y : rat) : out rat := of_res (rat_sub dbg fuel t x y).
Definition rq_mul (x y : rat) : out rat := of_res (rat_mul dbg fuel t x y).
Definition rq_div (x y : rat) : out rat := of_res (rat_div dbg fuel t x y).

(** vector.rs:302-362 the operators by element, vector.rs:54-66 [sum], [product], [dot_product], vector.rs:177-191 [cross]. *)
Definition rv_op (op : rat -> rat -> out rat) (n : nat) (a b : list rat) : out (list rat) := vec_op op n a b.
Definition rv_scalar (op : rat -> rat -> out rat) (a : list rat) (s : rat) : out (list rat) := vec_op_scalar op a s.
Definition rv_sum (n : nat) (a : list rat) : out rat := vec_sum rat_zero rq_add n a.
Definition rv_product (n : nat) (a : list rat) : out rat := vec_product rat_one rq_mul n a.
Definition rv_dot (a b : list rat) : out rat := dot_product rat_zero rq_add rq_mul a b.
Definition rv_cross := crossf rq_sub rq_mul.

(** static.rs:135-146 the product of matrices. *)
Definition rm_mul := matf_mul rq_add rq_mul.

(** complex.rs:44-46 [abs_squared]. *)
Definition rc_abs_squared (a : complex rat) : out rat :=
  obind (rq_mul (real a) (real a)) (fun x => obind (rq_mul (imag a) (imag a)) (fun y => rq_add x y)).
(** complex.rs:59-61, 81-83, 104-109, 129-136. *)
Definition rc_add := cf_add rq_add.
Definition rc_sub := cf_sub rq_sub.
Definition rc_mul := cf_mul rq_add rq_sub rq_mul.
Definition rc_div := cf_div rq_add rq_sub rq_mul rq_div.
(** complex.rs:70-72, 92-94, 118-120, 145-151. *)
Definition rc_add_scalar := cf_add_scalar rq_add.
Definition rc_sub_scalar := cf_sub_scalar rq_sub.
Definition rc_mul_scalar := cf_mul_scalar rq_mul.
Definition rc_div_scalar := cf_div_scalar rq_mul rq_div.
End RatCompounds.
