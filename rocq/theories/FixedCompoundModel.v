(** Vectors, matrices and complex numbers whose elements are [Fixed<T, N>] over a primitive integer: the generic code of
    crates/compounds (VectorModel.v, MatrixModel.v, CompoundIntModel.v) over the operators of crates/reals/src/fixed.rs.
    An element is its raw value. *)
From Coq Require Import ZArith List Bool.
From Verif Require Import Base Words BitSliceModel PrimModel FixedModel StaticIterModel VectorModel MatrixModel CompoundIntModel.
Import ListNotations.

Section FixedCompounds.
Context (dbg : bool) (t : ity) (N : nat).

(** fixed.rs:116-146 [+], [-], [*], [/]. *)
Definition fq_add (x y : Z) : out Z := of_res (fx_add dbg t x y).
Definition fq_sub (x y : Z) : out Z := of_res (fx_sub dbg t x y).
Definition fq_mul (x y : Z) : out Z := of_res (fx_mul dbg t x y).
Definition fq_div (x y : Z) : out Z := of_res (fx_div t x y).

(** vector.rs:302-362 the operators by element, with a vector or a scalar. *)
Definition fv_op (op : Z -> Z -> out Z) (n : nat) (a b : list Z) : out (list Z) := vec_op op n a b.
Definition fv_scalar (op : Z -> Z -> out Z) (a : list Z) (s : Z) : out (list Z) := vec_op_scalar op a s.
(** vector.rs:54-66 [sum], [product], [dot_product]; [product] starts from [one()], fixed.rs:182-185. *)
Definition fv_sum (n : nat) (a : list Z) : out Z := vec_sum fx_new fq_add n a.
Definition fv_product (n : nat) (a : list Z) : out Z := obind (of_res (fx_one dbg t N)) (fun one => vec_product one fq_mul n a).
Definition fv_dot (a b : list Z) : out Z := dot_product fx_new fq_add fq_mul a b.
(** vector.rs:177-191 [cross]. *)
Definition fv_cross := crossf fq_sub fq_mul.

(** static.rs:87-126 [+] and [-] of matrices, 135-146 their product. *)
Definition fm_op (op : Z -> Z -> out Z) := mat_op op.
Definition fm_mul := matf_mul fq_add fq_mul.

(** complex.rs:44-46 [abs_squared], 59-151 the operators. *)
Definition fc_abs_squared (a : complex Z) : out Z :=
  obind (fq_mul (real a) (real a)) (fun x => obind (fq_mul (imag a) (imag a)) (fun y => fq_add x y)).
Definition fc_add := cf_add fq_add.
Definition fc_sub := cf_sub fq_sub.
Definition fc_mul := cf_mul fq_add fq_sub fq_mul.
Definition fc_div := cf_div fq_add fq_sub fq_mul fq_div.
Definition fc_add_scalar := cf_add_scalar fq_add.
Definition fc_sub_scalar := cf_sub_scalar fq_sub.
Definition fc_mul_scalar := cf_mul_scalar fq_mul.
End FixedCompounds.
