(** Vectors, matrices and complex numbers whose elements are [U<N>] or [I<N>]: the generic code of crates/compounds
    (VectorModel.v, MatrixModel.v, CompoundIntModel.v) over the operators of crates/ints/src/u.rs and i.rs. *)
From Coq Require Import ZArith List Bool.
From Verif Require Import Base Words BitSliceModel ElementModel UModel IModel StaticIterModel VectorModel MatrixModel CompoundIntModel.
Import ListNotations.

(** The element type: [U<N>] in a build with or without overflow checks, or [I<N>] (whose operators do not depend on the build).
    crates/ints/src/u.rs:35, i.rs. *)
Inductive element := Unsigned (dbg : bool) | Signed.

Section ByteCompounds.
Context (t : element).

(** crates/ints/src/u.rs:239-273 and i.rs:32-57 [+], [-], [*]. *)
Definition bq_add (x y : list Z) : out (list Z) := match t with Unsigned dbg => of_res (u_add dbg x y) | Signed => Ret (i_add x y) end.
Definition bq_sub (x y : list Z) : out (list Z) := match t with Unsigned dbg => of_res (u_sub dbg x y) | Signed => Ret (i_sub x y) end.
Definition bq_mul (x y : list Z) : out (list Z) := match t with Unsigned dbg => of_res (u_mul dbg x y) | Signed => Ret (i_mul x y) end.

(** vector.rs:302-362 the operators by element, with a vector (by value or reference) or a scalar; 364-418 the assigning ones. *)
Definition yv_op (op : list Z -> list Z -> out (list Z)) (n : nat) (a b : list (list Z)) := vec_op op n a b.
Definition yv_op_ref (op : list Z -> list Z -> out (list Z)) (n : nat) (a b : list (list Z)) := vec_op_ref op n a b.
Definition yv_scalar (op : list Z -> list Z -> out (list Z)) (a : list (list Z)) (s : list Z) := vec_op_scalar op a s.
Definition yv_assign (op : list Z -> list Z -> out (list Z)) (a b : list (list Z)) := vec_assign op a b.
Definition yv_assign_scalar (op : list Z -> list Z -> out (list Z)) (a : list (list Z)) (s : list Z) := vec_assign_scalar op a s.
(** vector.rs:177-191 [cross]. *)
Definition yv_cross := crossf bq_sub bq_mul.

(** static.rs:87-126 [+] and [-] of matrices, 135-146 their product. *)
Definition ym_op (op : list Z -> list Z -> out (list Z)) := mat_op op.
Definition ym_mul := matf_mul bq_add bq_mul.

(** complex.rs:59-61, 81-83, 104-109, and 70-72, 92-94, 118-120 with a scalar. *)
Definition yc_add := cf_add bq_add.
Definition yc_sub := cf_sub bq_sub.
Definition yc_mul := cf_mul bq_add bq_sub bq_mul.
Definition yc_add_scalar := cf_add_scalar bq_add.
Definition yc_sub_scalar := cf_sub_scalar bq_sub.
Definition yc_mul_scalar := cf_mul_scalar bq_mul.
End ByteCompounds.
