(** Model of crates/compounds/src/complex.rs, [Vector::cross] and the matrix product for element types
    whose operators may panic, such as the primitive integers.  VectorModel.v and MatrixModel.v have the
    same functions for operators that do not panic (PropCompoundInt.v shows that they agree). *)
From Coq Require Import ZArith List Bool.
From Verif Require Import Base Words BitSliceModel PrimModel FixedModel StaticIterModel VectorModel MatrixModel.
Import ListNotations.

Section Fallible.
Context {T : Type} (add sub mul div : T -> T -> out T).

(** complex.rs:59-61, 70-72. *)
Definition cf_add (a b : complex T) : out (complex T) :=
  obind (add (real a) (real b)) (fun r => obind (add (imag a) (imag b)) (fun i => Ret (Cx r i))).
Definition cf_add_scalar (a : complex T) (s : T) : out (complex T) :=
  obind (add (real a) s) (fun r => Ret (Cx r (imag a))).
(** complex.rs:81-83, 92-94. *)
Definition cf_sub (a b : complex T) : out (complex T) :=
  obind (sub (real a) (real b)) (fun r => obind (sub (imag a) (imag b)) (fun i => Ret (Cx r i))).
Definition cf_sub_scalar (a : complex T) (s : T) : out (complex T) :=
  obind (sub (real a) s) (fun r => Ret (Cx r (imag a))).
(** complex.rs:104-109, 118-120. *)
Definition cf_mul (a b : complex T) : out (complex T) :=
  obind (mul (real a) (real b)) (fun p1 => obind (mul (imag a) (imag b)) (fun p2 => obind (sub p1 p2) (fun r =>
  obind (mul (real a) (imag b)) (fun q1 => obind (mul (real b) (imag a)) (fun q2 => obind (add q1 q2) (fun i =>
  Ret (Cx r i))))))).
Definition cf_mul_scalar (a : complex T) (s : T) : out (complex T) :=
  obind (mul (real a) s) (fun r => obind (mul (imag a) s) (fun i => Ret (Cx r i))).
(** complex.rs:129-136, 145-151. *)
Definition cf_div (a b : complex T) : out (complex T) :=
  obind (mul (real b) (real b)) (fun d1 => obind (mul (imag b) (imag b)) (fun d2 => obind (add d1 d2) (fun divisor =>
  obind (mul (real a) (real b)) (fun p1 => obind (mul (imag a) (imag b)) (fun p2 => obind (add p1 p2) (fun n1 =>
  obind (div n1 divisor) (fun r =>
  obind (mul (imag a) (real b)) (fun q1 => obind (mul (real a) (imag b)) (fun q2 => obind (sub q1 q2) (fun n2 =>
  obind (div n2 divisor) (fun i => Ret (Cx r i)))))))))))).
Definition cf_div_scalar (a : complex T) (s : T) : out (complex T) :=
  obind (mul s s) (fun divisor =>
  obind (mul (real a) s) (fun n1 => obind (div n1 divisor) (fun r =>
  obind (mul (imag a) s) (fun n2 => obind (div n2 divisor) (fun i => Ret (Cx r i)))))).

(** vector.rs:177-191 [cross]. *)
Definition crossf (a b : T * T * T) : out (T * T * T) :=
  let '(ax, ay, az) := a in let '(bx, by_, bz) := b in
  obind (mul ay bz) (fun x1 => obind (mul az by_) (fun x2 =>
  obind (mul az bx) (fun y1 => obind (mul ax bz) (fun y2 =>
  obind (mul ax by_) (fun z1 => obind (mul ay bx) (fun z2 =>
  obind (sub x1 x2) (fun x => obind (sub y1 y2) (fun y => obind (sub z1 z2) (fun z => Ret (x, y, z)))))))))).

(** static.rs:135-146 [Mul] of matrices. *)
Definition matf_mul (row col col2 : nat) (a b : list (list T)) : out (list (list T)) :=
  from_fn row (fun i => from_fn col2 (fun j =>
    obind (mat_get a i 0) (fun x => obind (mat_get b 0 j) (fun y =>
    fold_left (fun acc k => obind acc (fun acc =>
      obind (mat_get a i k) (fun x => obind (mat_get b k j) (fun y => obind (mul x y) (fun p => add acc p)))))
      (seq 1 (col - 1)) (mul x y))))).
End Fallible.

(** The operators of the primitive integers (PrimModel.v [arith], FixedModel.v [prim_div]).
    Rust's operators as crates/compounds/src/complex.rs:50-130, vector.rs and matrix/static.rs:126-146 use them; the functions below are those above at these operators. *)
Section Ints.
Context (dbg : bool) (t : ity).
Local Open Scope Z_scope.
Definition of_res {A} (r : res A) : out A := match r with Ok a => Ret a | _ => Pan end.
Definition int_add (x y : Z) : out Z := of_res (arith dbg t (x + y)).
Definition int_sub (x y : Z) : out Z := of_res (arith dbg t (x - y)).
Definition int_mul (x y : Z) : out Z := of_res (arith dbg t (x * y)).
Definition int_div (x y : Z) : out Z := of_res (prim_div t x y).
Definition ci_add := cf_add int_add.
Definition ci_add_scalar := cf_add_scalar int_add.
Definition ci_sub := cf_sub int_sub.
Definition ci_sub_scalar := cf_sub_scalar int_sub.
Definition ci_mul := cf_mul int_add int_sub int_mul.
Definition ci_mul_scalar := cf_mul_scalar int_mul.
Definition ci_div := cf_div int_add int_sub int_mul int_div.
Definition ci_div_scalar := cf_div_scalar int_mul int_div.
Definition crossi := crossf int_sub int_mul.
Definition mati_mul := matf_mul int_add int_mul.
End Ints.
