(** Model of vectors, complex numbers and matrices over [f32] and [f64] with IEEE 754 rounding.

    A float is Flocq's [binary_float prec emax]: zeros and infinities with a sign, one NaN, finite numbers.
    [f32] is precision 24 and maximal exponent 128, [f64] is 53 and 1024.  Rust's operators round to nearest,
    ties to even.  Simplified: NaNs have no sign and no payload.  The functions are those of VectorModel.v and
    MatrixModel.v at these operators. *)
From Coq Require Import ZArith List Bool.
From Flocq Require Import Core BinarySingleNaN.
From Verif Require Import Base StaticIterModel VectorModel MatrixModel.
Import ListNotations.

Section Format.
Context {prec emax : Z} {Hp : Prec_gt_0 prec} {Hm : Prec_lt_emax prec emax}.
Notation float := (binary_float prec emax).

(** The operators of [f32] and [f64].
    Rust's operators, as the generic code of crates/compounds/src/vector.rs, complex.rs and matrix uses them. *)
Definition f_add (x y : float) : float := Bplus mode_NE x y.
Definition f_sub (x y : float) : float := Bminus mode_NE x y.
Definition f_mul (x y : float) : float := Bmult mode_NE x y.
Definition f_div (x y : float) : float := Bdiv mode_NE x y.
Definition f_neg (x : float) : float := Bopp x.
Definition f_partial_cmp (x y : float) : option comparison := Bcompare x y.
(** crates/traits/src/__impl.rs:414-416 [sqrt]. *)
Definition f_sqrt (x : float) : float := Bsqrt mode_NE x.
(** crates/traits/src/__impl.rs:445-467 [Zero], [One]. *)
Definition f_zero : float := B754_zero false.
Definition f_is_zero (x : float) : bool := match f_partial_cmp x f_zero with Some Eq => true | _ => false end.
Definition f_one : float := Bone.

(** crates/compounds/src/vector.rs:54-66. *)
Definition f_sum (n : nat) (a : list float) : out float := vec_sum f_zero (fun x y => Ret (f_add x y)) n a.
Definition f_product (n : nat) (a : list float) : out float := vec_product f_one (fun x y => Ret (f_mul x y)) n a.
Definition f_dot (a b : list float) : out float :=
  dot_product f_zero (fun x y => Ret (f_add x y)) (fun x y => Ret (f_mul x y)) a b.
(** vector.rs:177-191. *)
Definition f_cross (a b : float * float * float) : float * float * float := cross f_sub f_mul a b.

(** crates/compounds/src/complex.rs:43-50, 97-151. *)
Definition f_abs_squared (a : complex float) : float := abs_squared f_add f_mul a.
Definition f_abs (a : complex float) : float := f_sqrt (f_abs_squared a).
Definition f_cmul (a b : complex float) : complex float := c_mul f_add f_sub f_mul a b.
Definition f_cdiv (a b : complex float) : complex float := c_div f_add f_sub f_mul f_div a b.
Definition f_cdiv_scalar (a : complex float) (s : float) : complex float := c_div_scalar f_mul f_div a s.

(** crates/compounds/src/matrix/static.rs:135-146 [Mul], 48-51 [row_reduce], 59-76 [determinant]. *)
Definition f_mat_mul (row col col2 : nat) (a b : list (list float)) : out (list (list float)) :=
  mat_mul f_add f_mul row col col2 a b.
Definition f_row_reduce (row col : nat) (m : list (list float)) : out (list (list float)) :=
  static_row_reduce f_one f_sub f_mul f_neg (fun x y => Ret (f_div x y)) f_is_zero f_partial_cmp row col m.
Definition f_determinant (n : nat) (m : list (list float)) : out float :=
  determinant f_one f_sub f_mul f_neg (fun x y => Ret (f_div x y)) f_is_zero f_partial_cmp n m.
(** crates/compounds/src/bivec.rs:45-63 [BiVector::new], vector.rs:84-86 [wedge]. *)
Definition f_wedge (dbg : bool) (dim : nat) (a b : list float) : out (list float) :=
  bivec_new f_one f_sub f_mul f_neg (fun x y => Ret (f_div x y)) f_is_zero f_partial_cmp dbg dim a b.
End Format.

(** The two formats.  Rust's types. *)
Definition f32 := binary_float 24 128.
Definition f64 := binary_float 53 1024.
#[global] Instance prec_f32 : Prec_gt_0 24 := eq_refl.
#[global] Instance emax_f32 : Prec_lt_emax 24 128 := eq_refl.
#[global] Instance prec_f64 : Prec_gt_0 53 := eq_refl.
#[global] Instance emax_f64 : Prec_lt_emax 53 1024 := eq_refl.

(** The [f64] nearest to [m * 2^e], to write examples.  No code. *)
Definition of_z (m e : Z) : f64 := binary_normalize 53 1024 prec_f64 emax_f64 mode_NE m e false.
