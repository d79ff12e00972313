(** Model of distances between vectors of [f32] and [f64] with IEEE 754 rounding; floats as in IeeeModel.v.
    [powf] is the platform's power function ([f64::powf], which [Pow::pow] of a float is): Rust does not say how it rounds, so it
    is a parameter here and the theorems say what they need to know of it. *)
From Coq Require Import ZArith List Bool.
From Flocq Require Import Core BinarySingleNaN.
From Verif Require Import Base StaticIterModel VectorModel IeeeModel.
Import ListNotations.

Section Format.
Context {prec emax : Z} {Hp : Prec_gt_0 prec} {Hm : Prec_lt_emax prec emax}.
Notation float := (binary_float prec emax).
Variable powf : float -> float -> float.

(** crates/compounds/src/vector.rs:68-74 [distance_squared]; crates/traits/src/__impl.rs:469-475 [Pow]. *)
Definition f_distance_squared (a b : list float) : out float :=
  distance_squared f_zero f_one (fun x y => Ret (f_add x y)) (fun x y => Ret (f_sub x y)) (fun x y => Ret (powf x y)) a b.
(** vector.rs:76-78 [distance]; crates/traits/src/__impl.rs:414-416 [sqrt]. *)
Definition f_distance (a b : list float) : out float :=
  obind (f_distance_squared a b) (fun d => Ret (f_sqrt d)).
End Format.
