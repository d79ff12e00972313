(** Model of the powers, roots, logarithms and trigonometric functions of [f32] and [f64], and of the
    distances built on them, in exact real arithmetic.

    Simplified: a float is [Some x] for a real [x], or [None] when it is NaN or infinite; std's functions
    return the exact real result instead of a rounded one, and nothing overflows or underflows.
    [None] in gives [None] out. *)
From Coq Require Import Reals List ZArith.
From Verif Require Import Base StaticIterModel VectorModel.
Import ListNotations.
Local Open Scope R_scope.

(** A float, simplified: see above.  No code of its own. *)
Definition fl := option R.
Definition lift2 (f : R -> R -> fl) (a b : fl) : fl :=
  match a, b with Some x, Some y => f x y | _, _ => None end.
Definition lift1 (f : R -> fl) (a : fl) : fl := match a with Some x => f x | None => None end.

(** The operators of floats; division by zero is infinite or NaN.
    Rust's operators, as crates/traits/src/__impl.rs and crates/compounds/src/vector.rs use them. *)
Definition fl_add : fl -> fl -> fl := lift2 (fun x y => Some (x + y)).
Definition fl_sub : fl -> fl -> fl := lift2 (fun x y => Some (x - y)).
Definition fl_mul : fl -> fl -> fl := lift2 (fun x y => Some (x * y)).
Definition fl_div : fl -> fl -> fl := lift2 (fun x y => if Req_EM_T y 0 then None else Some (x / y)).
(** crates/traits/src/__impl.rs:445-467 [Zero], [One]. *)
Definition fl_zero : fl := Some 0.
Definition fl_one : fl := Some 1.

(** crates/traits/src/__impl.rs:469-475 [Pow], which is std's [powf]: 1 for exponent 0; a power of a positive
    number; of zero; of a negative number, which has one only for whole exponents. *)
Definition powf (x y : R) : fl :=
  if Req_EM_T y 0 then Some 1
  else if Rlt_dec 0 x then Some (Rpower x y)
  else if Req_EM_T x 0 then (if Rlt_dec 0 y then Some 0 else None)
  else if Req_EM_T (IZR (Int_part y)) y then Some (powerRZ x (Int_part y))
  else None.
Definition fl_pow : fl -> fl -> fl := lift2 powf.

(** crates/traits/src/__impl.rs:414-416 [sqrt], which is std's. *)
Definition fl_sqrt : fl -> fl := lift1 (fun x => if Rle_dec 0 x then Some (sqrt x) else None).
(** std's [ln].  Forwarded to in crates/traits/src/__impl.rs. *)
Definition fl_ln : fl -> fl := lift1 (fun x => if Rlt_dec 0 x then Some (ln x) else None).
(** crates/traits/src/__impl.rs:410-412 [log], which is std's: a quotient of natural logarithms. *)
Definition fl_log (x base : fl) : fl := fl_div (fl_ln x) (fl_ln base).

(** crates/traits/src/class.rs:65-67 [root], 70-72 [sqrt], 75-80 [cbrt], the defaults of the trait.  [f32] and
    [f64] have their own [sqrt] but not the other two. *)
Definition fl_root (x base : fl) : fl := fl_pow x (fl_div fl_one base).
Definition default_sqrt (x : fl) : fl := fl_pow x (fl_div fl_one (fl_add fl_one fl_one)).
Definition fl_cbrt (x : fl) : fl := fl_pow x (fl_div fl_one (fl_add (fl_add fl_one fl_one) fl_one)).

(** crates/traits/src/__impl.rs:477-501 [TrigOps]; [sin], [cos] and [tan] are std's. *)
Definition fl_sin : fl -> fl := lift1 (fun x => Some (sin x)).
Definition fl_cos : fl -> fl := lift1 (fun x => Some (cos x)).
Definition fl_tan : fl -> fl := lift1 (fun x => if Req_EM_T (cos x) 0 then None else Some (tan x)).
Definition fl_csc (x : fl) : fl := fl_div (Some 1) (fl_sin x).
Definition fl_sec (x : fl) : fl := fl_div (Some 1) (fl_cos x).
Definition fl_cot (x : fl) : fl := fl_div (Some 1) (fl_tan x).

(** crates/compounds/src/vector.rs:68-78 [distance_squared] and [distance] at floats. *)
Definition fl_distance_squared (a b : list fl) : out fl :=
  distance_squared fl_zero fl_one (fun x y => Ret (fl_add x y)) (fun x y => Ret (fl_sub x y))
    (fun x y => Ret (fl_pow x y)) a b.
Definition fl_distance (a b : list fl) : out fl :=
  obind (fl_distance_squared a b) (fun d => Ret (fl_sqrt d)).

(** crates/compounds/src/complex.rs:43-50 [abs] at floats. *)
Definition fl_abs (a : @complex fl) : fl := fl_sqrt (abs_squared fl_add fl_mul a).
