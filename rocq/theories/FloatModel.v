(** Model of [BigInt::approx_float], crates/ints/src/big_int.rs:248-262, and of the part of
    [f64] it uses.  Every number that occurs in it is a non-negative whole number, an infinity
    or a NaN, so that is all of [f64] that is modelled. *)
From Coq Require Import ZArith List Bool.
From Verif Require Import Base Words BitSliceModel InternModel BigIntModel.
Import ListNotations.
Local Open Scope Z_scope.

(** A non-negative whole [f64], [f64::INFINITY], NaN (any).  The type in crates/ints/src/big_int.rs:249-257. *)
Inductive f64 := Fin (n : Z) | Inf | NaN.

(** A non-negative whole number rounded to 53 significant bits, to nearest, ties to even
    (IEEE 754 [roundTiesToEven], without the bound on the exponent). *)
Definition round53 (x : Z) : Z :=
  let e := Z.log2 x - 52 in
  if e <=? 0 then x
  else
    let q := x / 2 ^ e in
    let r := x mod 2 ^ e in
    let up := (2 ^ (e - 1) <? r) || ((r =? 2 ^ (e - 1)) && Z.odd q) in
    (if up then q + 1 else q) * 2 ^ e.

(** ... and with it: from [2^1024] on the result is infinite. *)
Definition round64 (x : Z) : f64 := let y := round53 x in if y <? 2 ^ 1024 then Fin y else Inf.

(** [val as f64] of a [usize].  crates/ints/src/big_int.rs:249, 255. *)
Definition as_f64 (v : Z) : f64 := round64 v.

(** [x.powi(n)]: std leaves the precision open; the exact power, rounded.  crates/ints/src/big_int.rs:257. *)
Definition powi (x : f64) (n : nat) : f64 :=
  match x with
  | Fin v => round64 (v ^ Z.of_nat n)
  | Inf => if Nat.eqb n 0 then Fin 1 else Inf
  | NaN => if Nat.eqb n 0 then Fin 1 else NaN
  end.

(** [x.mul_add(y, z)] = [x * y + z], rounded once; 0 times infinity is a NaN.  crates/ints/src/big_int.rs:257. *)
Definition mul_add (x y z : f64) : f64 :=
  match x, y, z with
  | NaN, _, _ | _, NaN, _ => NaN
  | Inf, Fin 0, _ | Fin 0, Inf, _ => NaN
  | _, _, NaN => NaN
  | Fin a, Fin b, Fin c => round64 (a * b + c)
  | _, _, _ => Inf
  end.

(** big_int.rs:249 [USIZE_MAX]. *)
Definition usize_max_f64 : f64 := as_f64 (2 ^ 64 - 1).

(** big_int.rs:251-260 the [try_fold]; [None] is [Err], an index that is no [i32]. *)
Fixpoint approx_loop (l : list Z) (idx : nat) (acc : f64) : option f64 :=
  match l with
  | [] => Some acc
  | v :: l' =>
    if Z.of_nat idx <? 2 ^ 31 then
      approx_loop l' (S idx) (mul_add (as_f64 v) (powi usize_max_f64 idx) acc)
    else None
  end.

(** big_int.rs:248-262 [approx_float]. *)
Definition approx_limbs (l : list Z) : f64 :=
  match approx_loop l 0 (Fin 0) with Some r => r | None => Inf end.
Definition bi_approx_float (st : istore) (a : Z) : res f64 :=
  do l <- bi_slice st a ;; Ok (approx_limbs l).
