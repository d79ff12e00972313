(** Model of the trait implementations on [f32] and [f64], crates/traits/src/__impl.rs:369-524,
    of the casts between integers and floats (50-59 [saturating_as]) and of [ConvertBytes] on
    primitives (10-48 [impl_bytes]).  A float is its IEEE 754 bit pattern.  The inherent std
    methods, operators and [as] casts the impls forward to are modelled by their documented
    result.  Not modelled: [Real::log], [sqrt], [root], [cbrt], [Pow] and [TrigOps], which forward
    to std. *)
From Coq Require Import ZArith List Bool.
From Verif Require Import Base Words BitSliceModel PrimModel UModel.
Import ListNotations.
Local Open Scope Z_scope.

(** A binary interchange format: width of the fraction and of the exponent field.
    Rust's [f32] and [f64], crates/traits/src/__impl.rs:369-524. *)
Record fmt := { fbits : nat; ebits : nat }.
Definition f32_fmt := {| fbits := 23; ebits := 8 |}.
Definition f64_fmt := {| fbits := 52; ebits := 11 |}.

Section Float.
Variable F : fmt.
Let m := Z.of_nat (fbits F).
Let e := Z.of_nat (ebits F).
Let bias := 2 ^ (e - 1) - 1.

(** The pattern with the given sign, exponent field and fraction field.  No code of its own: [from_bits] of std. *)
Definition fp_encode (neg : bool) (E f : Z) : Z := (if neg then 2 ^ (e + m) else 0) + E * 2 ^ m + f.

(** A decoded float; a finite one as a multiple of the least subnormal [2^(1 - bias - m)].  No code of its own: the value of a pattern. *)
Inductive fpd := DNan | DInf (neg : bool) | DFin (units : Z).
Definition fp_decode (b : Z) : fpd :=
  let neg := 2 ^ (e + m) <=? b in
  let E := b / 2 ^ m mod 2 ^ e in
  let f := b mod 2 ^ m in
  if E =? 2 ^ e - 1 then if f =? 0 then DInf neg else DNan
  else
    let a := if E =? 0 then f else (2 ^ m + f) * 2 ^ (E - 1) in
    DFin (if neg then - a else a).

(** [PartialOrd] and [PartialEq] of std.  Used in crates/traits/src/__impl.rs:369-524. *)
Definition fp_cmp (x y : Z) : option comparison :=
  match fp_decode x, fp_decode y with
  | DNan, _ | _, DNan => None
  | DInf a, DInf b => Some (if Bool.eqb a b then Eq else if a then Lt else Gt)
  | DInf a, DFin _ => Some (if a then Lt else Gt)
  | DFin _, DInf b => Some (if b then Gt else Lt)
  | DFin a, DFin b => Some (a ?= b)
  end.
Definition fp_eq (x y : Z) : bool := match fp_cmp x y with Some Eq => true | _ => false end.
Definition fp_lt (x y : Z) : bool := match fp_cmp x y with Some Lt => true | _ => false end.
Definition fp_ge (x y : Z) : bool := match fp_cmp x y with Some Gt | Some Eq => true | _ => false end.

(** [-x] and std [abs]: act on the sign bit alone.  Used in crates/traits/src/__impl.rs:369-524. *)
Definition fp_neg (x : Z) : Z := Z.lxor x (2 ^ (e + m)).

(** __impl.rs:375-390 [Signed]. *)
Definition fl_abs (x : Z) : Z := x mod 2 ^ (e + m).
Definition fl_is_negative (x : Z) : bool := fp_lt x 0.
Definition fl_is_positive (x : Z) : bool := fp_ge x 0.

(** __impl.rs:423-433 [Bounded]: std [MAX] and [MIN]. *)
Definition fl_max_value : Z := fp_encode false (2 ^ e - 2) (2 ^ m - 1).
Definition fl_min_value : Z := fp_encode true (2 ^ e - 2) (2 ^ m - 1).

(** __impl.rs:435-445 [BoundedSigned]: std [MIN_POSITIVE], the least normal number. *)
Definition fl_min_positive : Z := fp_encode false 1 0.
Definition fl_max_negative : Z := fp_neg fl_min_positive.

(** __impl.rs:447-469 [Zero], [One]. *)
Definition fl_zero : Z := 0.
Definition fl_is_zero (x : Z) : bool := fp_eq x fl_zero.
Definition fl_one : Z := fp_encode false bias 0.
Definition fl_is_one (x : Z) : bool := fp_eq x fl_one.

(** A non-negative whole number rounded to [p] significant bits, to nearest, ties to even.
    No code of its own: the rounding of [as], crates/traits/src/__impl.rs:50-59. *)
Definition round_sig (p x : Z) : Z :=
  let s := Z.log2 x - (p - 1) in
  if s <=? 0 then x
  else
    let q := x / 2 ^ s in
    let r := x mod 2 ^ s in
    let up := (2 ^ (s - 1) <? r) || ((r =? 2 ^ (s - 1)) && Z.odd q) in
    (if up then q + 1 else q) * 2 ^ s.

(** __impl.rs:505-518 [FromSaturating] from integers: [val as f32], which rounds to nearest and
    overflows to infinity. *)
Definition fl_of_int (v : Z) : Z :=
  let neg := v <? 0 in
  let y := round_sig (m + 1) (Z.abs v) in
  if y =? 0 then 0
  else if 2 ^ (bias + 1) <=? y then fp_encode neg (2 ^ e - 1) 0
  else
    let k := Z.log2 y in
    let sig := if k <=? m then y * 2 ^ (m - k) else y / 2 ^ (k - m) in
    fp_encode neg (k + bias) (sig - 2 ^ m).

(** __impl.rs:296-297 [FromSaturating] into integers: [val as i32], which truncates toward zero,
    clamps, and maps a NaN to 0. *)
Definition fl_to_int (t : ity) (x : Z) : Z :=
  match fp_decode x with
  | DNan => 0
  | DInf neg => if neg then imin t else imax t
  | DFin u => Z.max (imin t) (Z.min (Z.quot u (2 ^ (bias - 1 + m))) (imax t))
  end.

(** __impl.rs:392-402 [Real::floor], [ceil], [round], 404-406 [trunc]: std's methods, which round
    down, up, to nearest with ties away from zero, and toward zero; the result is the float of that
    whole number, or a zero with the sign of [x]; infinities and NaNs are returned unchanged. *)
Definition unit_den : Z := 2 ^ (bias - 1 + m).
Definition fl_whole (x k : Z) : Z :=
  if k =? 0 then (if 2 ^ (e + m) <=? x then 2 ^ (e + m) else 0) else fl_of_int k.
Definition fl_rounded (f : Z -> Z) (x : Z) : Z := match fp_decode x with DFin u => fl_whole x (f u) | _ => x end.
Definition fl_floor (x : Z) : Z := fl_rounded (fun u => u / unit_den) x.
Definition fl_ceil (x : Z) : Z := fl_rounded (fun u => - (- u / unit_den)) x.
Definition fl_round (x : Z) : Z :=
  fl_rounded (fun u => Z.sgn u * ((2 * Z.abs u + unit_den) / (2 * unit_den))) x.
Definition fl_trunc (x : Z) : Z := fl_rounded (fun u => Z.quot u unit_den) x.

(** The float that is [u] times the least subnormal, for [u] of few enough significant bits; [+0]
    for 0.  No code of its own: [from_bits] of std. *)
Definition fl_of_units (u : Z) : Z :=
  let a := Z.abs u in
  let k := Z.log2 a in
  if k <? m then fp_encode ((u <? 0)) 0 a else fp_encode (u <? 0) (k - m + 1) (a / 2 ^ (k - m) - 2 ^ m).

(** __impl.rs:408-410 [fract]: std's [x - x.trunc()]; the subtraction is exact.  The NaN of
    [inf - inf] has a sign and payload that std leaves open. *)
Definition fl_fract (x : Z) : Z :=
  match fp_decode x with
  | DFin u => fl_of_units (Z.rem u unit_den)
  | DInf _ => fp_encode false (2 ^ e - 1) (2 ^ (m - 1))
  | DNan => x
  end.

End Float.

(** ** Bytes, __impl.rs:10-48: [size] bytes; [le]: the target is little endian.  A float goes
    through its bit pattern, an integer through its two's complement pattern. *)
Definition pat_to_le (size : nat) (p : Z) : list Z := le_bytes size p.
Definition pat_to_be (size : nat) (p : Z) : list Z := rev (le_bytes size p).
Definition pat_to_ne (le : bool) (size : nat) (p : Z) : list Z :=
  if le then pat_to_le size p else pat_to_be size p.
Definition pat_from_le (b : list Z) : Z := from_le b.
Definition pat_from_be (b : list Z) : Z := from_le (rev b).
Definition pat_from_ne (le : bool) (b : list Z) : Z := if le then pat_from_le b else pat_from_be b.

Definition prim_to_le (t : ity) (size : nat) (v : Z) : list Z := pat_to_le size (pattern t v).
Definition prim_to_be (t : ity) (size : nat) (v : Z) : list Z := pat_to_be size (pattern t v).
Definition prim_to_ne (le : bool) (t : ity) (size : nat) (v : Z) : list Z := pat_to_ne le size (pattern t v).
Definition prim_from_le (t : ity) (b : list Z) : Z := wrap t (pat_from_le b).
Definition prim_from_be (t : ity) (b : list Z) : Z := wrap t (pat_from_be b).
Definition prim_from_ne (le : bool) (t : ity) (b : list Z) : Z := wrap t (pat_from_ne le b).

(** ** __impl/nz.rs:19-31, 39-66: bounds, [abs] and sign predicates of [NonZeroI8] ...; std's [MIN] of an
    unsigned [NonZero] is 1. *)
Definition nz_min_value (t : ity) : Z := if isigned t then imin t else 1.
Definition nz_max_value (t : ity) : Z := imax t.
Definition nz_abs (dbg : bool) (t : ity) (v : Z) : res Z := prim_abs dbg t v.
Definition nz_is_positive (v : Z) : bool := prim_is_positive v.
Definition nz_is_negative (v : Z) : bool := prim_is_negative v.
Definition nz_min_positive : Z := nz_one.
Definition nz_max_negative (dbg : bool) (t : ity) : res Z := arith dbg t (- nz_one).
