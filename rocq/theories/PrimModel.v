(** Model of crates/traits/src/__impl.rs and __impl/nz.rs: the trait implementations on
    primitive integers.  A primitive integer type is an [ity] (BitSliceModel.v): a bit width
    and a signedness.  The inherent std methods the impls forward to ([wrapping_sub],
    [checked_shl], [pow], ...) are modelled by their documented result. *)
From Coq Require Import ZArith List Bool.
From Verif Require Import Base Words BitSliceModel.
Import ListNotations.
Local Open Scope Z_scope.

(** Result of an operator subject to overflow checks: panics on overflow in a debug build,
    wraps in a release build.  Rust's operators, which the impls of crates/traits/src/__impl.rs forward to. *)
Definition arith (dbg : bool) (t : ity) (v : Z) : res Z :=
  if in_range t v then Ok v else if dbg then Panic else Ok (wrap t v).

(** ** Bounded, BoundedBit, Zero, One *)

(** crates/traits/src/__impl.rs:99-109 [Bounded]. *)
Definition prim_max_value (t : ity) : Z := imax t.
Definition prim_min_value (t : ity) : Z := imin t.

(** crates/traits/src/__impl.rs:126-130 [Zero::is_zero] and 138-142 [One::is_one]. *)
Definition prim_is_zero (v : Z) : bool := v =? 0.
Definition prim_is_one (v : Z) : bool := v =? 1.

(** crates/traits/src/__impl/nz.rs:9-17 [One] for the [NonZero] types. *)
Definition nz_one : Z := 1.
Definition nz_is_one (v : Z) : bool := negb (v =? 0).

(** crates/traits/src/__impl.rs:319-337 and __impl/nz.rs:40-56 [Signed]: std [abs] overflows
    on the minimum; std [is_positive] is [> 0]. *)
Definition prim_abs (dbg : bool) (t : ity) (v : Z) : res Z := arith dbg t (Z.abs v).
Definition prim_is_positive (v : Z) : bool := 0 <? v.
Definition prim_is_negative (v : Z) : bool := v <? 0.

(** The bit pattern of a value, as a number below [2^bits].  No code of its own. *)
Definition pattern (t : ity) (v : Z) : Z := v mod base (ibits t).

(** crates/traits/src/__impl.rs:111-119 [BoundedBit]: the std counts, cast with [as]. *)
Definition prim_leading_zeros (t : ity) (v : Z) : Z :=
  let p := pattern t v in
  wrap t (if p =? 0 then Z.of_nat (ibits t) else Z.of_nat (ibits t) - 1 - Z.log2 p).

Fixpoint ctz_pos (p : positive) : Z :=
  match p with xO p' => 1 + ctz_pos p' | _ => 0 end.

Definition prim_trailing_zeros (t : ity) (v : Z) : Z :=
  wrap t (match pattern t v with Zpos p => ctz_pos p | _ => Z.of_nat (ibits t) end).

(** ** Pow, Gcd, Factorial *)

(** [rhs as u32].  crates/traits/src/__impl.rs:79, 87, 149, 197, 205. *)
Definition as_u32 (v : Z) : Z := v mod 2 ^ 32.

(** crates/traits/src/__impl.rs:145-151 [Pow::pow]. *)
Definition prim_pow (dbg : bool) (t : ity) (a n : Z) : res Z := arith dbg t (a ^ as_u32 n).

(** [x % y] on a primitive: panics on a zero divisor and on [MIN % -1], in every build.  Rust's operator. *)
Definition prim_rem (t : ity) (x y : Z) : res Z :=
  if y =? 0 then Panic
  else if isigned t && (x =? imin t) && (y =? -1) then Panic
  else Ok (Z.rem x y).

(** crates/traits/src/__impl.rs:162-165, the [while] loop of [gcd]. *)
Fixpoint gcd_loop (fuel : nat) (t : ity) (min max : Z) : res Z :=
  match fuel with
  | O => Timeout
  | S fuel' =>
    if min =? 0 then Ok max
    else do r <- prim_rem t max min ;; gcd_loop fuel' t r min
  end.

(** crates/traits/src/__impl.rs:2-8 [minmax] and 153-167 [Gcd::gcd]. *)
Definition prim_gcd (fuel : nat) (t : ity) (a b : Z) : res Z :=
  if (a =? 0) && (b =? 0) then Ok 0
  else
    let '(min, max) := if a <=? b then (a, b) else (b, a) in
    gcd_loop fuel t min max.

(** crates/traits/src/__impl.rs:308-314 [Factorial::factorial]: [(1..=self).product()]; the
    argument is unsigned, given as a [nat]. *)
Definition prim_factorial (dbg : bool) (t : ity) (n : nat) : res Z :=
  foldR (fun acc k => arith dbg t (acc * Z.of_nat k)) (seq 1 n) 1.

(** ** Wrapping, overflowing and checked operators *)

(** crates/traits/src/__impl.rs:169-175 [WrappingAdd]: the body calls [wrapping_sub]. *)
Definition prim_wrapping_add (t : ity) (a b : Z) : Z := wrap t (a - b).

(** crates/traits/src/__impl.rs:177-183 [WrappingSub]. *)
Definition prim_wrapping_sub (t : ity) (a b : Z) : Z := wrap t (a - b).

(** crates/traits/src/__impl.rs:185-191 [WrappingMul]. *)
Definition prim_wrapping_mul (t : ity) (a b : Z) : Z := wrap t (a * b).

(** crates/traits/src/__impl.rs:193-199 [WrappingShl]; std masks the [u32] amount. *)
Definition prim_wrapping_shl (t : ity) (a s : Z) : Z :=
  wrap t (Z.shiftl a (as_u32 s mod Z.of_nat (ibits t))).

(** crates/traits/src/__impl.rs:201-207 [WrappingShr]. *)
Definition prim_wrapping_shr (t : ity) (a s : Z) : Z :=
  wrap t (Z.shiftr a (as_u32 s mod Z.of_nat (ibits t))).

(** crates/traits/src/__impl.rs:209-231 [Overflowing*]. *)
Definition prim_overflowing (t : ity) (v : Z) : Z * bool := (wrap t v, negb (in_range t v)).
Definition prim_overflowing_add (t : ity) (a b : Z) := prim_overflowing t (a + b).
Definition prim_overflowing_sub (t : ity) (a b : Z) := prim_overflowing t (a - b).
Definition prim_overflowing_mul (t : ity) (a b : Z) := prim_overflowing t (a * b).

(** crates/traits/src/__impl.rs:233-263 [Checked*]. *)
Definition prim_checked_add (t : ity) (a b : Z) := from_checked t (a + b).
Definition prim_checked_sub (t : ity) (a b : Z) := from_checked t (a - b).
Definition prim_checked_mul (t : ity) (a b : Z) := from_checked t (a * b).
Definition prim_checked_div (t : ity) (a b : Z) : option Z :=
  if b =? 0 then None else from_checked t (Z.quot a b).

(** crates/traits/src/__impl.rs:265-271 [CheckedShl<Self>] and 75-81 [CheckedShl<usize>]. *)
Definition prim_checked_shl (t : ity) (a s : Z) : option Z :=
  if as_u32 s <? Z.of_nat (ibits t) then Some (wrap t (Z.shiftl a (as_u32 s))) else None.

(** crates/traits/src/__impl.rs:273-279 [CheckedShr<Self>] and 83-89 [CheckedShr<usize>]. *)
Definition prim_checked_shr (t : ity) (a s : Z) : option Z :=
  if as_u32 s <? Z.of_nat (ibits t) then Some (Z.shiftr a (as_u32 s)) else None.

(** ** Conversions *)

(** crates/traits/src/__impl.rs:61-70 [FromTruncating]: an [as] cast. *)
Definition truncate_from (t : ity) (v : Z) : Z := wrap t v.

(** The twelve primitive integer types.  Rust's types, crates/traits/src/__impl.rs:583-968. *)
Inductive prim :=
| U8 | U16 | U32 | U64 | U128 | Usize
| I8 | I16 | I32 | I64 | I128 | Isize.

(** [pw]: [target_pointer_width].  crates/traits/src/__impl.rs:623-720. *)
Definition prim_ty (pw : nat) (p : prim) : ity :=
  match p with
  | U8 => {| ibits := 8; isigned := false |}
  | U16 => {| ibits := 16; isigned := false |}
  | U32 => {| ibits := 32; isigned := false |}
  | U64 => {| ibits := 64; isigned := false |}
  | U128 => {| ibits := 128; isigned := false |}
  | Usize => {| ibits := pw; isigned := false |}
  | I8 => {| ibits := 8; isigned := true |}
  | I16 => {| ibits := 16; isigned := true |}
  | I32 => {| ibits := 32; isigned := true |}
  | I64 => {| ibits := 64; isigned := true |}
  | I128 => {| ibits := 128; isigned := true |}
  | Isize => {| ibits := pw; isigned := true |}
  end.

(** Which arm of [saturate_uint_impl]/[saturate_sint_impl] implements a conversion.  crates/traits/src/__impl.rs:526-581, 722-774. *)
Inductive sat_arm := ULess | UGreater | SLess | SGreater.

Definition prim_eqb (p q : prim) : bool :=
  match p, q with
  | U8, U8 | U16, U16 | U32, U32 | U64, U64 | U128, U128 | Usize, Usize
  | I8, I8 | I16, I16 | I32, I32 | I64, I64 | I128, I128 | Isize, Isize => true
  | _, _ => false
  end.

(** One invocation of [saturate_uint_impl!]/[saturate_sint_impl!]: target and the four
    lists of sources.  crates/traits/src/__impl.rs:583-720, 776-968. *)
Record sat_row := { row_target : prim; row_lists : list (sat_arm * list prim) }.

Definition row (t : prim) (ul ug sl sg : list prim) : sat_row :=
  {| row_target := t;
     row_lists := [(ULess, ul); (UGreater, ug); (SLess, sl); (SGreater, sg)] |}.

(** crates/traits/src/__impl.rs:583-621, 776-814: the rows common to all targets. *)
Definition sat_rows_common : list sat_row :=
  [ row U8 [U8] [U16; U32; U64; U128; Usize] [I8] [I16; I32; I64; I128; Isize];
    row U16 [U8; U16] [U32; U64; U128] [I8; I16] [I32; I64; I128];
    row U32 [U8; U16; U32] [U64; U128] [I8; I16; I32] [I64; I128];
    row U64 [U8; U16; U32; U64] [U128] [I8; I16; I32; I64] [I128];
    row U128 [U8; U16; U32; U64; U128; Usize] [] [I8; I16; I32; I64; I128; Isize] [];
    row I8 [] [U8; U16; U32; U64; U128; Usize] [I8] [I16; I32; I64; I128];
    row I16 [U8] [U16; U32; U64; U128] [I8; I16] [I32; I64; I128];
    row I32 [U8; U16] [U32; U64; U128] [I8; I16; I32] [I64; I128];
    row I64 [U8; U16; U32] [U64; U128] [I8; I16; I32; I64] [I128];
    row I128 [U8; U16; U32; U64; Usize] [U128] [I8; I16; I32; I64; I128; Isize] [] ].

(** crates/traits/src/__impl.rs:623-720 [mod _usize] and 816-913 [mod _isize], one version
    per pointer width. *)
Definition sat_rows_ptr (pw : nat) : list sat_row :=
  if Nat.eqb pw 16 then
    [ row Usize [U8; U16; Usize] [U32; U64; U128] [I8; I16; Isize] [I32; I64; I128];
      row U16 [Usize] [] [Isize] [];
      row U32 [Usize] [] [Isize] [];
      row U64 [Usize] [] [Isize] [];
      row Isize [U8] [U16; U32; U64; U128; Usize] [I8; I16; Isize] [I32; I64; I128];
      row I16 [] [Usize] [Isize] [];
      row I32 [Usize] [] [Isize] [];
      row I64 [Usize] [] [Isize] [] ]
  else if Nat.eqb pw 32 then
    [ row Usize [U8; U16; U32; Usize] [U64; U128] [I8; I16; I32; Isize] [I64; I128];
      row U16 [] [Usize] [] [Isize];
      row U32 [Usize] [] [Isize] [];
      row U64 [Usize] [] [Isize] [];
      row Isize [U8; U16] [U32; U64; U128; Usize] [I8; I16; I32; Isize] [I64; I128];
      row I16 [] [Usize] [Isize] [];
      row I32 [] [Usize] [Isize] [];
      row I64 [Usize] [] [Isize] [] ]
  else if Nat.eqb pw 64 then
    [ row Usize [U8; U16; U32; U64; Usize] [U128] [I8; I16; I32; I64; Isize] [I128];
      row U16 [] [Usize] [] [Isize];
      row U32 [] [Usize] [] [Isize];
      row U64 [Usize] [] [Isize] [];
      row Isize [U8; U16; U32] [U64; U128; Usize] [I8; I16; I32; I64; Isize] [I128];
      row I16 [] [Usize] [Isize] [];
      row I32 [] [Usize] [Isize] [];
      row I64 [] [Usize] [Isize] [] ]
  else [].

(** All impls for a (target, source) pair; coherence makes it at most one.  crates/traits/src/__impl.rs:526-968. *)
Definition sat_arms (pw : nat) (into from : prim) : list sat_arm :=
  flat_map (fun r =>
      if prim_eqb (row_target r) into then
        flat_map (fun '(arm, l) => if existsb (prim_eqb from) l then [arm] else []) (row_lists r)
      else [])
    (sat_rows_common ++ sat_rows_ptr pw).

(** crates/traits/src/__impl.rs:526-581 [saturate_uint_impl] and 722-774
    [saturate_sint_impl], body of the generated [saturate_from].  [<$ty>::MAX as $from] and
    [<$ty>::MIN as $from] are casts into the source type. *)
Definition sat_body (into from : ity) (arm : sat_arm) (v : Z) : Z :=
  if isigned into then
    match arm with
    | ULess | SLess => wrap into v
    | UGreater => if wrap from (imax into) <? v then imax into else wrap into v
    | SGreater =>
      if wrap from (imax into) <? v then imax into
      else if v <? wrap from (imin into) then imin into
      else wrap into v
    end
  else
    match arm with
    | ULess => wrap into v
    | UGreater => if wrap from (imax into) <? v then imax into else wrap into v
    | SLess => if v <? 0 then imin into else wrap into v
    | SGreater =>
      if v <? 0 then imin into
      else if wrap from (imax into) <? v then imax into
      else wrap into v
    end.

(** [FromSaturating::saturate_from]; [None] when there is no impl.  crates/traits/src/__impl.rs:537-576, 733-770. *)
Definition saturate_from (pw : nat) (into from : prim) (v : Z) : option Z :=
  match sat_arms pw into from with
  | arm :: _ => Some (sat_body (prim_ty pw into) (prim_ty pw from) arm v)
  | [] => None
  end.
