(** Model of crates/ints/src/u.rs: the N-byte unsigned integer [U<N>].
    A value is the little-endian byte list of length [N] ([N] is the length of the list, so
    the const parameter is implicit); limbs are bytes ([w = 8]).  [dbg] stands for
    [cfg!(debug_assertions)] together with overflow checks (the two are on together in the
    default profiles). *)
From Coq Require Import ZArith List Bool.
From Verif Require Import Base Words BitSliceModel ElementModel BitwiseModel PrimModel.
Import ListNotations.
Local Open Scope Z_scope.

(** crates/ints/src/u.rs:34-35. *)
Definition U := list Z.

(** crates/ints/src/u.rs:44-48 [new], 538-541 [zero], 400-402 [min_value]. *)
Definition u_zero (n : nat) : U := zeros n.

(** crates/ints/src/u.rs:404-406 [max_value]. *)
Definition u_max (n : nat) : U := repeat 255 n.

(** crates/ints/src/u.rs:548-551 [one]: [array::from_fn(|idx| u8::from(idx == 0))]. *)
Definition u_one (n : nat) : U := map (fun idx => if Nat.eqb idx 0 then 1 else 0) (seq 0 n).

(** crates/ints/src/u.rs:543-545 [is_zero]. *)
Definition u_is_zero (a : U) : bool := forallb (fun b => b =? 0) a.

(** crates/ints/src/u.rs:553-555 [is_one]: indexing panics for [N = 0]. *)
Definition u_is_one (a : U) : res bool :=
  match a with
  | [] => Panic
  | b0 :: rest => Ok ((b0 =? 1) && forallb (fun b => b =? 0) rest)
  end.

(** crates/ints/src/u.rs:50-92: byte conversions (little-endian target for the [ne] forms). *)
Definition u_from_le_bytes (bytes : list Z) : U := bytes.
Definition u_from_be_bytes (bytes : list Z) : U := const_reverse bytes.
Definition u_from_ne_bytes (bytes : list Z) : U := u_from_le_bytes bytes.
Definition u_to_le_bytes (a : U) : list Z := a.
Definition u_to_be_bytes (a : U) : list Z := const_reverse a.
Definition u_to_ne_bytes (a : U) : list Z := u_to_le_bytes a.

(** ** Arithmetic *)

(** crates/ints/src/u.rs:451-458 [checked_add], 460-467 [checked_sub]. *)
Definition u_checked_add (a b : U) : option U := elem_add_checked 8 a b.
Definition u_checked_sub (a b : U) : option U := elem_sub_checked 8 a b.

(** crates/ints/src/u.rs:487-494 [wrapping_add], 496-503 [wrapping_sub]. *)
Definition u_wrapping_add (a b : U) : U := elem_add_wrapping 8 a b.
Definition u_wrapping_sub (a b : U) : U := elem_sub_wrapping 8 a b.

(** crates/ints/src/u.rs:239-249 [Add], 251-261 [Sub]. *)
Definition u_add (dbg : bool) (a b : U) : res U :=
  if dbg then unwrap (u_checked_add a b) else Ok (u_wrapping_add a b).
Definition u_sub (dbg : bool) (a b : U) : res U :=
  if dbg then unwrap (u_checked_sub a b) else Ok (u_wrapping_sub a b).

(** crates/ints/src/u.rs:505-525 [saturating_add], [saturating_sub]. *)
Definition u_saturating_add (a b : U) : U :=
  match elem_add_checked 8 a b with Some s => s | None => u_max (length a) end.
Definition u_saturating_sub (a b : U) : U :=
  match elem_sub_checked 8 a b with Some s => s | None => u_zero (length a) end.

(** crates/ints/src/u.rs:469-476 [checked_mul], 527-536 [saturating_mul], 263-273 [Mul]. *)
Definition u_checked_mul (a b : U) : option U := elem_mul_checked 8 a b.
Definition u_saturating_mul (a b : U) : U :=
  match elem_mul_checked 8 a b with Some s => s | None => u_max (length a) end.
Definition u_mul (dbg : bool) (a b : U) : res U :=
  if dbg then unwrap (elem_mul_checked 8 a b) else Ok (elem_mul_wrapping 8 a b).

(** crates/ints/src/u.rs:478-485 [checked_div], 275-285 [Div], 287-297 [Rem]. *)
Definition u_checked_div (dbg : bool) (a b : U) : res (option U) :=
  bit_div_checked dbg 8 a b (zeros (length a)).
Definition u_div (dbg : bool) (a b : U) : res U :=
  if dbg then do q <- bit_div_checked dbg 8 a b (zeros (length a)) ;; unwrap q
  else bit_div_wrapping dbg 8 a b (zeros (length a)).
Definition u_rem (dbg : bool) (a b : U) : res U :=
  do r <- bit_rem_checked dbg 8 a b (zeros (length a)) ;; unwrap r.

(** ** Bit operators *)

(** crates/ints/src/u.rs:299-305 [Not]. *)
Definition u_not (a : U) : U := map (wnot 8) a.

(** crates/ints/src/u.rs:307-347 [BitAnd], [BitOr], [BitXor]: static zip, map, collect. *)
Definition u_bitop (op : Z -> Z -> Z) (a b : U) : U := map (fun '(l, r) => op l r) (combine a b).
Definition u_bitand := u_bitop Z.land.
Definition u_bitor := u_bitop Z.lor.
Definition u_bitxor := u_bitop Z.lxor.

(** crates/ints/src/u.rs:375-397 [Shl<usize>], [Shr<usize>]. *)
Definition u_shl (dbg : bool) (a : U) (s : nat) : res U :=
  if dbg then do r <- elem_shl_checked 8 a s ;; unwrap r else elem_shl_wrapping dbg 8 a s.
Definition u_shr (dbg : bool) (a : U) (s : nat) : res U :=
  if dbg then do r <- elem_shr_checked dbg 8 a s ;; unwrap r else elem_shr_wrapping dbg 8 a s.

(** ** Comparison *)

(** crates/ints/src/u.rs:409-413 [PartialEq] (derived array equality). *)
Definition u_eqb (a b : U) : bool := if list_eq_dec Z.eq_dec a b then true else false.

(** crates/ints/src/u.rs:423-427 [Ord]. *)
Definition u_cmp (a b : U) : comparison := elem_cmp a b.

(** ** Casts, crates/ints/src/u.rs:564-639.  [size] is [size_of] of the primitive, whose
    values are numbers below [2^(8*size)]. *)

(** std: [to_le_bytes] of a primitive.  Used in crates/ints/src/u.rs:123-212. *)
Definition le_bytes (size : nat) (v : Z) : list Z :=
  map (fun i => (v / 2 ^ (8 * Z.of_nat i)) mod 256) (seq 0 size).

(** std: [from_le_bytes] of a primitive.  Used in crates/ints/src/u.rs:123-212. *)
Fixpoint from_le (bytes : list Z) : Z :=
  match bytes with [] => 0 | b :: bytes' => b + 256 * from_le bytes' end.

(** [arr[i] = src[i]]: both accesses are bounds-checked.  crates/ints/src/u.rs:572, 578, 601, 614, 620. *)
Definition copy_byte (arr src : list Z) (i : nat) : res (list Z) :=
  do b <- get src i ;; set arr i b.

(** lines 566-588 [FromChecked<U<N>> for $num].  The loop state is [None] after the early
    [return None]. *)
Definition prim_from_checked_u (size : nat) (a : U) : res (option Z) :=
  let n := length a in
  if Nat.leb n size then
    do arr <- foldR (fun arr i => copy_byte arr a i) (seq 0 n) (zeros size) ;;
    Ok (Some (from_le arr))
  else
    do st <- foldR (fun st i =>
        match st with
        | None => Ok None
        | Some arr =>
          if Nat.leb i size then do arr <- copy_byte arr a i ;; Ok (Some arr)
          else do b <- get a i ;; Ok (if b =? 0 then Some arr else None)
        end) (seq 0 n) (Some (zeros size)) ;;
    Ok (option_map from_le st).

(** lines 590-594 [FromSaturating<U<N>> for $num]. *)
Definition prim_saturate_u (size : nat) (a : U) : res Z :=
  do o <- prim_from_checked_u size a ;;
  Ok (unwrap_or o (2 ^ (8 * Z.of_nat size) - 1)).

(** lines 596-605 [FromTruncating<U<N>> for $num]. *)
Definition prim_truncate_u (size : nat) (a : U) : res Z :=
  do arr <- foldR (fun arr i => copy_byte arr a i) (seq 0 (length a)) (zeros size) ;;
  Ok (from_le arr).

(** lines 607-630 [FromChecked<$num> for U<N>]. *)
Definition u_from_checked (size n : nat) (v : Z) : res (option U) :=
  let bytes := le_bytes size v in
  if Nat.leb size n then
    do arr <- foldR (fun arr i => copy_byte arr bytes i) (seq 0 n) (zeros n) ;;
    Ok (Some arr)
  else
    do st <- foldR (fun st i =>
        match st with
        | None => Ok None
        | Some arr =>
          if Nat.leb i n then do arr <- copy_byte arr bytes i ;; Ok (Some arr)
          else do b <- get bytes i ;; Ok (if b =? 0 then Some arr else None)
        end) (seq 0 n) (Some (zeros n)) ;;
    Ok st.

(** crates/ints/src/u.rs:119-217 [as_u8] .. [as_usize] and [from_u8] .. [from_usize]; the
    length of the byte array is the size of the primitive. *)
Definition u_as_prim (a : U) : Z := from_le a.
Definition u_from_prim (size : nat) (v : Z) : U := le_bytes size v.

(** crates/ints/src/u.rs:349-373 [Shl<U>], [Shr<U>]: the amount goes through
    [usize::from_checked] (8 bytes). *)
Definition u_shl_u (dbg : bool) (a b : U) : res U :=
  do o <- prim_from_checked_u 8 b ;; do s <- unwrap o ;; u_shl dbg a (Z.to_nat s).
Definition u_shr_u (dbg : bool) (a b : U) : res U :=
  do o <- prim_from_checked_u 8 b ;; do s <- unwrap o ;; u_shr dbg a (Z.to_nat s).

(** crates/ints/src/u.rs:445-449 [Product]: the items of the iterator are the list [l]; [len] is the [N] of [U<N>]. *)
Definition u_product (dbg : bool) (len : nat) (l : list U) : res U :=
  foldR (fun acc b => u_mul dbg acc b) l (u_one len).

(** crates/ints/src/u.rs:429-443 [Pow::pow]. *)
Definition u_pow (dbg : bool) (a b : U) : res U :=
  do one <- (if u_is_zero a then Ok true else u_is_one a) ;;
  if (one : bool) then Ok a
  else if u_is_zero b then Ok (u_one (length a))
  else
    do o <- prim_from_checked_u 8 b ;;
    do v <- unwrap o ;;
    u_product dbg (length a) (repeat a (Z.to_nat v)).

(** ** Display *)

(** crates/ints/src/u.rs:101-106, the digit loop of [write_base]; digits come out least
    significant first. *)
Fixpoint write_loop (fuel : nat) (dbg : bool) (base scratch : U) (digits : list Z)
  : res (list Z) :=
  match fuel with
  | O => Timeout
  | S fuel' =>
    match u_cmp scratch (u_zero (length scratch)) with
    | Gt =>
      do r <- u_rem dbg scratch base ;;
      do o <- prim_from_checked_u 1 r ;;
      do digit <- unwrap o ;;
      do scratch <- u_div dbg scratch base ;;
      write_loop fuel' dbg base scratch (digits ++ [digit])
    | _ => Ok digits
    end
  end.

(** crates/ints/src/u.rs:94-116 [write_base]; [chars] maps a digit to its character (a code
    point); writing to the formatter is assumed to succeed. *)
Definition u_write_base (fuel : nat) (dbg : bool) (a : U) (base : Z) (chars : list Z)
  : res (list Z) :=
  do o <- u_from_checked 8 (length a) base ;;
  do b <- unwrap o ;;
  do digits <- write_loop fuel dbg b a [] ;;
  let digits := match digits with [] => [0] | _ => digits end in
  foldR (fun out d => do c <- get chars (Z.to_nat d) ;; Ok (out ++ [c])) (rev digits) [].

(** crates/ints/src/u.rs:232-237 [Display] (and [Debug], lines 226-230). *)
Definition u_display (fuel : nat) (dbg : bool) (a : U) : res (list Z) :=
  u_write_base fuel dbg a 10 [48; 49; 50; 51; 52; 53; 54; 55; 56; 57].
