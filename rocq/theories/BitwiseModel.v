(** Model of crates/bits/src/algos/bitwise/*.rs: bit-by-bit algorithms. *)
From Coq Require Import ZArith List Bool.
From Verif Require Import Base Words BitSliceModel ElementModel.
Import ListNotations.
Local Open Scope Z_scope.

(** [get_bit_opt(idx).unwrap_or(false)].  crates/bits/src/algos/bitwise/add.rs:20-21, sub.rs:20-21, shr.rs:13. *)
Definition bget (w : nat) (l : list Z) (idx : nat) : bool := unwrap_or (get_bit_opt w l idx) false.

(** ** add.rs *)

(** crates/bits/src/algos/bitwise/add.rs:20-43 (and 63-86): the [match c + l + r]. *)
Definition bit_add_step (l r carry : bool) : bool * bool :=
  match (Z.b2z carry + Z.b2z l + Z.b2z r) with
  | 0 => (false, false)
  | 1 => (true, false)
  | 2 => (false, true)
  | _ => (true, true)
  end.

(** crates/bits/src/algos/bitwise/add.rs:10-51 [BitwiseAdd::add]. *)
Definition bit_add (w : nat) (lhs rhs : list Z) : list Z :=
  let len := Nat.max (length lhs) (length rhs) in
  let bl := Nat.max (bit_len w lhs) (bit_len w rhs) in
  fst (fold_left (fun '(out, carry) idx =>
      let '(new, carry) := bit_add_step (bget w lhs idx) (bget w rhs idx) carry in
      (if new then set_bit_push w out idx new else out, carry))
    (seq 0 (bl + 1)) (zeros len, false)).

(** crates/bits/src/algos/bitwise/add.rs:53-92 [BitwiseAdd::add_in_place]. *)
Definition bit_add_in_place (w : nat) (lhs rhs : list Z) : res (list Z) :=
  let bl := Nat.max (bit_len w lhs) (bit_len w rhs) in
  rmap fst (foldR (fun '(lhs, carry) idx =>
      do l <- get_bit w lhs idx ;;
      do r <- get_bit w rhs idx ;;
      let '(new, carry) := bit_add_step l r carry in
      do lhs <- set_bit w lhs idx new ;;
      Ok (lhs, carry))
    (seq 0 (bl + 1)) (lhs, false)).

(** ** sub.rs *)

(** crates/bits/src/algos/bitwise/sub.rs:30-41: the [match (l, r, c)]. *)
Definition bit_sub_step (l r c : bool) : bool * bool :=
  match l, r, c with
  | true, false, false => (true, false)
  | true, true, false | true, false, true | false, false, false => (false, false)
  | false, true, false | false, false, true | true, true, true => (true, true)
  | false, true, true => (false, true)
  end.

(** crates/bits/src/algos/bitwise/sub.rs:10-52 [BitwiseSub::sub]. *)
Definition bit_sub (w : nat) (lhs rhs : list Z) : res (list Z * bool) :=
  let len := Nat.max (length lhs) (length rhs) in
  let bl := Nat.max (bit_len w lhs) (bit_len w rhs) in
  do st <- foldR (fun '(out, carry) idx =>
      let '(new, carry) := bit_sub_step (bget w lhs idx) (bget w rhs idx) carry in
      do out <- set_bit w out idx new ;;
      Ok (out, carry))
    (seq 0 bl) (zeros len, false) ;;
  let '(out, carry) := st in
  if carry then
    do b <- get_bit w out 0 ;;
    do out <- set_bit w out 0 (negb b) ;;
    Ok (elem_not w out, carry)
  else Ok (out, carry).

(** ** mul.rs *)

(** crates/bits/src/algos/bitwise/mul.rs:10-27 [BitwiseMul::mul]. *)
Definition bit_mul (w : nat) (lhs rhs : list Z) : res (list Z) :=
  let len := Nat.max (length lhs) (length rhs) in
  do new_self <- elem_shl w lhs 0 ;;
  do st <- foldR (fun '(out, new_self) idx =>
      do r <- get_bit w rhs idx ;;
      do out <- (if r : bool then elem_add w out new_self else Ok out) ;;
      do new_self <- elem_shl w new_self 1 ;;
      Ok (out, new_self))
    (seq 0 (bit_len w rhs)) (zeros (len * 2), new_self) ;;
  Ok (fst st).

(** ** shl.rs *)

(** crates/bits/src/algos/bitwise/shl.rs:9-18 [BitwiseShl::shl]; [iter_bits().enumerate()]
    is run by [iter_take] for as many steps as there are bits. *)
Definition bit_shl (w : nat) (lhs : list Z) (rhs : nat) : list Z :=
  let bl := bit_len w lhs in
  let bits := fst (iter_take w (bl + 1) (iter_bits lhs)) in
  fold_left (fun out '(idx, new) =>
      if (new : bool) || Nat.ltb (idx + rhs) bl then set_bit_push w out (idx + rhs) new
      else out)
    (combine (seq 0 (length bits)) bits) (zeros (length lhs)).

(** ** shr.rs *)

(** crates/bits/src/algos/bitwise/shr.rs:10-19 [BitwiseShr::shr]. *)
Definition bit_shr (w : nat) (lhs : list Z) (rhs : nat) : res (list Z) :=
  shrink (fold_left (fun out idx =>
      let new := bget w lhs idx in
      if Nat.leb rhs idx then set_bit_ignore w out (idx - rhs) new else out)
    (rev (seq 0 (bit_len w lhs + 1))) (zeros (length lhs))).

(** ** div.rs *)

(** crates/bits/src/algos/bitwise/div.rs:21-23: shift the next bit of [num] into the
    remainder and compare. *)
Definition div_shift_in (dbg : bool) (w : nat) (num div remainder : list Z) (idx : nat)
  : res (list Z * bool) :=
  do remainder <- elem_shl_wrapping dbg w remainder 1 ;;
  do b <- get_bit w num idx ;;
  do remainder <- set_bit w remainder 0 b ;;
  Ok (remainder, is_ge (elem_cmp remainder div)).

(** crates/bits/src/algos/bitwise/div.rs:10-31 [BitwiseDiv::div_long]. *)
Definition bit_div_long (dbg : bool) (w : nat) (num div : list Z)
  : res (list Z * list Z) :=
  let len := Nat.max (length num) (length div) in
  let bl := Nat.max (bit_len w num) (bit_len w div) in
  foldR (fun '(quotient, remainder) idx =>
      do p <- div_shift_in dbg w num div remainder idx ;;
      let '(remainder, ge) := p in
      if (ge : bool) then
        do quotient <- set_bit w quotient idx true ;;
        Ok (quotient, elem_sub_wrapping w remainder div)
      else Ok (quotient, remainder))
    (rev (seq 0 bl)) (zeros len, zeros len).

(** crates/bits/src/algos/bitwise/div.rs:33-56 [BitwiseDiv::div_long_overflowing]: the new
    contents of [num] (the quotient), of the caller's scratch [remainder], and the flag. *)
Definition bit_div_overflowing (dbg : bool) (w : nat) (num div remainder : list Z)
  : res (list Z * list Z * bool) :=
  let bl := Nat.max (bit_len w num) (bit_len w div) in
  do st <- foldR (fun '(num, remainder) idx =>
      do p <- div_shift_in dbg w num div remainder idx ;;
      let '(remainder, ge) := p in
      if (ge : bool) then
        do num <- set_bit w num idx true ;;
        Ok (num, elem_sub_wrapping w remainder div)
      else
        do num <- set_bit w num idx false ;;
        Ok (num, remainder))
    (rev (seq 0 bl)) (num, remainder) ;;
  Ok (fst st, snd st, false).

(** crates/bits/src/algos/bitwise/div.rs:58-73 [div_long_checked]. *)
Definition bit_div_checked (dbg : bool) (w : nat) (num div scratch : list Z)
  : res (option (list Z)) :=
  do p <- bit_div_overflowing dbg w num div scratch ;;
  let '(out, _, carry) := p in
  Ok (if (carry : bool) then None else Some out).

(** crates/bits/src/algos/bitwise/div.rs:75-85 [div_long_wrapping]. *)
Definition bit_div_wrapping (dbg : bool) (w : nat) (num div scratch : list Z)
  : res (list Z) :=
  do p <- bit_div_overflowing dbg w num div scratch ;;
  let '(out, _, _) := p in Ok out.

(** [copy_from_slice]: panics when the lengths differ.  core, used in crates/bits/src/algos/bitwise/div.rs:106. *)
Definition copy_from_slice (dst src : list Z) : res (list Z) :=
  if Nat.eqb (length dst) (length src) then Ok src else Panic.

(** crates/bits/src/algos/bitwise/div.rs:87-109 [BitwiseDiv::rem_long_overflowing]. *)
Definition bit_rem_overflowing (dbg : bool) (w : nat) (num div remainder : list Z)
  : res (list Z * bool) :=
  let bl := Nat.max (bit_len w num) (bit_len w div) in
  do rem <- foldR (fun remainder idx =>
      do p <- div_shift_in dbg w num div remainder idx ;;
      let '(remainder, ge) := p in
      Ok (if (ge : bool) then elem_sub_wrapping w remainder div else remainder))
    (rev (seq 0 bl)) remainder ;;
  do num <- copy_from_slice num rem ;;
  Ok (num, false).

(** crates/bits/src/algos/bitwise/div.rs:111-126 [rem_long_checked]. *)
Definition bit_rem_checked (dbg : bool) (w : nat) (num div scratch : list Z)
  : res (option (list Z)) :=
  do p <- bit_rem_overflowing dbg w num div scratch ;;
  let '(out, carry) := p in
  Ok (if (carry : bool) then None else Some out).

(** crates/bits/src/algos/bitwise/div.rs:128-138 [rem_long_wrapping]. *)
Definition bit_rem_wrapping (dbg : bool) (w : nat) (num div scratch : list Z)
  : res (list Z) :=
  do p <- bit_rem_overflowing dbg w num div scratch ;;
  Ok (fst p).
