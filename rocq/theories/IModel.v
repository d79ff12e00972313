(** Model of crates/ints/src/i.rs: the N-byte signed integer [I<N>] in two's complement.
    A value is its little-endian byte list, as for [U<N>].  Operations whose body is
    [todo!()] (shifts, checked and saturating operations, pow: lines 149-179, 225-279,
    301-307) panic and are not modelled further. *)
From Coq Require Import ZArith List Bool.
From Verif Require Import Base Words BitSliceModel ElementModel BitwiseModel UModel.
Import ListNotations.
Local Open Scope Z_scope.

(** crates/ints/src/i.rs:25. *)
Definition I := list Z.

(** crates/ints/src/i.rs:281-299 [zero], [is_zero], [one], [is_one]: as for [U]. *)
Definition i_zero (n : nat) : I := zeros n.
Definition i_one (n : nat) : I := u_one n.
Definition i_is_zero (a : I) : bool := u_is_zero a.
Definition i_is_one (a : I) : res bool := u_is_one a.

(** crates/ints/src/i.rs:32-57 [Add], [Sub], [Mul]. *)
Definition i_add (a b : I) : I := elem_add_wrapping 8 a b.
Definition i_sub (a b : I) : I := elem_sub_wrapping 8 a b.
Definition i_mul (a b : I) : I := elem_mul_wrapping 8 a b.

(** crates/ints/src/i.rs:99-105 [Not]. *)
Definition i_not (a : I) : I := map (wnot 8) a.

(** crates/ints/src/i.rs:89-97 [Neg]. *)
Definition i_neg (a : I) : I := i_add (map (wnot 8) a) (i_one (length a)).

(** crates/ints/src/i.rs:107-147 [BitAnd], [BitOr], [BitXor]. *)
Definition i_bitand := u_bitop Z.land.
Definition i_bitor := u_bitop Z.lor.
Definition i_bitxor := u_bitop Z.lxor.

(** [self.0.last().unwrap()].  crates/ints/src/i.rs:319, 324. *)
Definition last_byte (a : I) : res Z :=
  match rev a with [] => Panic | b :: _ => Ok b end.

(** crates/ints/src/i.rs:311-327 [abs], [is_positive], [is_negative]. *)
Definition i_abs (a : I) : res I :=
  do b <- last_byte a ;; Ok (upd a (length a - 1) (Z.land b 127)).
Definition i_is_positive (a : I) : res bool := do b <- last_byte a ;; Ok (Z.land b 128 =? 0).
Definition i_is_negative (a : I) : res bool := do b <- last_byte a ;; Ok (negb (Z.land b 128 =? 0)).

(** crates/ints/src/i.rs:181-200 [min_value], [max_value], [min_positive], [max_negative]. *)
Definition i_min (n : nat) : I := map (fun idx => if Nat.eqb idx (n - 1) then 128 else 0) (seq 0 n).
Definition i_max (n : nat) : I := map (fun idx => if Nat.eqb idx (n - 1) then 127 else 255) (seq 0 n).
Definition i_min_positive (n : nat) : I := i_one n.
Definition i_max_negative (n : nat) : I := repeat 255 n.

(** crates/ints/src/i.rs:59-72 [Div]. *)
Definition i_div (dbg : bool) (a b : I) : res I :=
  do na <- i_is_negative a ;; do nb <- i_is_negative b ;;
  do x <- i_abs a ;; do y <- i_abs b ;;
  do q <- bit_div_wrapping dbg 8 x y (zeros (length a)) ;;
  Ok (if xorb na nb then i_neg q else q).

(** crates/ints/src/i.rs:74-87 [Rem]. *)
Definition i_rem (dbg : bool) (a b : I) : res I :=
  do na <- i_is_negative a ;; do nb <- i_is_negative b ;;
  do x <- i_abs a ;; do y <- i_abs b ;;
  do r <- bit_rem_wrapping dbg 8 x y (zeros (length a)) ;;
  Ok (if xorb na nb then i_neg r else r).

(** crates/ints/src/i.rs:202-206 [PartialEq]. *)
Definition i_eqb (a b : I) : bool := u_eqb a b.

(** core: [Ord] on arrays of equal length, lexicographic from index 0.  Used in crates/ints/src/i.rs:219. *)
Fixpoint lex_cmp (a b : list Z) : comparison :=
  match a, b with
  | [], [] => Eq
  | [], _ => Lt
  | _, [] => Gt
  | x :: a', y :: b' => match Z.compare x y with Eq => lex_cmp a' b' | c => c end
  end.

(** core: [Ord] on [bool], [false < true].  Used in crates/ints/src/i.rs:218. *)
Definition bool_cmp (a b : bool) : comparison := Z.compare (Z.b2z a) (Z.b2z b).

(** crates/ints/src/i.rs:216-223 [Ord]. *)
Definition i_cmp (a b : I) : res comparison :=
  do na <- i_is_negative a ;; do nb <- i_is_negative b ;;
  Ok (match bool_cmp na nb with Eq => lex_cmp a b | c => CompOpp c end).
