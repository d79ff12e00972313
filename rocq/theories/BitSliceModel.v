(** Model of crates/bits/src/bit_slice.rs, bit_slice/iter.rs and utils.rs. *)
From Coq Require Import ZArith List Bool.
From Verif Require Import Base Words.
Import ListNotations.
Local Open Scope Z_scope.

(** crates/bits/src/bit_slice.rs:66-70 [BitSliceExt::bit_len]. *)
Definition bit_len (w : nat) (l : list Z) : nat := (length l * w)%nat.

(** crates/bits/src/bit_slice.rs:14-17 [idx_bit]. *)
Definition idx_bit (w : nat) (idx : nat) : nat * nat := (Nat.div idx w, Nat.modulo idx w).

(** crates/bits/src/bit_slice.rs:77-81 [BitSliceExt::get_opt]. *)
Definition get_opt (l : list Z) (idx : nat) : option Z := nth_error l idx.

(** crates/bits/src/bit_slice.rs:72-75 [BitSliceExt::get]. *)
Definition get (l : list Z) (idx : nat) : res Z := unwrap (get_opt l idx).

(** crates/bits/src/bit_slice.rs:98, the test [val & (one << bit) != zero]. *)
Definition test_bit (w : nat) (v : Z) (bit : nat) : bool :=
  negb (Z.land v (wshl w 1 bit) =? 0).

(** crates/bits/src/bit_slice.rs:92-99 [BitSliceExt::get_bit_opt]. *)
Definition get_bit_opt (w : nat) (l : list Z) (idx : nat) : option bool :=
  let '(i, bit) := idx_bit w idx in
  option_map (fun v => test_bit w v bit) (nth_error l i).

(** crates/bits/src/bit_slice.rs:83-90 [BitSliceExt::get_bit]. *)
Definition get_bit (w : nat) (l : list Z) (idx : nat) : res bool := unwrap (get_bit_opt w l idx).

(** crates/bits/src/bit_slice.rs:111-117 [BitSliceExt::set_opt]; [None] when the index is
    out of range, else the new contents. *)
Definition set_opt (l : list Z) (idx : nat) (v : Z) : option (list Z) :=
  option_map (fun _ => upd l idx v) (nth_error l idx).

(** crates/bits/src/bit_slice.rs:101-109 [BitSliceExt::set]. *)
Definition set (l : list Z) (idx : nat) (v : Z) : res (list Z) := unwrap (set_opt l idx v).

(** crates/bits/src/bit_slice.rs:142-146 [BitSliceExt::set_ignore]. *)
Definition set_ignore (l : list Z) (idx : nat) (v : Z) : list Z := unwrap_or (set_opt l idx v) l.

(** crates/bits/src/bit_slice.rs:135-138, body of the closure in [set_bit_opt]. *)
Definition put_bit (w : nat) (item : Z) (bit : nat) (v : bool) : Z :=
  let item := Z.land item (wnot w (wshl w 1 bit)) in
  if v then Z.lor item (wshl w 1 bit) else item.

(** crates/bits/src/bit_slice.rs:131-140 [BitSliceExt::set_bit_opt]. *)
Definition set_bit_opt (w : nat) (l : list Z) (idx : nat) (v : bool) : option (list Z) :=
  let '(i, bit) := idx_bit w idx in
  option_map (fun item => upd l i (put_bit w item bit v)) (nth_error l i).

(** crates/bits/src/bit_slice.rs:119-129 [BitSliceExt::set_bit]. *)
Definition set_bit (w : nat) (l : list Z) (idx : nat) (v : bool) : res (list Z) :=
  unwrap (set_bit_opt w l idx v).

(** crates/bits/src/bit_slice.rs:148-152 [BitSliceExt::set_bit_ignore]. *)
Definition set_bit_ignore (w : nat) (l : list Z) (idx : nat) (v : bool) : list Z :=
  unwrap_or (set_bit_opt w l idx v) l.

(** crates/bits/src/bit_slice.rs:223-230 [BitVecExt::extend] for [Vec]. *)
Definition extend (l : list Z) (len : nat) (v : Z) : list Z :=
  if Nat.ltb (length l) len then l ++ repeat v (len - length l) else l.

(** crates/bits/src/bit_slice.rs:209-213 [BitVecExt::set_push]. *)
Definition set_push (l : list Z) (idx : nat) (v : Z) : list Z :=
  set_ignore (extend l idx 0) idx v.

(** crates/bits/src/bit_slice.rs:215-220 [BitVecExt::set_bit_push]. *)
Definition set_bit_push (w : nat) (l : list Z) (idx : nat) (v : bool) : list Z :=
  let '(len, _) := idx_bit w idx in
  set_bit_ignore w (extend l (len + 1) 0) idx v.

(** ** Bit iterator *)

(** crates/bits/src/bit_slice/iter.rs:4-9 [BitIter]; [bi_rest] is what is left in the
    inner slice iterator. *)
Record bit_iter := { bi_rest : list Z; bi_cur : option Z; bi_idx : nat }.

(** crates/bits/src/bit_slice/iter.rs:11-23 [BitIter::new]. *)
Definition iter_bits (l : list Z) : bit_iter :=
  match l with
  | [] => {| bi_rest := []; bi_cur := None; bi_idx := 0 |}
  | x :: l' => {| bi_rest := l'; bi_cur := Some x; bi_idx := 0 |}
  end.

(** crates/bits/src/bit_slice/iter.rs:31-41 [BitIter::next]. *)
Definition iter_next (w : nat) (it : bit_iter) : option bool * bit_iter :=
  match bi_cur it with
  | None => (None, it)
  | Some v =>
    let bit_idx := Nat.modulo (bi_idx it) w in
    let it' :=
      if Nat.eqb bit_idx (w - 1) then
        match bi_rest it with
        | [] => {| bi_rest := []; bi_cur := None; bi_idx := bi_idx it + 1 |}
        | x :: l' => {| bi_rest := l'; bi_cur := Some x; bi_idx := bi_idx it + 1 |}
        end
      else {| bi_rest := bi_rest it; bi_cur := Some v; bi_idx := bi_idx it + 1 |} in
    (Some (test_bit w v bit_idx), it')
  end.

(** Calling [next] up to [n] times, collecting the items (not a function of the crate;
    used to talk about consumption of the iterator).  No code. *)
Fixpoint iter_take (w : nat) (n : nat) (it : bit_iter) : list bool * bit_iter :=
  match n with
  | O => ([], it)
  | S n' =>
    match iter_next w it with
    | (None, it') => ([], it')
    | (Some b, it') => let '(l, it'') := iter_take w n' it' in (b :: l, it'')
    end
  end.

(** crates/bits/src/bit_slice/iter.rs:49-62 [ExactSizeIterator::len] (and [size_hint],
    lines 43-46, which returns it twice): [usize] arithmetic on a 64-bit target. *)
Definition iter_len (dbg : bool) (w : nat) (it : bit_iter) : res Z :=
  let rem := Z.of_nat w * Z.of_nat (length (bi_rest it)) in
  match bi_cur it with
  | None => Ok rem
  | Some _ =>
    if Nat.leb (bi_idx it) w then Ok (rem + (Z.of_nat w - Z.of_nat (bi_idx it)))
    else if dbg then Panic
    else Ok ((rem + (Z.of_nat w - Z.of_nat (bi_idx it))) mod 2 ^ 64)
  end.

(** ** utils.rs *)

(** [slice::iter().rposition(|v| *v != zero)].  core, used in crates/bits/src/utils.rs:13, 21. *)
Fixpoint rposition_nz (l : list Z) : option nat :=
  match l with
  | [] => None
  | x :: l' =>
    match rposition_nz l' with
    | Some i => Some (S i)
    | None => if x =? 0 then None else Some 0%nat
    end
  end.

(** crates/bits/src/utils.rs:11-25 [IntSlice::shrink] for [&[T]] and [Vec<T>]; slicing
    [..=0] and draining [1..] both panic on an empty slice. *)
Definition shrink (l : list Z) : res (list Z) :=
  let idx := unwrap_or (rposition_nz l) 0%nat in
  if Nat.leb (idx + 1) (length l) then Ok (firstn (idx + 1) l) else Panic.

(** crates/bits/src/utils.rs:44-57, the loop of [int_to_arr] over the output slots.
    [max] is [2^w] computed in the source type. *)
Fixpoint int_to_arr_loop (w : nat) (n : nat) (lhs max : Z) : list Z :=
  match n with
  | O => []
  | S n' =>
    if lhs <? base w then lhs :: zeros n'
    else (lhs mod max) :: int_to_arr_loop w n' (lhs / max) max
  end.

(** crates/bits/src/utils.rs:27-62 [int_to_arr::<T, U, N>] with [w] the width of the limb
    type [U].  [U::from_checked] succeeds exactly on values below [2^w]
    (crates/traits/src/__impl.rs, [FromChecked]).  In a debug build [N = 0] trips the
    [debug_assert!]; in release [out[0]] panics for values that fit a limb. *)
Definition int_to_arr (dbg : bool) (w : nat) (n : nat) (v : Z) : res (list Z) :=
  if dbg && Nat.eqb n 0 then Panic
  else if v <? base w then
    match n with O => Panic | S n' => Ok (v :: zeros n') end
  else
    Ok (int_to_arr_loop w n v (wmax w + 1)).

(** A primitive integer type as target of a conversion.  No code: Rust's types. *)
Record ity := { ibits : nat; isigned : bool }.
Definition imin (t : ity) : Z := if isigned t then - 2 ^ (Z.of_nat (ibits t) - 1) else 0.
Definition imax (t : ity) : Z :=
  if isigned t then 2 ^ (Z.of_nat (ibits t) - 1) - 1 else 2 ^ Z.of_nat (ibits t) - 1.
Definition in_range (t : ity) (v : Z) : bool := (imin t <=? v) && (v <=? imax t).

(** Two's-complement reduction into the type ([as] casts, wrapping arithmetic).
    Rust's [as], used in crates/traits/src/__impl.rs:50-59, 79-205. *)
Definition wrap (t : ity) (v : Z) : Z :=
  let m := 2 ^ Z.of_nat (ibits t) in
  let r := v mod m in
  if isigned t && (2 ^ (Z.of_nat (ibits t) - 1) <=? r) then r - m else r.

(** [FromChecked] between primitives, crates/traits/src/__impl.rs: [try_into().ok()]. *)
Definition from_checked (t : ity) (v : Z) : option Z := if in_range t v then Some v else None.

(** [CheckedShl<usize>] on a primitive, crates/traits/src/__impl.rs: the amount is cast
    with [as u32], the std [checked_shl] then rejects amounts of at least [BITS]. *)
Definition checked_shl_usize (t : ity) (v : Z) (s : Z) : option Z :=
  let s32 := s mod 2 ^ 32 in
  if s32 <? Z.of_nat (ibits t) then Some (wrap t (Z.shiftl v s32)) else None.

(** [out += x] on a primitive: panics on overflow in a debug build, wraps otherwise.
    Rust's operator, used in crates/bits/src/bit_slice.rs and crates/bits/src/algos. *)
Definition iadd (dbg : bool) (t : ity) (a b : Z) : res Z :=
  if in_range t (a + b) then Ok (a + b) else if dbg then Panic else Ok (wrap t (a + b)).

(** crates/bits/src/utils.rs:72-75, the loop of [arr_to_int]. *)
Fixpoint arr_to_int_loop (dbg : bool) (w : nat) (t : ity) (arr : list Z) (idx : Z) (out : Z)
  : res (option Z) :=
  match arr with
  | [] => Ok (Some out)
  | i :: arr' =>
    match from_checked t i with
    | None => Ok None
    | Some tv =>
      match checked_shl_usize t tv (idx * Z.of_nat w) with
      | None => Ok None
      | Some sh =>
        do out' <- iadd dbg t out sh ;;
        arr_to_int_loop dbg w t arr' (idx + 1) out'
      end
    end
  end.

(** crates/bits/src/utils.rs:64-77 [arr_to_int::<T, U>]; [w] is the width of [T], [t] is [U]. *)
Definition arr_to_int (dbg : bool) (w : nat) (t : ity) (arr : list Z) : res (option Z) :=
  arr_to_int_loop dbg w t arr 0 0.

(** crates/bits/src/utils.rs:79-88 [const_reverse]: swap the ends, half the length. *)
Definition const_reverse (bytes : list Z) : list Z :=
  fold_left (fun bytes idx =>
      let tmp := zget bytes idx in
      let bytes := upd bytes idx (zget bytes (length bytes - idx - 1)) in
      upd bytes (length bytes - idx - 1) tmp)
    (seq 0 (Nat.div (length bytes) 2)) bytes.
