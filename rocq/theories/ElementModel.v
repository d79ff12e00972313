(** Model of crates/bits/src/algos/element/*.rs: limb-by-limb algorithms. *)
From Coq Require Import ZArith List Bool.
From Verif Require Import Base Words BitSliceModel.
Import ListNotations.
Local Open Scope Z_scope.

(** ** add.rs *)

(** crates/bits/src/algos/element/add.rs:23-32 (and 52-62): one limb of the carry chain. *)
Definition add_step (w : nat) (l r : Z) (carry : bool) : Z * bool :=
  let '(res1, c1) := wadd_ov w l (if carry then 1 else 0) in
  let '(res2, c2) := wadd_ov w res1 r in
  (res2, if c2 then true else c1).

(** crates/bits/src/algos/element/add.rs:22-35, loop of [add] ([0..=len]). *)
Definition elem_add_loop (w : nat) (lhs rhs : list Z) (n : nat) (out : list Z)
  : list Z * bool :=
  fold_left (fun '(out, carry) idx =>
      let '(r, carry) := add_step w (zget lhs idx) (zget rhs idx) carry in
      (set_ignore out idx r, carry))
    (seq 0 n) (out, false).

(** crates/bits/src/algos/element/add.rs:11-38 [ElementAdd::add]. *)
Definition elem_add (w : nat) (lhs rhs : list Z) : res (list Z) :=
  let len := Nat.max (length lhs) (length rhs) in
  shrink (fst (elem_add_loop w lhs rhs (len + 1) (zeros (len + 1)))).

(** crates/bits/src/algos/element/add.rs:40-68 [ElementAdd::add_overflowing]; returns the
    new contents of [lhs] and the flag. *)
Definition elem_add_overflowing (w : nat) (lhs rhs : list Z) : list Z * bool :=
  let len := Nat.max (length lhs) (length rhs) in
  fold_left (fun '(lhs, carry) idx =>
      let '(r, carry) := add_step w (zget lhs idx) (zget rhs idx) carry in
      (set_ignore lhs idx r, carry))
    (seq 0 len) (lhs, false).

(** crates/bits/src/algos/element/add.rs:70-81 [ElementAdd::add_checked]. *)
Definition elem_add_checked (w : nat) (lhs rhs : list Z) : option (list Z) :=
  let '(out, carry) := elem_add_overflowing w lhs rhs in
  if carry then None else Some out.

(** crates/bits/src/algos/element/add.rs:83-89 [ElementAdd::add_wrapping]. *)
Definition elem_add_wrapping (w : nat) (lhs rhs : list Z) : list Z :=
  fst (elem_add_overflowing w lhs rhs).

(** ** neg.rs *)

(** crates/bits/src/algos/element/neg.rs:3-7 [ElementNot::not]. *)
Definition elem_not (w : nat) (l : list Z) : list Z := map (wnot w) l.

(** ** sub.rs *)

(** crates/bits/src/algos/element/sub.rs:23-41 (and 67-85): one limb of the borrow chain. *)
Definition sub_step (w : nat) (l r : Z) (carry : bool) : Z * bool :=
  let extra := if carry then 1 else 0 in
  let '(res1, c1) := wsub_ov w l r in
  let '(res2, c2) := wsub_ov w res1 extra in
  (res2, if c2 then true else c1).

(** crates/bits/src/algos/element/sub.rs:22-44, loop of [sub]. *)
Definition elem_sub_loop (w : nat) (lhs rhs : list Z) (n : nat) (out : list Z)
  : list Z * bool :=
  fold_left (fun '(out, carry) idx =>
      let '(r, carry) := sub_step w (zget lhs idx) (zget rhs idx) carry in
      (set_ignore out idx r, carry))
    (seq 0 n) (out, false).

(** crates/bits/src/algos/element/sub.rs:11-52 [ElementSub::sub]. *)
Definition elem_sub (w : nat) (lhs rhs : list Z) : res (list Z * bool) :=
  let len := Nat.max (length lhs) (length rhs) in
  let '(out, carry) := elem_sub_loop w lhs rhs len (zeros len) in
  do out <- (if carry then
               do b <- get_bit w out 0 ;;
               do out <- set_bit w out 0 (negb b) ;;
               Ok (elem_not w out)
             else Ok out) ;;
  do s <- shrink out ;;
  Ok (s, carry).

(** crates/bits/src/algos/element/sub.rs:54-91 [ElementSub::sub_overflowing]. *)
Definition elem_sub_overflowing (w : nat) (lhs rhs : list Z) : list Z * bool :=
  let len := Nat.max (length lhs) (length rhs) in
  fold_left (fun '(lhs, carry) idx =>
      let '(r, carry) := sub_step w (zget lhs idx) (zget rhs idx) carry in
      (set_ignore lhs idx r, carry))
    (seq 0 len) (lhs, false).

(** crates/bits/src/algos/element/sub.rs:93-104 [ElementSub::sub_checked]. *)
Definition elem_sub_checked (w : nat) (lhs rhs : list Z) : option (list Z) :=
  let '(out, carry) := elem_sub_overflowing w lhs rhs in
  if carry then None else Some out.

(** crates/bits/src/algos/element/sub.rs:106-112 [ElementSub::sub_wrapping]. *)
Definition elem_sub_wrapping (w : nat) (lhs rhs : list Z) : list Z :=
  fst (elem_sub_overflowing w lhs rhs).

(** ** cmp.rs *)

(** crates/bits/src/algos/element/cmp.rs:13-21: the loop, starting at limb [idx]. *)
Fixpoint elem_cmp_loop (lhs rhs : list Z) (idxs : list nat) : comparison :=
  match idxs with
  | [] => Eq
  | idx :: idxs' =>
    match Z.compare (zget lhs idx) (zget rhs idx) with
    | Eq => elem_cmp_loop lhs rhs idxs'
    | ord => ord
    end
  end.

(** crates/bits/src/algos/element/cmp.rs:6-29 [ElementCmp::cmp]. *)
Definition elem_cmp (lhs rhs : list Z) : comparison :=
  elem_cmp_loop lhs rhs (seq 0 (Nat.max (length lhs) (length rhs))).

(** [Ordering::is_ge].  core, used in crates/bits/src/algos/element/div.rs:43. *)
Definition is_ge (c : comparison) : bool := match c with Lt => false | _ => true end.

(** ** mul.rs *)

(** crates/bits/src/algos/element/mul.rs:36-54 [ElementMul::add_item]; the [while let]
    loop over [slice.get_mut(idx)] is structural recursion over the slice. [carry] is the
    loop variable of the same name. *)
Fixpoint add_item_loop (w : nat) (l : list Z) (idx : nat) (v : Z) (carry : bool)
  : list Z * bool :=
  match l with
  | [] => ([], carry)
  | x :: l' =>
    match idx with
    | S idx' => let '(l'', c) := add_item_loop w l' idx' v carry in (x :: l'', c)
    | O =>
      let '(new, new_carry) := wadd_ov w x v in
      if new_carry then
        let '(l'', c) := add_item_loop w l' 0 1 true in (new :: l'', c)
      else (new :: l', false)
    end
  end.
Definition add_item (w : nat) (l : list Z) (idx : nat) (v : Z) : list Z * bool :=
  add_item_loop w l idx v false.

(** crates/bits/src/algos/element/mul.rs:22-26, inner loop of [mul]. *)
Definition mul_inner (w : nat) (out : list Z) (idx : nat) (l : Z) (rhs : list Z)
  : list Z * Z :=
  fold_left (fun '(out, carry) offset =>
      let '(low, high) := widening_mul w l (zget rhs offset) carry in
      (fst (add_item w out (idx + offset) low), high))
    (seq 0 (length rhs)) (out, 0).

(** crates/bits/src/algos/element/mul.rs:12-34 [ElementMul::mul]. *)
Definition elem_mul (w : nat) (lhs rhs : list Z) : res (list Z) :=
  shrink (fold_left (fun out idx =>
      let '(out, carry) := mul_inner w out idx (zget lhs idx) rhs in
      if negb (carry =? 0) then fst (add_item w out (idx + length rhs) carry) else out)
    (seq 0 (length lhs)) (zeros (length lhs + length rhs))).

(** crates/bits/src/algos/element/mul.rs:74-80, inner loop of [mul_overflowing]. *)
Definition mulo_inner (w : nat) (lhs : list Z) (idx : nat) (l : Z) (rhs : list Z)
  : list Z * Z * bool :=
  fold_left (fun '(lhs, carry, ov) offset =>
      let '(low, high) := widening_mul w l (zget rhs offset) carry in
      let '(lhs, c) := add_item w lhs (idx + offset) low in
      (lhs, high, if c then true else ov))
    (seq 0 (length rhs)) (lhs, 0, false).

(** crates/bits/src/algos/element/mul.rs:56-90 [ElementMul::mul_overflowing]. *)
Definition elem_mul_overflowing (w : nat) (lhs rhs : list Z) : list Z * bool :=
  fold_left (fun '(lhs, overflow) idx =>
      let l := zget lhs idx in
      let lhs := upd lhs idx 0 in
      let '(lhs, carry, new_overflow) := mulo_inner w lhs idx l rhs in
      let '(lhs, new_overflow) :=
        if negb (carry =? 0) then
          let '(lhs, c) := add_item w lhs (idx + length rhs) carry in
          (lhs, if c then true else new_overflow)
        else (lhs, new_overflow) in
      (lhs, overflow || new_overflow))
    (rev (seq 0 (length lhs))) (lhs, false).

(** crates/bits/src/algos/element/mul.rs:92-103 [ElementMul::mul_checked]. *)
Definition elem_mul_checked (w : nat) (lhs rhs : list Z) : option (list Z) :=
  let '(out, carry) := elem_mul_overflowing w lhs rhs in
  if carry then None else Some out.

(** crates/bits/src/algos/element/mul.rs:105-111 [ElementMul::mul_wrapping]. *)
Definition elem_mul_wrapping (w : nat) (lhs rhs : list Z) : list Z :=
  fst (elem_mul_overflowing w lhs rhs).

(** ** shl.rs *)

(** crates/bits/src/algos/element/shl.rs:14-17: the four derived shift quantities. *)
Definition arr_shift (w rhs : nat) : nat := (Nat.div rhs w + 1)%nat.
Definition elem_shift (w rhs : nat) : nat := Nat.modulo rhs w.
Definition inv_shift (w rhs : nat) : nat := Nat.modulo (w - Nat.modulo rhs w) w.
Definition shl_mask (w rhs : nat) : Z := wnot w (wshl w (wmax w) (elem_shift w rhs)).

(** crates/bits/src/algos/element/shl.rs:26-38 (and 54-64): one limb; [val] was read from
    position [idx] of the source, [out] is the destination. *)
Definition shl_step (w rhs : nat) (out : list Z) (idx : nat) (v : Z) : list Z :=
  let m := shl_mask w rhs in
  let high := wshr v (inv_shift w rhs) in
  let low := wshl w v (elem_shift w rhs) in
  let high := Z.lor (Z.land (zget out (idx + arr_shift w rhs)) (wnot w m)) (Z.land high m) in
  let out := set_ignore out (idx + arr_shift w rhs) high in
  let low := Z.land low (wnot w m) in
  set_ignore out (idx + arr_shift w rhs - 1) low.

(** crates/bits/src/algos/element/shl.rs:13-42 [ElementShl::shl]. *)
Definition elem_shl (w : nat) (lhs : list Z) (rhs : nat) : res (list Z) :=
  shrink (fold_left (fun out idx => shl_step w rhs out idx (zget lhs idx))
    (rev (seq 0 (length lhs))) (zeros (length lhs + arr_shift w rhs))).

(** [slice[..n].fill(zero)]: panics when [n] exceeds the length.  core, used in crates/bits/src/algos/element/shl.rs:66. *)
Definition fill_prefix (l : list Z) (n : nat) : res (list Z) :=
  if Nat.leb n (length l) then Ok (zeros n ++ skipn n l) else Panic.

(** [slice[n..].fill(zero)]: panics when [n] exceeds the length.  core, used in crates/bits/src/algos/element/shr.rs:67. *)
Definition fill_suffix (l : list Z) (n : nat) : res (list Z) :=
  if Nat.leb n (length l) then Ok (firstn n l ++ zeros (length l - n)) else Panic.

(** crates/bits/src/algos/element/shl.rs:44-69 [inner_shl_wrap_and_mask]. *)
Definition inner_shl (w : nat) (lhs : list Z) (rhs : nat) : res (list Z) :=
  let lhs := fold_left (fun lhs idx => shl_step w rhs lhs idx (zget lhs idx))
    (rev (seq 0 (length lhs))) lhs in
  fill_prefix lhs (arr_shift w rhs - 1).

(** crates/bits/src/algos/element/shl.rs:71-79 [ElementShl::shl_checked]. *)
Definition elem_shl_checked (w : nat) (lhs : list Z) (rhs : nat) : res (option (list Z)) :=
  if Nat.ltb (bit_len w lhs) rhs then Ok None
  else rmap Some (inner_shl w lhs rhs).

(** crates/bits/src/algos/element/shl.rs:84-86 (and shr.rs:85-87): the masked amount
    [rhs & usize::MAX >> (bit_len.leading_zeros() + 1)] on a 64-bit target.  A shift of
    a [usize] by 64 or more panics with overflow checks and is taken modulo 64 without. *)
Definition masked_amount (dbg : bool) (bl rhs : nat) : res nat :=
  let lz := if Nat.eqb bl 0 then 64 else 63 - Z.log2 (Z.of_nat bl) in
  let nz := lz + 1 in
  if (64 <=? nz) && dbg then Panic
  else Ok (Z.to_nat (Z.land (Z.of_nat rhs) (Z.shiftr (2 ^ 64 - 1) (nz mod 64)))).

(** crates/bits/src/algos/element/shl.rs:81-87 [ElementShl::shl_wrapping]. *)
Definition elem_shl_wrapping (dbg : bool) (w : nat) (lhs : list Z) (rhs : nat)
  : res (list Z) :=
  do amt <- masked_amount dbg (bit_len w lhs) rhs ;;
  inner_shl w lhs amt.

(** ** shr.rs *)

(** crates/bits/src/algos/element/shr.rs:15. *)
Definition shr_mask (w rhs : nat) : Z := wnot w (wshr (wmax w) (elem_shift w rhs)).

(** [usize] subtraction used as an index.  With overflow checks an underflow panics;
    without, the result wraps to an index of at least 2^64 - (rhs/w + 1), larger than the
    length of any slice, written [None] here (reads give the default, writes are ignored). *)
Definition idx_sub (dbg : bool) (a b : nat) : res (option nat) :=
  if Nat.leb b a then Ok (Some (a - b)%nat) else if dbg then Panic else Ok None.

(** Read-modify-write at an optional index; [None] is out of range.
    Indexing in crates/bits/src/algos/element/mul.rs, add.rs and sub.rs. *)
Definition modify (l : list Z) (i : option nat) (f : Z -> Z) : list Z :=
  match i with
  | None => l
  | Some i => set_ignore l i (f (zget l i))
  end.

(** crates/bits/src/algos/element/shr.rs:19-34, loop body of [shr]. *)
Definition shr_step (dbg : bool) (w rhs : nat) (out : list Z) (idx : nat) (v : Z)
  : res (list Z) :=
  let m := shr_mask w rhs in
  let high := wshl w v (inv_shift w rhs) in
  let low := wshr v (elem_shift w rhs) in
  do out <-
    (if Nat.eqb idx 0 then Ok out
     else
       do i <- idx_sub dbg idx (arr_shift w rhs) ;;
       Ok (modify out i (fun o => Z.lor (Z.land o (wnot w m)) (Z.land high m)))) ;;
  do i <- idx_sub dbg (idx + 1) (arr_shift w rhs) ;;
  Ok (modify out i (fun o => Z.lor (Z.land o m) (Z.land low (wnot w m)))).

(** crates/bits/src/algos/element/shr.rs:11-37 [ElementShr::shr]. *)
Definition elem_shr (dbg : bool) (w : nat) (lhs : list Z) (rhs : nat) : res (list Z) :=
  do out <- foldR (fun out idx => shr_step dbg w rhs out idx (zget lhs idx))
              (seq 0 (length lhs)) (zeros (length lhs)) ;;
  shrink out.

(** crates/bits/src/algos/element/shr.rs:48-65, loop body of [inner_shr_wrap_and_mask]
    ([usize::checked_sub] guards both writes). *)
Definition shri_step (w rhs : nat) (lhs : list Z) (idx : nat) : list Z :=
  let v := zget lhs idx in
  let m := shr_mask w rhs in
  let high := wshl w v (inv_shift w rhs) in
  let low := wshr v (elem_shift w rhs) in
  let csub a b := if Nat.leb b a then Some (a - b)%nat else None in
  let lhs := modify lhs (csub idx (arr_shift w rhs))
                (fun o => Z.lor (Z.land o (wnot w m)) (Z.land high m)) in
  modify lhs (csub (idx + 1)%nat (arr_shift w rhs))
    (fun o => Z.lor (Z.land o m) (Z.land low (wnot w m))).

(** crates/bits/src/algos/element/shr.rs:39-70 [inner_shr_wrap_and_mask].  Line 66 computes
    [len - arr_shift + 1] from left to right: the subtraction panics on underflow with
    overflow checks; without, the sum wraps back into range when [arr_shift = len + 1] and
    is an out-of-range start index (slice panic) when [arr_shift] is larger. *)
Definition inner_shr (dbg : bool) (w : nat) (lhs : list Z) (rhs : nat) : res (list Z) :=
  let lhs := fold_left (shri_step w rhs) (seq 0 (length lhs)) lhs in
  let a := arr_shift w rhs in
  if Nat.ltb (length lhs) a && dbg then Panic
  else if Nat.ltb (length lhs + 1) a then Panic
  else fill_suffix lhs (length lhs + 1 - a).

(** crates/bits/src/algos/element/shr.rs:72-80 [ElementShr::shr_checked]. *)
Definition elem_shr_checked (dbg : bool) (w : nat) (lhs : list Z) (rhs : nat)
  : res (option (list Z)) :=
  if Nat.ltb (bit_len w lhs) rhs then Ok None
  else rmap Some (inner_shr dbg w lhs rhs).

(** crates/bits/src/algos/element/shr.rs:82-88 [ElementShr::shr_wrapping]. *)
Definition elem_shr_wrapping (dbg : bool) (w : nat) (lhs : list Z) (rhs : nat)
  : res (list Z) :=
  do amt <- masked_amount dbg (bit_len w lhs) rhs ;;
  inner_shr dbg w lhs amt.

(** ** bitand.rs, bitor.rs, bitxor.rs *)

(** crates/bits/src/algos/element/bitand.rs:8-24, bitor.rs:8-24, bitxor.rs:8-24 share this
    loop, with [op] the limb operator.  [out.set(idx, _)] is in range for [idx < len]. *)
Definition elem_bitop (op : Z -> Z -> Z) (lhs rhs : list Z) : list Z :=
  let len := Nat.max (length lhs) (length rhs) in
  fold_left (fun out idx => set_ignore out idx (op (zget lhs idx) (zget rhs idx)))
    (seq 0 len) (zeros len).

(** crates/bits/src/algos/element/bitand.rs:8 [ElementBitand::bitand]. *)
Definition elem_bitand := elem_bitop Z.land.
(** crates/bits/src/algos/element/bitor.rs:8 [ElementBitor::bitor]. *)
Definition elem_bitor := elem_bitop Z.lor.
(** crates/bits/src/algos/element/bitxor.rs:8 [ElementBitxor::bitxor]. *)
Definition elem_bitxor := elem_bitop Z.lxor.

(** ** div.rs *)

(** crates/bits/src/algos/element/div.rs:43-48: the [while] loop. *)
Fixpoint elem_div_while (fuel : nat) (w : nat) (rhs one : list Z)
  (quotient remainder : list Z) : res (list Z * list Z) :=
  if is_ge (elem_cmp remainder rhs) then
    match fuel with
    | O => Timeout
    | S fuel' =>
      elem_div_while fuel' w rhs one
        (elem_add_wrapping w quotient one) (elem_sub_wrapping w remainder rhs)
    end
  else Ok (quotient, remainder).

(** crates/bits/src/algos/element/div.rs:27-51, body of the outer loop. *)
Definition elem_div_step (dbg : bool) (fuel : nat) (w : nat) (lhs rhs : list Z)
  (st : list Z * list Z * list Z) (idx : nat) : res (list Z * list Z * list Z) :=
  let '(quotient, remainder, one) := st in
  do remainder <- elem_shl_wrapping dbg w remainder w ;;
  do x <- get lhs idx ;;
  do remainder <- set remainder 0 x ;;
  do qr <- elem_div_while fuel w rhs one quotient remainder ;;
  let '(quotient, remainder) := qr in
  do one <- elem_shr_wrapping dbg w one w ;;
  Ok (quotient, remainder, one).

(** crates/bits/src/algos/element/div.rs:16-54 [ElementDiv::div_long]; [fuel] bounds each
    run of the inner [while]. *)
Definition elem_div_long (dbg : bool) (fuel : nat) (w : nat) (lhs rhs : list Z)
  : res (list Z * list Z) :=
  let len := Nat.max (length lhs) (length rhs) in
  match len with
  | O => Panic (* one[len - 1]: underflow, or index out of range when it wraps *)
  | S n =>
    let one := upd (zeros len) n 1 in
    do st <- foldR (elem_div_step dbg fuel w lhs rhs) (rev (seq 0 len))
              (zeros len, zeros len, one) ;;
    let '(quotient, remainder, _) := st in
    do q <- shrink quotient ;;
    do r <- shrink remainder ;;
    Ok (q, r)
  end.

(** crates/bits/src/algos/element/div.rs:56-111: [div_long_overflowing] is [todo!()], and
    [div_long_checked]/[div_long_wrapping] call it: they panic on every input. *)
Definition elem_div_long_overflowing (lhs rhs : list Z) : res (list Z * bool) := Panic.
