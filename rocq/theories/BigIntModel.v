(** Model of crates/ints/src/big_int.rs and big_int/macros.rs on a 64-bit target.

    A BigInt is its raw word ([TaggedOffset], one [usize]); the global [INT_STORE] is an
    explicit state.  Every operation that may touch the store is a function
    [store -> res (result * store)]; temporaries are created and dropped where the Rust code
    creates and drops them.  [approx_float] is in FloatModel.v.  A panic ends the modelled
    execution; the store it leaves behind is modelled in BigIntUnwindModel.v. *)
From Coq Require Import ZArith List Bool.
From Verif Require Import Base Words BitSliceModel ElementModel BitwiseModel InternModel.
Import ListNotations.
Local Open Scope Z_scope.

(** crates/ints/src/big_int.rs:28 [INT_STORE]: interned limb slices. *)
Definition istore := store (list Z).

(** Equality of limb slices, [<[usize] as PartialEq>::eq].  core, used by [Interner::find], crates/utils/src/intern.rs:102. *)
Fixpoint list_eqb (l r : list Z) : bool :=
  match l, r with
  | [], [] => true
  | x :: l', y :: r' => (x =? y) && list_eqb l' r'
  | _, _ => false
  end.

(** State-passing plumbing (not part of the crate).  No code. *)
Definition M (A : Type) := istore -> res (A * istore).
Definition ret {A} (a : A) : M A := fun st => Ok (a, st).
Definition mbind {A B} (m : M A) (f : A -> M B) : M B :=
  fun st => do (a, st') <- m st ;; f a st'.
Definition lift {A} (r : res A) : M A := fun st => do a <- r ;; Ok (a, st).
Definition reads {A} (f : istore -> res A) : M A := fun st => do a <- f st ;; Ok (a, st).
Notation "'let!' x := e1 'in' e2" := (mbind e1 (fun x => e2))
  (at level 200, x pattern, e1 at level 100, e2 at level 200, right associativity).

(** ** Tagged words *)

(** crates/ints/src/big_int.rs:32-37 [Tag]. *)
Inductive tag := TNone | TNeg | TInline | TInlineNeg.

Definition tag_usize (t : tag) : Z :=
  match t with TNone => 0 | TNeg => 1 | TInline => 2 | TInlineNeg => 3 end.

(** crates/ints/src/big_int.rs:42-57 [Tag::from_usize_truncate]. *)
Definition tag_of (raw : Z) : tag :=
  match Z.land raw 3 with 0 => TNone | 1 => TNeg | 2 => TInline | _ => TInlineNeg end.

(** crates/ints/src/big_int.rs:61-69 [Tag::inline] and [Tag::negative]. *)
Definition tag_inline (t : tag) : bool := match t with TInline | TInlineNeg => true | _ => false end.
Definition tag_negative (t : tag) : bool := match t with TNeg | TInlineNeg => true | _ => false end.
Definition tag_eqb (s t : tag) : bool := tag_usize s =? tag_usize t.

(** [usize::MAX >> 2].  crates/ints/src/big_int.rs:95, 196. *)
Definition max_offset : Z := Z.shiftr (2 ^ 64 - 1) 2.

(** crates/ints/src/big_int.rs:94-97 [TaggedOffset::new]. *)
Definition to_new (offset : Z) (t : tag) : res Z :=
  if offset <=? max_offset then Ok (Z.lor ((Z.shiftl offset 2) mod 2 ^ 64) (tag_usize t)) else Panic.

(** crates/ints/src/big_int.rs:101-103 [TaggedOffset::invert_neg]. *)
Definition invert_neg (raw : Z) : Z := Z.lxor raw 1.

(** crates/ints/src/big_int.rs:113-115 [TaggedOffset::offset]. *)
Definition to_offset (raw : Z) : Z := Z.shiftr raw 2.

(** ** Creation, reading, cloning, dropping *)

(** crates/ints/src/big_int.rs:234-243 [is_inline] and [is_interned]. *)
Definition is_inline (a : Z) : bool := tag_inline (tag_of a).
Definition is_interned (a : Z) : bool := negb (tag_inline (tag_of a)).

(** crates/ints/src/big_int.rs:698-704 [Signed::is_positive], [Signed::is_negative]. *)
Definition is_positive (a : Z) : bool := negb (tag_negative (tag_of a)).
Definition is_negative (a : Z) : bool := tag_negative (tag_of a).

(** crates/ints/src/big_int.rs:147-154 and 131-136 [val().slice()]. *)
Definition bi_slice (st : istore) (a : Z) : res (list Z) :=
  if is_inline a then Ok [to_offset a] else intern_get st (to_offset a).

(** crates/ints/src/big_int.rs:168-178 [new_inline]. *)
Definition new_inline (v : Z) (neg : bool) : res Z :=
  to_new v (if negb (v =? 0) && neg then TInlineNeg else TInline).

(** crates/ints/src/big_int.rs:180-189 [new_intern]. *)
Definition new_intern (dbg : bool) (l : list Z) (neg : bool) : M Z :=
  let! offset := intern_add list_eqb dbg l in
  lift (to_new offset (if neg then TNeg else TNone)).

(** crates/ints/src/big_int.rs:191-201 [new_slice]. *)
Definition new_slice (dbg : bool) (l : list Z) (neg : bool) : M Z :=
  let! l := lift (shrink l) in
  if Nat.eqb (length l) 1 && (zget l 0 <=? max_offset) then lift (new_inline (zget l 0) neg)
  else new_intern dbg l neg.

(** crates/ints/src/big_int.rs:164-166 [new] (also [Default] 343-347 and [zero] 598-601). *)
Definition bi_new : res Z := new_inline 0 false.

(** crates/ints/src/big_int.rs:609-611 [one]. *)
Definition bi_one : res Z := new_inline 1 false.

(** crates/ints/src/big_int.rs:603-605 [is_zero] and 613-615 [is_one]. *)
Definition bi_is_zero (a : Z) : bool := (to_offset a =? 0) && tag_eqb (tag_of a) TInline.
Definition bi_is_one (a : Z) : bool := (to_offset a =? 1) && tag_eqb (tag_of a) TInline.

(** crates/ints/src/big_int.rs:324-332 [Clone]. *)
Definition bi_clone (dbg : bool) (a : Z) : M Z :=
  if is_inline a then ret a
  else fun st => do st' <- intern_incr dbg (to_offset a) st ;; Ok (a, st').

(** crates/ints/src/big_int.rs:334-341 [Drop]. *)
Definition bi_drop (a : Z) : M unit :=
  if is_inline a then ret tt
  else fun st => do st' <- intern_decr (to_offset a) st ;; Ok (tt, st').

(** ** Comparison *)

(** crates/ints/src/big_int.rs:349-359 [PartialEq]. *)
Definition bi_eq (st : istore) (a b : Z) : res bool :=
  if a =? b then Ok true
  else if tag_eqb (tag_of a) (tag_of b) && negb (tag_inline (tag_of a)) then
    do la <- bi_slice st a ;;
    do lb <- bi_slice st b ;;
    Ok (list_eqb la lb)
  else Ok false.

(** crates/ints/src/big_int.rs:383-389, first difference from the low limb up. *)
Fixpoint low_first (l r : list Z) : comparison :=
  match l, r with
  | x :: l', y :: r' => match Z.compare x y with Eq => low_first l' r' | c => c end
  | _, _ => Eq
  end.

(** crates/ints/src/big_int.rs:369-399 [Ord::cmp]. *)
Definition bi_cmp (st : istore) (a b : Z) : res comparison :=
  if a =? b then Ok Eq
  else if is_negative a && is_positive b then Ok Lt
  else if is_positive a && is_negative b then Ok Gt
  else
    do la <- bi_slice st a ;;
    do lb <- bi_slice st b ;;
    let out :=
      if negb (Nat.eqb (length la) (length lb)) then Nat.compare (length la) (length lb)
      else low_first la lb in
    Ok (if is_negative a then CompOpp out else out).

(** ** Conversion from and to primitive integers *)

(** crates/ints/src/big_int.rs:422-424 [arr_size]. *)
Definition arr_size (t : ity) : nat := (Nat.div (Nat.div (ibits t) 8) 8 + 1)%nat.

(** crates/ints/src/big_int/macros.rs:45-64 [From<$signed>] and [From<$unsigned>]. *)
Definition bi_from (dbg : bool) (t : ity) (v : Z) : M Z :=
  let! arr := lift (int_to_arr dbg 64 (arr_size t) (Z.abs v)) in
  new_slice dbg arr (isigned t && (v <? 0)).

(** crates/ints/src/big_int.rs:401-405 [Side], the content of [OutOfRangeError]. *)
Inductive side := Above | Below.

(** crates/ints/src/big_int/macros.rs:82-110 [TryFrom<&BigInt>] for either signedness. *)
Definition bi_try_from (dbg : bool) (t : ity) (a : Z) : M (Z + side) :=
  let! m := bi_from dbg t (imax t) in
  let! c := reads (fun st => bi_cmp st a m) in
  let! _ := bi_drop m in
  match c with
  | Gt => ret (inr Above)
  | _ =>
    let! m := bi_from dbg t (imin t) in
    let! c := reads (fun st => bi_cmp st a m) in
    let! _ := bi_drop m in
    match c with
    | Lt => ret (inr Below)
    | _ =>
      let! l := reads (fun st => bi_slice st a) in
      let! o := lift (arr_to_int dbg 64 t l) in
      ret (match o with Some v => inl v | None => inr Above end)
    end
  end.

(** crates/ints/src/big_int/macros.rs:66-80 [TryFrom<BigInt>]: by value. *)
Definition bi_try_from_val (dbg : bool) (t : ity) (a : Z) : M (Z + side) :=
  let! r := bi_try_from dbg t a in
  let! _ := bi_drop a in
  ret r.

(** crates/ints/src/big_int/macros.rs:128-138 [FromChecked<BigInt>]. *)
Definition bi_from_checked (dbg : bool) (t : ity) (a : Z) : M (option Z) :=
  let! r := bi_try_from_val dbg t a in
  ret (match r with inl v => Some v | inr _ => None end).

(** crates/ints/src/big_int/macros.rs:140-158 [FromSaturating<BigInt>]. *)
Definition bi_saturate (dbg : bool) (t : ity) (a : Z) : M Z :=
  let! r := bi_try_from_val dbg t a in
  ret (match r with inl v => v | inr Above => imax t | inr Below => imin t end).

(** crates/ints/src/big_int/macros.rs:114-126 [FromTruncating<BigInt>]; for signed types the
    product with the sign is ordinary checked or wrapping multiplication. *)
Definition bi_truncate (dbg : bool) (t : ity) (a : Z) : M Z :=
  let! l := reads (fun st => bi_slice st a) in
  let! o := lift (arr_to_int dbg 64 t l) in
  let v := unwrap_or o (imax t) in
  let! r := lift (if isigned t then
      let p := v * (if is_negative a then -1 else 1) in
      if in_range t p then Ok p else if dbg then Panic else Ok (wrap t p)
    else Ok v) in
  let! _ := bi_drop a in
  ret r.

(** crates/ints/src/big_int/macros.rs:162-183 [PartialEq<$signed>], [PartialEq<$unsigned>];
    [abs] of the least signed value panics in a debug build and wraps otherwise. *)
Definition bi_eq_int (dbg : bool) (t : ity) (st : istore) (a v : Z) : res bool :=
  if isigned t then
    if negb (Bool.eqb (is_negative a) (v <? 0)) then Ok false
    else
      do m <- (if v =? imin t then (if dbg then Panic else Ok v) else Ok (Z.abs v)) ;;
      let m := m mod 2 ^ Z.of_nat (ibits t) in
      do l <- bi_slice st a ;;
      do arr <- int_to_arr dbg 64 (arr_size t) m ;;
      do arr <- shrink arr ;;
      Ok (list_eqb l arr)
  else
    do l <- bi_slice st a ;;
    do arr <- int_to_arr dbg 64 (arr_size t) v ;;
    do arr <- shrink arr ;;
    Ok (list_eqb l arr).

(** crates/ints/src/big_int/macros.rs:185-195 [PartialOrd] with primitives. *)
Definition bi_cmp_int (dbg : bool) (t : ity) (a v : Z) : M comparison :=
  let! b := bi_from dbg t v in
  let! c := reads (fun st => bi_cmp st a b) in
  let! _ := bi_drop b in
  ret c.

(** ** Arithmetic on references *)

(** crates/ints/src/big_int.rs:156-159 [with_slices]. *)
Definition with_slices {A} (a b : Z) (f : list Z -> list Z -> M A) : M A :=
  let! la := reads (fun st => bi_slice st a) in
  let! lb := reads (fun st => bi_slice st b) in
  f la lb.

(** crates/ints/src/big_int.rs:433-451 [add]. *)
Definition bi_add (dbg : bool) (a b : Z) : M Z :=
  let! (out, neg) := with_slices a b (fun la lb =>
    match is_positive a, is_positive b with
    | true, true | false, false =>
      let! out := lift (elem_add 64 la lb) in ret (out, is_negative a)
    | true, _ => lift (elem_sub 64 la lb)
    | _, true => let! (out, neg) := lift (elem_sub 64 la lb) in ret (out, negb neg)
    end) in
  new_slice dbg out neg.

(** crates/ints/src/big_int.rs:453-459 [mul]. *)
Definition bi_mul (dbg : bool) (a b : Z) : M Z :=
  let! out := with_slices a b (fun la lb => lift (elem_mul 64 la lb)) in
  new_slice dbg out (negb (Bool.eqb (is_negative a) (is_negative b))).

(** crates/ints/src/big_int.rs:461-480 [sub]. *)
Definition bi_sub (dbg : bool) (a b : Z) : M Z :=
  let! (out, neg) := with_slices a b (fun la lb =>
    match is_positive a, is_positive b with
    | true, false | false, true =>
      let! out := lift (elem_add 64 la lb) in ret (out, is_negative a)
    | true, true => lift (elem_sub 64 la lb)
    | false, false => let! (out, neg) := lift (elem_sub 64 la lb) in ret (out, negb neg)
    end) in
  new_slice dbg out neg.

(** crates/ints/src/big_int.rs:482-487 [div]. *)
Definition bi_div (dbg : bool) (a b : Z) : M Z :=
  let! out := with_slices a b (fun la lb =>
    let! (q, r) := lift (bit_div_long dbg 64 la lb) in ret q) in
  new_slice dbg out (negb (Bool.eqb (is_negative a) (is_negative b))).

(** crates/ints/src/big_int.rs:489-494 [rem]. *)
Definition bi_rem (dbg : bool) (a b : Z) : M Z :=
  let! out := with_slices a b (fun la lb =>
    let! (q, r) := lift (bit_div_long dbg 64 la lb) in ret r) in
  new_slice dbg out (negb (Bool.eqb (is_negative a) (is_negative b))).

(** The shift amount: [usize::try_from(rhs).expect(..)].  crates/ints/src/big_int.rs:498, 505. *)
Definition shift_amount (dbg : bool) (b : Z) : M nat :=
  let! r := bi_try_from dbg {| ibits := 64; isigned := false |} b in
  match r with
  | inl n => ret (Z.to_nat n)
  | inr _ => lift Panic
  end.

(** crates/ints/src/big_int.rs:496-501 [shl]. *)
Definition bi_shl (dbg : bool) (a b : Z) : M Z :=
  let! out := with_slices a b (fun la _ =>
    let! n := shift_amount dbg b in lift (elem_shl 64 la n)) in
  new_slice dbg out (is_negative a).

(** crates/ints/src/big_int.rs:503-508 [shr]. *)
Definition bi_shr (dbg : bool) (a b : Z) : M Z :=
  let! out := with_slices a b (fun la _ =>
    let! n := shift_amount dbg b in lift (elem_shr dbg 64 la n)) in
  new_slice dbg out (is_negative a).

(** crates/ints/src/big_int.rs:510-529 [bitand], [bitor], [bitxor]. *)
Definition bi_bitop (dbg : bool) (op : Z -> Z -> Z) (a b : Z) : M Z :=
  let! out := with_slices a b (fun la lb => ret (elem_bitop op la lb)) in
  new_slice dbg out (is_negative a).
Definition bi_bitand (dbg : bool) := bi_bitop dbg Z.land.
Definition bi_bitor (dbg : bool) := bi_bitop dbg Z.lor.
Definition bi_bitxor (dbg : bool) := bi_bitop dbg Z.lxor.

(** ** Operators on values, with primitives, and assignment *)

(** crates/ints/src/big_int/macros.rs:238-244 [BigInt op BigInt]: both operands are dropped
    once the result exists. *)
Definition by_val (op : Z -> Z -> M Z) (a b : Z) : M Z :=
  let! c := op a b in
  let! _ := bi_drop b in
  let! _ := bi_drop a in
  ret c.

(** crates/ints/src/big_int/macros.rs:246-252 [BigInt op &BigInt] (also the assignment
    operators with a reference, crates/ints/src/big_int.rs:586-596: the old value of the
    target is dropped). *)
Definition by_val_ref (op : Z -> Z -> M Z) (a b : Z) : M Z :=
  let! c := op a b in
  let! _ := bi_drop a in
  ret c.

(** crates/ints/src/big_int/macros.rs:254-260 [&BigInt op BigInt]. *)
Definition by_ref_val (op : Z -> Z -> M Z) (a b : Z) : M Z :=
  let! c := op a b in
  let! _ := bi_drop b in
  ret c.

(** crates/ints/src/big_int/macros.rs:31-37 [BigInt op prim], and 10-14 [BigInt op= prim]. *)
Definition op_int (dbg : bool) (op : Z -> Z -> M Z) (t : ity) (a v : Z) : M Z :=
  let! b := bi_from dbg t v in
  by_val op a b.

(** crates/ints/src/big_int.rs:531-542 [Not]. *)
Definition bi_not (dbg : bool) (a : Z) : M Z :=
  let! l := reads (fun st => bi_slice st a) in
  let! c := new_slice dbg (elem_not 64 l) (is_negative a) in
  let! _ := bi_drop a in
  ret c.

(** crates/ints/src/big_int.rs:544-551 [Neg for BigInt]. *)
Definition bi_neg (a : Z) : Z := invert_neg a.

(** crates/ints/src/big_int.rs:553-561 [Neg for &BigInt]. *)
Definition bi_neg_ref (dbg : bool) (a : Z) : M Z :=
  let! out := bi_clone dbg a in
  ret (invert_neg out).

(** crates/ints/src/big_int.rs:676-682 [abs]. *)
Definition bi_abs (a : Z) : Z := if is_negative a then bi_neg a else a.

(** ** Powers *)

(** The primitive types that the code converts to and from.  No code of their own: Rust's types. *)

Definition t_i32 : ity := {| ibits := 32; isigned := true |}.
Definition t_u32 : ity := {| ibits := 32; isigned := false |}.
Definition t_u8 : ity := {| ibits := 8; isigned := false |}.
Definition t_usize : ity := {| ibits := 64; isigned := false |}.

(** crates/ints/src/big_int.rs:716-719, the [while] loop.  [out *= s] drops the old [out] before [s], [by_val] the other way
    round: two decrements, whose order makes no difference to the store they leave. *)
Fixpoint bi_pow_loop (dbg : bool) (fuel : nat) (self rhs out : Z) : M (Z * Z) :=
  match fuel with
  | O => fun _ => Timeout
  | S fuel' =>
    let! c := bi_cmp_int dbg t_i32 rhs 1 in
    match c with
    | Gt =>
      let! s := bi_clone dbg self in
      let! out' := by_val (bi_mul dbg) out s in
      let! rhs' := op_int dbg (bi_sub dbg) t_i32 rhs 1 in
      bi_pow_loop dbg fuel' self rhs' out'
    | _ => ret (rhs, out)
    end
  end.

(** crates/ints/src/big_int.rs:710-722 [Pow<BigInt>]: both operands by value. *)
Definition bi_pow (dbg : bool) (fuel : nat) (self rhs : Z) : M Z :=
  let! z := reads (fun st => bi_eq_int dbg t_i32 st rhs 0) in
  if z then
    let! one := bi_from dbg t_i32 1 in
    let! _ := bi_drop rhs in
    let! _ := bi_drop self in
    ret one
  else
    let! out := bi_clone dbg self in
    let! (rhs, out) := bi_pow_loop dbg fuel self rhs out in
    let! _ := bi_drop rhs in
    let! _ := bi_drop self in
    ret out.

(** ** Text *)

(** crates/ints/src/big_int.rs:214-219, the digit loop of [write_base], least digit first. *)
Fixpoint bi_digits (dbg : bool) (fuel : nat) (base scratch : Z) (digits : list Z) : M (list Z) :=
  match fuel with
  | O => fun _ => Timeout
  | S fuel' =>
    let! c := bi_cmp_int dbg t_i32 scratch 0 in
    match c with
    | Gt =>
      let! s := bi_clone dbg scratch in
      let! m := op_int dbg (bi_rem dbg) t_usize s base in
      let! o := bi_from_checked dbg t_u8 m in
      let! digit := lift (unwrap o) in
      let! scratch' := op_int dbg (bi_div dbg) t_usize scratch base in
      bi_digits dbg fuel' base scratch' (digits ++ [digit])
    | _ => let! _ := bi_drop scratch in ret digits
    end
  end.

(** crates/ints/src/big_int.rs:208-229 [write_base]; [scratch] is dropped when it goes out
    of scope (here: when the digit loop ends). *)
Definition bi_write_base (dbg : bool) (fuel : nat) (a base : Z) (chars : list Z) : M (list Z) :=
  let! scratch := bi_clone dbg a in
  let! digits := bi_digits dbg fuel base scratch [] in
  let digits := match digits with [] => [0] | _ => digits end in
  lift (foldR (fun out d => do c <- unwrap (nth_error chars (Z.to_nat d)) ;; Ok (out ++ [c]))
          (rev digits) []).

(** The character codes of "0123456789", of "0123456789ABCDEF" and "0123456789abcdef".  crates/ints/src/big_int.rs:273-325. *)
Definition dec_digits : list Z := [48; 49; 50; 51; 52; 53; 54; 55; 56; 57].
Definition upper_hex : list Z := dec_digits ++ [65; 66; 67; 68; 69; 70].
Definition lower_hex : list Z := dec_digits ++ [97; 98; 99; 100; 101; 102].

(** The "-" written for a negative value.  crates/ints/src/big_int.rs:275, 284, 303, 317. *)
Definition minus (a : Z) : list Z := if is_negative a then [45] else [].

(** crates/ints/src/big_int.rs:270-279 [Display] (and [Debug], 264-268). *)
Definition bi_display (dbg : bool) (fuel : nat) (a : Z) : M (list Z) :=
  let! s := bi_write_base dbg fuel a 10 dec_digits in ret (minus a ++ s).

(** crates/ints/src/big_int.rs:296-308 [UpperHex] and 310-322 [LowerHex]; "0x" prefix. *)
Definition bi_upper_hex (dbg : bool) (fuel : nat) (a : Z) : M (list Z) :=
  let! s := bi_write_base dbg fuel a 16 upper_hex in ret (minus a ++ [48; 120] ++ s).
Definition bi_lower_hex (dbg : bool) (fuel : nat) (a : Z) : M (list Z) :=
  let! s := bi_write_base dbg fuel a 16 lower_hex in ret (minus a ++ [48; 120] ++ s).

(** crates/ints/src/big_int.rs:281-294 [Binary]: "0b" and every bit of the slice. *)
Definition bi_binary (a : Z) : M (list Z) :=
  let! l := reads (fun st => bi_slice st a) in
  let! s := lift (foldR (fun out idx =>
      do b <- get_bit 64 l idx ;; Ok (out ++ [if b : bool then 49 else 48]))
    (rev (seq 0 (bit_len 64 l))) []) in
  ret (minus a ++ [48; 98] ++ s).

(** crates/ints/src/big_int.rs:621-626 [FromStrError]. *)
Inductive from_str_error := InvalidRadix (r : Z) | InvalidChar (c : Z).

(** crates/ints/src/big_int.rs:632-636 [INSENS_CHARS]: "0".."9", "a".."z". *)
Definition insens_chars : list Z :=
  [48; 49; 50; 51; 52; 53; 54; 55; 56; 57;
   97; 98; 99; 100; 101; 102; 103; 104; 105; 106; 107; 108; 109; 110; 111; 112; 113; 114; 115;
   116; 117; 118; 119; 120; 121; 122].

(** [char::to_ascii_lowercase].  core, used in crates/ints/src/big_int.rs:645. *)
Definition ascii_lower (c : Z) : Z := if (65 <=? c) && (c <=? 90) then c + 32 else c.

(** [iter().enumerate().find_map(..)] of crates/ints/src/big_int.rs:641-650. *)
Fixpoint char_pos (c : Z) (chars : list Z) (idx : Z) : option Z :=
  match chars with
  | [] => None
  | c2 :: chars' => if c2 =? ascii_lower c then Some idx else char_pos c chars' (idx + 1)
  end.

(** crates/ints/src/big_int.rs:631-655 [RadixChars::val_from_char]; [radix] is a [u32]. *)
Definition val_from_char (c radix : Z) : Z + from_str_error :=
  if radix <=? 36 then
    match char_pos c (firstn (Z.to_nat radix) insens_chars) 0 with
    | Some d => inl d
    | None => inr (InvalidChar c)
    end
  else inr (InvalidRadix radix).

(** crates/ints/src/big_int.rs:663-667, the loop of [from_str_radix]. *)
Fixpoint bi_parse_loop (dbg : bool) (radix : Z) (s : list Z) (out : Z) : M (Z + from_str_error) :=
  match s with
  | [] => ret (inl out)
  | c :: s' =>
    match val_from_char c radix with
    | inr e => let! _ := bi_drop out in ret (inr e)
    | inl d =>
      let! p := op_int dbg (bi_mul dbg) t_u32 out radix in
      let! out' := op_int dbg (bi_add dbg) t_u32 p d in
      bi_parse_loop dbg radix s' out'
    end
  end.

(** crates/ints/src/big_int.rs:661-668 [from_str_radix]. *)
Definition bi_from_str_radix (dbg : bool) (s : list Z) (radix : Z) : M (Z + from_str_error) :=
  let! z := lift bi_new in
  bi_parse_loop dbg radix s z.
