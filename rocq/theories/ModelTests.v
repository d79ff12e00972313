(** The unit tests of the crates, evaluated in the model (debug build, 64-bit pointers).  Not proofs of
    anything beyond these cases: they check the transcription against the results its authors expect.
    Tests using threads and the timing of the interner are not repeated; floats are rationals. *)
From Coq Require Import ZArith List Bool QArith.
From Verif Require Import Base Words BitSliceModel ElementModel BitwiseModel UModel IModel PrimModel FixedModel RatModel
  InternModel BigIntModel StaticIterModel VectorModel MatrixModel.
Import ListNotations.
Local Open Scope Z_scope.

Ltac run := vm_compute; repeat split; reflexivity.

(** bit_slice.rs:238-244. *)
Example test_idx : forallb (fun i => forallb (fun j =>
  let '(a, b) := idx_bit 8 (i * 8 + j) in Nat.eqb a i && Nat.eqb b j) (seq 0 8)) (seq 0 8) = true.
Proof. run. Qed.

(** bit_slice.rs:247-253. *)
Example test_get_bit : map (get_bit 16 [0xAAAA; 0xAAAA]) (seq 0 32) = map (fun i => Ok (Nat.odd i)) (seq 0 32).
Proof. run. Qed.

(** bit_slice.rs:256-262. *)
Example test_set_bit : (do l <- set_bit 16 [0xAAAA; 0xAAAA] 0 true ;; set_bit 16 l 31 false) = Ok [0xAAAB; 0x2AAA].
Proof. run. Qed.

(** bit_slice.rs:265-273. *)
Example test_extend : let a := extend (zeros 1) 1 0 in let b := extend a 2 1 in
  a = [0] /\ b = [0; 1] /\ extend b 1 0 = [0; 1].
Proof. run. Qed.

(** bits/src/utils.rs:96-127. *)
Example test_shrink : map shrink [[0]; [0; 0]; [0; 0; 0]; [0; 1]; [0; 1; 1]; [1]; [1; 1]; [1; 1; 1]; [1; 0]; [1; 0; 0]; [1; 0; 1]]
  = map Ok [[0]; [0]; [0]; [0; 1]; [0; 1; 1]; [1]; [1; 1]; [1; 1; 1]; [1]; [1]; [1; 0; 1]].
Proof. run. Qed.

(** bits/src/utils.rs:130-150. *)
Example test_int_arr : map (int_to_arr true 64 1) [0; 1; 2 ^ 16 - 1] = [Ok [0]; Ok [1]; Ok [2 ^ 16 - 1]] /\
  map (int_to_arr true 64 2) [0; 1; 2 ^ 64; 2 ^ 128 - 1] = [Ok [0; 0]; Ok [1; 0]; Ok [0; 1]; Ok [2 ^ 64 - 1; 2 ^ 64 - 1]] /\
  int_to_arr true 8 16 0x0102030405060708090A0B0C0D0E0F00 = Ok [0; 15; 14; 13; 12; 11; 10; 9; 8; 7; 6; 5; 4; 3; 2; 1].
Proof. run. Qed.

(** bits/src/utils.rs:153-167. *)
Example test_arr_int :
  map (arr_to_int true 64 {| ibits := 8; isigned := false |}) [[0]; [1]; [2 ^ 64 - 1]] = [Ok (Some 0); Ok (Some 1); Ok None] /\
  map (arr_to_int true 64 {| ibits := 128; isigned := false |}) [[0]; [1]; [2 ^ 64 - 1]]
    = [Ok (Some 0); Ok (Some 1); Ok (Some (2 ^ 64 - 1))] /\
  map (arr_to_int true 8 {| ibits := 64; isigned := false |}) [[0; 1; 2; 3]; [255]] = [Ok (Some 0x03020100); Ok (Some 255)].
Proof. run. Qed.

(** element/add.rs:99-119. *)
Example test_element_add : map (fun '(a, b) => elem_add 32 a b)
    [([0], [0]); ([0], [1]); ([1], [0]); ([1], [1]); ([0], [0; 1]); ([1], [0; 1]); ([2 ^ 32 - 1], [1])]
  = map Ok [[0]; [1]; [1]; [2]; [0; 1]; [1; 1]; [0; 1]].
Proof. run. Qed.

(** element/cmp.rs:39-61. *)
Example test_element_cmp : map (fun '(a, b) => elem_cmp a b)
    [([0], [0; 1]); ([0; 1], [0]); ([0; 0], [0]); ([0], [0; 0]); ([0], [0]); ([1; 2; 3; 4], [1; 2; 3; 4]); ([1], [2]); ([0; 2], [0; 1])]
  = [Lt; Gt; Eq; Eq; Eq; Eq; Lt; Gt].
Proof. run. Qed.

(** element/div.rs:121-126. *)
Example test_element_rem : (exists q, elem_div_long true 10 32 [10] [2] = Ok (q, [0])) /\
  exists q, elem_div_long true 10 32 [17] [11] = Ok (q, [6]).
Proof. split; eexists; vm_compute; reflexivity. Qed.

(** element/mul.rs:121-164 and bitwise/mul.rs:37-57. *)
Example test_mul : let ts := [([0], [1]); ([1], [1]); ([1], [2]); ([2], [2])] in let rs := [[0]; [1]; [2]; [4]] in
  map (fun '(a, b) => elem_mul 8 a b) ts = map Ok rs /\ map (fun '(a, b) => elem_mul_wrapping 8 a b) ts = rs /\
  map (fun '(a, b) => bit_mul 8 a b) ts = map Ok rs.
Proof. run. Qed.

(** element/shl.rs:97-132. *)
Example test_element_shl : map (fun '(a, n) => elem_shl 8 a n) [([0], 1%nat); ([1], 1%nat); ([5], 1%nat); ([1], 8%nat)]
    = map Ok [[0]; [2]; [10]; [0; 1]] /\
  elem_shl 16 [0xAAAA; 0xAAAA] 1 = Ok [0x5554; 0x5555; 1] /\
  map (fun '(a, n) => elem_shl_wrapping true 8 a n) [([0], 1%nat); ([1], 1%nat); ([5], 1%nat); ([128; 128], 1%nat); ([1; 0], 8%nat)]
    = map Ok [[0]; [2]; [10]; [0; 1]; [0; 1]] /\
  elem_shl_wrapping true 16 [0xAAAA; 0xAAAA] 1 = Ok [0x5554; 0x5555].
Proof. run. Qed.

(** element/sub.rs:122-142. *)
Example test_element_sub : map (fun '(a, b) => elem_sub 32 a b)
    [([0], [0]); ([1], [0]); ([0], [1]); ([1], [1]); ([0; 1], [1]); ([0; 1], [0; 1]); ([1; 1], [1]); ([1; 1], [0; 1])]
  = map Ok [([0], false); ([1], false); ([1], true); ([0], false); ([2 ^ 32 - 1], false); ([0], false); ([0; 1], false); ([1], false)].
Proof. run. Qed.

(** bitwise/div.rs:148-193. *)
Example test_bitwise_div : map (fun '(a, b) => do p <- bit_div_long true 8 a b ;; Ok (fst p))
    [([2], [1]); ([2], [2]); ([0; 1], [2]); ([0; 0; 0; 1], [2])] = map Ok [[2]; [1]; [128; 0]; [0; 0; 128; 0]] /\
  map (fun i => do p <- bit_div_long true 8 [i] [2] ;; Ok (snd p)) [0; 1; 2; 3] = map (fun i => Ok [i mod 2]) [0; 1; 2; 3] /\
  map (fun i => do p <- bit_div_long true 8 [i] [3] ;; Ok (snd p)) [0; 1; 2; 3; 4; 5] = map (fun i => Ok [i mod 3]) [0; 1; 2; 3; 4; 5] /\
  (do p <- bit_div_long true 8 [1; 7] [2] ;; Ok (snd p)) = Ok [1; 0].
Proof. run. Qed.

(** bitwise/div.rs:196-228. *)
Example test_bitwise_div_wrapping : map (fun '(a, b) => bit_div_wrapping true 8 a b (zeros (length a)))
    [([2], [1]); ([2], [2]); ([0; 1], [2]); ([0; 0; 0; 1], [2])] = map Ok [[2]; [1]; [128; 0]; [0; 0; 128; 0]].
Proof. run. Qed.

(** bitwise/shl.rs:28-37, bitwise/shr.rs:29-38. *)
Example test_bitwise_shift : bit_shl 16 [0xAAAA; 0xAAAA] 1 = [0x5554; 0x5555; 1] /\ bit_shl 8 [255] 8 = [0; 255] /\
  bit_shr 16 [0xAAAA; 0xAAAA] 1 = Ok [0x5555; 0x5555] /\ bit_shr 8 [0; 255] 8 = Ok [255].
Proof. run. Qed.

(** u.rs:646-678. *)
Example test_u : u_one 1 = [1] /\ u_one 2 = [1; 0] /\ u_one 4 = [1; 0; 0; 0] /\ u_is_one (u_one 4) = Ok true /\
  u_eqb (u_one 3) (u_one 3) = true /\ u_eqb (u_one 3) [2; 0; 0] = false /\ u_eqb [2; 0; 0] [2; 0; 0] = true /\
  u_add true (u_one 3) (u_one 3) = Ok [2; 0; 0] /\ u_div true [4; 0; 0] [2; 0; 0] = Ok [2; 0; 0] /\
  u_div true [10; 0; 0] [2; 0; 0] = Ok [5; 0; 0].
Proof. run. Qed.

(** i.rs:336-344, 347-353. *)
Example test_i : i_one 1 = [1] /\ i_one 2 = [1; 0] /\ i_one 4 = [1; 0; 0; 0] /\ i_is_one (i_one 4) = Ok true /\
  i_eqb (i_one 3) (i_one 3) = true /\ i_eqb (i_one 3) [2; 0; 0] = false /\ i_eqb [2; 0; 0] [2; 0; 0] = true.
Proof. run. Qed.

(** i.rs:356-377. *)
Example test_i_ord : let zero := i_zero 3 in let one := i_one 3 in let neg_one := i_neg (i_one 3) in
  let two := i_add one one in let neg_two := i_neg two in
  map (fun '(a, b) => i_cmp a b)
    [(neg_one, neg_two); (neg_one, zero); (neg_one, one); (neg_one, two); (zero, neg_two); (zero, neg_one); (zero, one); (zero, two);
     (one, neg_two); (one, neg_one); (one, zero); (one, two)]
  = map Ok [Gt; Lt; Lt; Lt; Gt; Gt; Lt; Lt; Gt; Gt; Gt; Lt].
Proof. run. Qed.

(** i.rs:380-425. *)
Example test_i_ops : let zero := i_zero 3 in let one := i_one 3 in let neg_one := i_neg one in let two := i_add one one in
  neg_one = i_max_negative 3 /\ i_neg neg_one = one /\ i_neg zero = zero /\
  i_add one one = [2; 0; 0] /\ i_add one zero = one /\ i_add zero zero = zero /\ i_add neg_one one = zero /\
  i_add neg_one zero = neg_one /\ i_add neg_one neg_one = [0xFE; 0xFF; 0xFF] /\
  i_mul zero zero = zero /\ i_mul one one = one /\ i_mul one two = [2; 0; 0] /\ i_mul one zero = zero /\
  i_mul neg_one one = neg_one /\ i_mul neg_one zero = zero /\ i_mul neg_one two = [0xFE; 0xFF; 0xFF].
Proof. run. Qed.

(** ** BigInt, big_int.rs:731-882 *)

Definition i32 (v : Z) : M Z := bi_from true {| ibits := 32; isigned := true |} v.
Definition usize_ (v : Z) : M Z := bi_from true {| ibits := 64; isigned := false |} v.
Definition u128 (v : Z) : M Z := bi_from true {| ibits := 128; isigned := false |} v.
(** The result of a computation that starts with an empty interner. *)
Definition outcome {A} (m : M A) : res A := do p <- m [] ;; Ok (fst p).
Definition binary (op : bool -> Z -> Z -> M Z) (a b : M Z) : M Z := let! x := a in let! y := b in by_val (op true) x y.
Definition equal (a b : M Z) : res bool := outcome (let! x := a in let! y := b in reads (fun st => bi_eq st x y)).
Definition ints (op : bool -> Z -> Z -> M Z) (l : list (Z * Z * Z)) : list (res bool) :=
  map (fun '(a, b, c) => equal (binary op (i32 a) (i32 b)) (i32 c)) l.

Example test_big_new :
  map (fun l => outcome (let! a := new_slice true l false in ret (is_inline a, is_interned a)))
    [[0]; [2 ^ 62 - 1]; [2 ^ 62]; [0; 1]] = map Ok [(true, false); (true, false); (false, true); (false, true)].
Proof. run. Qed.
Example test_no_neg_zero : equal (new_slice true [0] true) (i32 0) = Ok true.
Proof. run. Qed.
Example test_print : map (fun a => outcome (let! x := i32 a in bi_display true 100 x)) [1; 10; 111] = map Ok [[49]; [49; 48]; [49; 49; 49]] /\
  outcome (let! x := u128 18446744073709551616 in bi_display true 100 x)
    = Ok [49; 56; 52; 52; 54; 55; 52; 52; 48; 55; 51; 55; 48; 57; 53; 53; 49; 54; 49; 54].
Proof. run. Qed.
Example test_from_str :
  let parse s r : M Z := let! x := bi_from_str_radix true s r in match x with inl v => ret v | inr _ => lift Panic end in
  equal (parse [49; 50; 51] 10) (i32 123) = Ok true /\ equal (parse [70; 70] 16) (i32 255) = Ok true.
Proof. run. Qed.
Example test_big_add : ints bi_add [(1, 1, 2); (-10, 5, -5); (-10, 15, 5); (5, -10, -5); (15, -10, 5); (-1, -1, -2); (-1, 1, 0); (1, -1, 0)]
    = repeat (Ok true) 8 /\
  equal (binary bi_add (usize_ (2 ^ 64 - 1)) (usize_ (2 ^ 64 - 1))) (u128 ((2 ^ 64 - 1) * 2)) = Ok true.
Proof. run. Qed.
Example test_big_sub : ints bi_sub [(1, 1, 0); (2, 1, 1); (-1, 1, -2); (-1, -1, 0)] = repeat (Ok true) 4.
Proof. run. Qed.
Example test_big_mul : ints bi_mul [(0, 1, 0); (1, 1, 1); (2, 1, 2); (2, 2, 4); (-1, 1, -1); (1, -1, -1); (-1, -1, 1)] = repeat (Ok true) 7.
Proof. run. Qed.
Example test_big_div : ints bi_div [(2, 2, 1); (-2, 2, -1); (2, -2, -1); (-2, -2, 1); (1, 3, 0)] = repeat (Ok true) 5 /\
  equal (binary bi_div (new_slice true [0; 0; 1] false) (new_slice true [2] false)) (new_slice true [0; 2 ^ 63] false) = Ok true.
Proof. run. Qed.
Example test_big_rem : ints bi_rem [(1, 2, 1); (2, 2, 0); (3, 2, 1); (4, 2, 0)] = repeat (Ok true) 4 /\
  equal (binary bi_rem (usize_ (2 ^ 64 - 1)) (i32 10)) (i32 5) = Ok true.
Proof. run. Qed.
Example test_big_shl : ints bi_shl [(1, 1, 2); (2, 1, 4); (3, 1, 6)] = repeat (Ok true) 3 /\
  equal (binary bi_shl (usize_ (2 ^ 64 - 1)) (i32 1)) (u128 ((2 ^ 64 - 1) * 2)) = Ok true.
Proof. run. Qed.
Example test_big_pow : map (fun '(a, b, c) => equal (let! x := i32 a in let! y := i32 b in bi_pow true 10 x y) (i32 c)) [(1, 2, 1); (2, 2, 4)]
  = repeat (Ok true) 2.
Proof. run. Qed.
Example test_big_eq : equal (i32 0) (i32 1) = Ok false /\ equal (i32 0) (binary bi_rem (i32 4) (i32 2)) = Ok true /\
  map (fun '(a, v) => outcome (let! x := i32 a in reads (fun st => bi_eq_int true t_i32 st x v))) [(0, 0); (1, 1); (0, 1); (1, 0)]
    = [Ok true; Ok true; Ok false; Ok false].
Proof. run. Qed.
Example test_big_cmp :
  map (fun '(a, b) => outcome (let! x := i32 a in let! y := i32 b in reads (fun st => bi_cmp st x y))) [(0, 1); (0, -1); (1, -1); (-1, 1)]
    = [Ok Lt; Ok Gt; Ok Gt; Ok Lt] /\
  map (fun '(a, b) => outcome (let! x := i32 a in bi_cmp_int true t_i32 x b)) [(0, 1); (0, -1); (1, 0); (-1, 0)]
    = [Ok Lt; Ok Gt; Ok Gt; Ok Lt].
Proof. run. Qed.

(** ints/src/tests.rs:53-75. *)
Example test_int_add : ints bi_add [(0, 0, 0); (0, 1, 1); (1, 0, 1); (1, 1, 2); (0, -1, -1); (-1, 0, -1); (1, -1, 0); (-1, 1, 0); (-1, -1, -2)]
  = repeat (Ok true) 9.
Proof. run. Qed.

(** ** reals *)

(** fixed.rs:279-283. *)
Example test_debug : map (fx_debug true t_i32 1 100) [1; 2; 3] = map Ok [[46; 53]; [49; 46; 48]; [49; 46; 53]].
Proof. run. Qed.

(** fixed.rs:286-320. *)
Example test_fixed_rounding : let v2 := fx_from_val true t_i32 1 2 in
  (do x <- v2 ;; fx_floor true t_i32 1 x) = v2 /\ (do x <- v2 ;; fx_ceil true t_i32 1 x) = v2 /\
  (do x <- v2 ;; fx_trunc true t_i32 1 x) = v2 /\ (do x <- v2 ;; fx_fract true t_i32 1 x) = fx_from_val true t_i32 1 0 /\
  fx_floor true t_i32 1 3 = fx_from_val true t_i32 1 1 /\ fx_floor true t_i32 1 (-3) = fx_from_val true t_i32 1 (-2) /\
  fx_floor true t_i32 2 (-6) = fx_from_val true t_i32 2 (-2) /\
  fx_ceil true t_i32 1 3 = fx_from_val true t_i32 1 2 /\ fx_ceil true t_i32 1 (-3) = fx_from_val true t_i32 1 (-1) /\
  fx_ceil true t_i32 2 (-6) = fx_from_val true t_i32 2 (-1) /\
  fx_trunc true t_i32 1 3 = fx_from_val true t_i32 1 1 /\ fx_trunc true t_i32 1 (-3) = fx_from_val true t_i32 1 (-1) /\
  fx_trunc true t_i32 2 (-6) = fx_from_val true t_i32 2 (-1) /\
  fx_fract true t_i32 1 3 = Ok 1 /\ fx_fract true t_i32 1 (-3) = Ok (-1) /\ fx_fract true t_i32 2 (-6) = Ok (-2).
Proof. run. Qed.

(** rat.rs:282-298. *)
Example test_rat : let new := rat_new_unwrap 100 t_i32 in let round a := do x <- a ;; rat_round true 100 t_i32 x in
  (do a <- new 1 2 ;; do b <- new 3 4 ;; rat_add true 100 t_i32 a b) = new 5 4 /\
  round (new 3 7) = Ok rat_zero /\ round (new 4 7) = Ok rat_one /\ round (new 10 7) = Ok rat_one /\
  round (new 11 7) = rat_add true 100 t_i32 rat_one rat_one.
Proof. run. Qed.

(** traits/src/__impl.rs:962-967. *)
Example test_gcd : map (fun '(a, b) => prim_gcd 100 t_i32 a b) [(0, 0); (48, 18); (18, 48)] = map Ok [0; 6; 6].
Proof. run. Qed.

(** ** utils/src/intern.rs:227-266 *)
Example test_intern_add : let add v st := intern_add Z.eqb true v st in
  (do a <- add 0 interner_new ;; do b <- add 0 (snd a) ;; do c <- add 1 (snd b) ;; do d <- add 1 (snd c) ;;
   Ok (fst a =? fst b, fst c =? fst d, fst a =? fst c)) = Ok (true, true, false).
Proof. run. Qed.
Example test_dead_live :
  (do a <- intern_add Z.eqb true 0 interner_new ;; do r1 <- refcount (snd a) (fst a) ;;
   do st <- intern_decr (fst a) (snd a) ;; do r2 <- refcount st (fst a) ;;
   do b <- intern_add Z.eqb true 0 st ;; do r3 <- refcount (snd b) (fst b) ;;
   Ok (r1, r2, fst a =? fst b, r3)) = Ok (1, 0, true, 1).
Proof. run. Qed.
Example test_no_dead :
  (do a <- intern_add Z.eqb true (-1) interner_new ;; do st <- intern_decr (fst a) (snd a) ;; try_get st (fst a)) = Ok None.
Proof. run. Qed.

(** ** static-iter/src/lib.rs:249-297 *)
Definition u32_next (v : Z) : option Z := prim_checked_add t_u32 v 1.
Definition collected {A C} (o : out (adapter A * C)) : out C := obind o (fun r => Ret (snd r)).
Example test_zip_add :
  collected (collect_array 4 (it_map (it_zip (into_iter [1; 2; 3; 4]) (into_iter [5; 6; 7; 8])) (pure (fun '(l, r) => l + r)) tt))
  = Ret [6; 8; 10; 12].
Proof. run. Qed.
Example test_option_collect : let go l := collected (collect (option_static (array_static Z)) 4 (it_map (into_iter l) (pure u32_next) tt)) in
  go [1; 2; 3; 4] = Ret (Some [2; 3; 4; 5]) /\ go [2 ^ 32 - 2; 2 ^ 32 - 1; 0; 1] = Ret None.
Proof. run. Qed.
Example test_option_option_collect :
  let go l f := collected (collect (option_static (option_static (array_static Z))) 4 (it_map (into_iter l) (pure f) tt)) in
  go [1; 2; 3; 4] (fun l => Some (u32_next l)) = Ret (Some (Some [2; 3; 4; 5])) /\
  go [2 ^ 32 - 2; 2 ^ 32 - 1; 0; 1] (fun l => Some (u32_next l)) = Ret (Some None) /\
  go [2 ^ 32 - 2; 2 ^ 32 - 1; 0; 1] (fun _ => None) = Ret None.
Proof. run. Qed.

(** ** compounds *)

(** bivec.rs:71-79. *)
Example test_choose : map (fun '(n, r) => choose_n true n r)
    [(1, 2%nat); (2, 2%nat); (3, 2%nat); (4, 2%nat); (25, 2%nat); (23, 17%nat); (1000000000, 2%nat)]
  = map Ret [0; 1; 3; 6; 300; 100947; 499999999500000000].
Proof. run. Qed.

Definition square4 : list (list Z) := [[1; 2; 3; 4]; [5; 6; 7; 8]; [9; 10; 11; 12]; [13; 14; 15; 16]].
(** dynamic.rs:87-122. *)
Example test_index : map (fun '(i, j) => obind (dyn_from true 4 4 square4) (fun a => dyn_get true a i j))
    [(0, 0); (0, 1); (0, 2); (0, 3); (2, 0); (3, 0); (3, 3)] = map Ret [1; 2; 3; 4; 9; 13; 16].
Proof. run. Qed.
Example test_swap_row : obind (dyn_from true 4 4 square4) (fun a => dyn_swap_rows true a 0 2)
  = dyn_from true 4 4 [[9; 10; 11; 12]; [5; 6; 7; 8]; [1; 2; 3; 4]; [13; 14; 15; 16]].
Proof. run. Qed.

(** dynamic.rs:125-140, static.rs:202-242. *)
Definition qsub (x y : Q) : Q := Qred (x - y).
Definition qmul (x y : Q) : Q := Qred (x * y).
Definition qneg (x : Q) : Q := Qred (- x).
Definition qdiv (x y : Q) : out Q := Ret (Qred (x / y)).
Definition qcmp (x y : Q) : option comparison := Some (Qcompare x y).
Definition qzero (x : Q) : bool := Qeq_bool x 0.
Example test_mat_mul : mat_mul Z.add Z.mul 2 3 2 [[1; 2; 3]; [4; 5; 6]] [[7; 8]; [9; 10]; [11; 12]] = Ret [[58; 64]; [139; 154]].
Proof. run. Qed.
Definition mat_a : list (list Q) := [[1; 0; 4; 2]; [1; 2; 6; 2]; [2; 0; 8; 8]; [2; 1; 9; 4]]%Q.
Definition mat_b : list (list Q) := [[2; - (3); 1]; [2; 0; - (1)]; [1; 4; 5]]%Q.
Definition red_a : list (list Q) := [[1; 0; 4; 2]; [0; 1; 1; 0]; [0; 0; 0; 4]; [0; 0; 0; 0]]%Q.
Example test_row_reduce : static_row_reduce 1%Q qsub qmul qneg qdiv qzero qcmp 4 4 mat_a = Ret red_a /\
  static_row_reduce 1%Q qsub qmul qneg qdiv qzero qcmp 3 3 mat_b = Ret [[1; 4; 5]; [0; - (11); - (9)]; [0; 0; (-49) # 11]]%Q /\
  obind (dyn_from true 4 4 mat_a) (dyn_row_reduce 1%Q qsub qmul qneg qdiv qzero qcmp true) = dyn_from true 4 4 red_a.
Proof. run. Qed.
Example test_determinant : determinant 1%Q qsub qmul qneg qdiv qzero qcmp 2 [[1; 2]; [3; 4]]%Q = Ret (- (2))%Q /\
  determinant 1%Q qsub qmul qneg qdiv qzero qcmp 3 mat_b = Ret 49%Q.
Proof. run. Qed.
