(** C138-C141: vectors, complex numbers and matrices over [f32] and [f64], with IEEE 754 rounding. *)
From Coq Require Import ZArith Reals List Bool Lia Lra Psatz.
From Flocq Require Import Core BinarySingleNaN.
From Verif Require Import Base StaticIterModel VectorModel CompoundsSpec MatrixModel MatrixProofs PropVector
  IeeeModel IeeeSpec IeeeProofs IeeeMore.
Import ListNotations.
Local Open Scope R_scope.

(** The number an example stands for. *)
Lemma of_z_value m e : (Z.abs m <= 2 ^ 53)%Z -> (-1074 <= e <= 900)%Z -> finite (of_z m e) /\ value (of_z m e) = IZR m * powerRZ 2 e.
Proof.
  intros Hm He. pose proof (binary_normalize_correct 53 1024 prec_f64 emax_f64 mode_NE m e false) as C.
  change (binary_normalize 53 1024 prec_f64 emax_f64 mode_NE m e false) with (of_z m e) in C.
  assert (F2R (Float radix2 m e) = IZR m * powerRZ 2 e) as V by (unfold F2R; cbn [Fnum Fexp]; rewrite bpow_powerRZ; reflexivity).
  assert (generic_format radix2 (SpecFloat.fexp 53 1024) (F2R (Float radix2 m e))) as G.
  { destruct (Z.eq_dec (Z.abs m) (2 ^ 53)) as [E|E].
    - assert (generic_format radix2 (SpecFloat.fexp 53 1024) (bpow radix2 (53 + e))) as B.
      { apply generic_format_bpow. unfold SpecFloat.fexp, SpecFloat.emin. lia. }
      assert (F2R (Float radix2 (2 ^ 53) e) = bpow radix2 (53 + e)) as Q.
      { unfold F2R. cbn [Fnum Fexp]. rewrite bpow_plus. f_equal. }
      destruct (Z.abs_spec m) as [[_ A]|[_ A]].
      + rewrite A in E. rewrite E, Q. exact B.
      + replace m with (- 2 ^ 53)%Z by lia. rewrite F2R_Zopp. apply generic_format_opp. rewrite Q. exact B.
    - apply generic_format_FLT. exists (Float radix2 m e); [reflexivity|change (Z.abs m < 2 ^ 53)%Z; lia|change (3 - 1024 - 53 <= e)%Z; lia]. }
  cbv zeta in C. rewrite round_generic in C by (try apply valid_rnd_N; exact G).
  rewrite Rlt_bool_true in C.
  - destruct C as (C1 & C2 & _). split; [exact C2|]. unfold value. rewrite C1. exact V.
  - unfold F2R. cbn [Fnum Fexp]. rewrite Rabs_mult, (Rabs_pos_eq (bpow radix2 e)) by apply bpow_ge_0. rewrite <- abs_IZR.
    apply Rle_lt_trans with (bpow radix2 53 * bpow radix2 e).
    + apply Rmult_le_compat_r; [apply bpow_ge_0|]. change (bpow radix2 53) with (IZR (2 ^ 53)). apply IZR_le. exact Hm.
    + rewrite <- bpow_plus. apply bpow_lt. lia.
Qed.

(** ** C138: sums of products *)
Section Format.
Context {prec emax : Z} {Hp : Prec_gt_0 prec} {Hm : Prec_lt_emax prec emax}.
Notation float := (binary_float prec emax).

Theorem C138_dot_product : forall a b : list float, length a = length b ->
  exists r, f_dot a b = Ret r /\
  (finite r -> Forall finite a /\ Forall finite b /\
     Rabs (value r - total (products (map value a) (map value b)))
       <= error_bound prec emax (length a) (products (map value a) (map value b))).
Proof.
  intros a b L. destruct (zip_fold_ret a b f_zero) as (r & E). exists r. split; [exact E|]. intros F. apply dot_finite; auto.
Qed.

Theorem C138_sum : forall (n : nat) (a : list float), length a = n ->
  exists r, f_sum n a = Ret r /\
  (finite r -> Forall finite a /\
     Rabs (value r - total (map value a)) <= ((1 + unit_roundoff prec) ^ (n - 1) - 1) * total (magnitudes (map value a))).
Proof.
  intros n a L. exists (fold_left f_add a f_zero). split.
  - exact (proj1 (C86_sum_product _ f_zero f_one f_add f_mul n a L)).
  - intros F. rewrite <- L. apply sum_finite; auto.
Qed.

Theorem C138_matrix_product : forall row col col2 (a b : list (list float)), shape row col a -> shape col col2 b -> (0 < col)%nat ->
  exists p, f_mat_mul row col col2 a b = Ret p /\ shape row col2 p /\
  forall i j x, entry p i j = Some x -> finite x ->
    let ps := map (fun k => cell a i k * cell b k j) (seq 0 col) in
    Rabs (value x - total ps) <= error_bound prec emax col ps.
Proof.
  intros row col col2 a b Sa Sb Hc. destruct (mat_mul_tab row col col2 a b Sa Sb Hc) as (g & E & B).
  exists (tabulate row col2 g). split; auto. split; [apply tabulate_shape|]. intros i j x Ex F.
  destruct (lt_dec i row) as [Hi|Hi]; [|rewrite (entry_out row col2) in Ex; [discriminate|apply tabulate_shape|lia]].
  destruct (lt_dec j col2) as [Hj|Hj]; [|rewrite (entry_out row col2) in Ex; [discriminate|apply tabulate_shape|lia]].
  rewrite tabulate_entry in Ex by auto. injection Ex as <-. apply B; auto.
Qed.

(** Cross products, complex products, squared moduli and determinants of two rows are sums or differences of two products. *)
Theorem C138_two_products : forall ax ay az bx by_ bz : float,
  let bound p q := error_bound prec emax 2 [p; q] in
  let v := @value prec emax in
  (let '(x, y, z) := f_cross (ax, ay, az) (bx, by_, bz) in
   (finite x -> Rabs (v x - (v ay * v bz - v az * v by_)) <= bound (v ay * v bz) (v az * v by_)) /\
   (finite y -> Rabs (v y - (v az * v bx - v ax * v bz)) <= bound (v az * v bx) (v ax * v bz)) /\
   (finite z -> Rabs (v z - (v ax * v by_ - v ay * v bx)) <= bound (v ax * v by_) (v ay * v bx))) /\
  (let p := f_cmul (Cx ax ay) (Cx bx by_) in
   (finite (real p) -> Rabs (v (real p) - (v ax * v bx - v ay * v by_)) <= bound (v ax * v bx) (v ay * v by_)) /\
   (finite (imag p) -> Rabs (v (imag p) - (v ax * v by_ + v ay * v bx)) <= bound (v ax * v by_) (v ay * v bx))) /\
  (let s := f_abs_squared (Cx ax ay) in
   finite s -> Rabs (v s - (v ax * v ax + v ay * v ay)) <= bound (v ax * v ax) (v ay * v ay)) /\
  (exists d, f_determinant 2 [[ax; bx]; [ay; by_]] = Ret d /\
   (finite d -> Rabs (v d - (v ax * v by_ - v ay * v bx)) <= bound (v ax * v by_) (v ay * v bx))).
Proof.
  intros ax ay az bx by_ bz bound v. unfold bound, v. split; [|split; [|split]].
  - unfold f_cross, cross. split; [|split]; intros F; apply two_products_sub; exact F.
  - unfold f_cmul, c_mul. cbn [real imag]. split; intros F; [apply two_products_sub; exact F|].
    pose proof (proj2 (two_products_add ax by_ bx ay F)) as B. rewrite (Rmult_comm (value bx)) in B. exact B.
  - unfold f_abs_squared, abs_squared. cbn [real imag]. apply two_products_add.
  - eexists. split; [reflexivity|]. intros F. apply two_products_sub. exact F.
Qed.

(** Whole numbers: exact as long as the magnitudes sum to at most [2^prec]. *)
Theorem C138_whole_numbers : forall (a b : list float) (m n : list Z),
  Forall2 is_whole_number a m -> Forall2 is_whole_number b n -> length a = length b ->
  ((fold_right Z.add 0 (map (fun p => Z.abs (fst p * snd p)) (combine m n)) <= 2 ^ prec)%Z ->
   exists r, f_dot a b = Ret r /\ is_whole_number r (fold_right Z.add 0 (map (fun p => fst p * snd p) (combine m n)))%Z) /\
  ((fold_right Z.add 0 (map Z.abs m) <= 2 ^ prec)%Z ->
   exists r, f_sum (length a) a = Ret r /\ is_whole_number r (fold_right Z.add 0%Z m)).
Proof.
  intros a b m n Fa Fb L. split; intros H.
  - destruct (whole_dot a b m n f_zero 0%Z Fa Fb whole_zero L) as (r & E & W); [cbn [Z.abs]; lia|]. exists r. split; auto.
  - exists (fold_left f_add a f_zero). split.
    + exact (proj1 (C86_sum_product _ f_zero f_one f_add f_mul (length a) a eq_refl)).
    + apply (whole_sum a m f_zero 0%Z Fa whole_zero). cbn [Z.abs]. lia.
Qed.

(** ** C139: the modulus *)

Theorem C139_in_range_partial : forall a : complex float, finite (f_abs_squared a) ->
  zero_or_normal emax (value (real a) * value (real a)) -> zero_or_normal emax (value (imag a) * value (imag a)) ->
  let m := sqrt (value (real a) * value (real a) + value (imag a) * value (imag a)) in
  finite (f_abs a) /\ Rabs (value (f_abs a) - m) <= ((1 + unit_roundoff prec) ^ 2 - 1) * m.
Proof. apply abs_ok. Qed.

(** ** C141: quotients *)

Theorem C141_in_range_partial : forall a b : complex float, finite (f_abs_squared b) ->
  zero_or_normal emax (value (real b) * value (real b)) -> zero_or_normal emax (value (imag b) * value (imag b)) ->
  let D := value (real b) * value (real b) + value (imag b) * value (imag b) in 0 < D ->
  let u := unit_roundoff prec in
  let bound p q := ((1 + u) / (1 - u) ^ 2 * (Rabs p + Rabs q + error_bound prec emax 2 [p; q]) - (Rabs p + Rabs q)) / D + half_smallest prec emax in
  let rr := value (real a) * value (real b) in let ii := value (imag a) * value (imag b) in
  let ir := value (imag a) * value (real b) in let ri := value (real a) * value (imag b) in
  let q := f_cdiv a b in
  (finite (real q) -> Rabs (value (real q) - (rr + ii) / D) <= bound rr ii) /\
  (finite (imag q) -> Rabs (value (imag q) - (ir - ri) / D) <= bound ir ri).
Proof.
  intros a b F Nr Ni D HD u bound rr ii ir ri q. destruct (abs_squared_bounds b F Nr Ni) as [B _].
  unfold q, f_cdiv, c_div. cbn [real imag]. split; intros Fq; apply quotient_bound; auto.
  - intros Fn. apply two_products_add. exact Fn.
  - apply Rabs_triang.
  - intros Fn. apply two_products_sub. exact Fn.
  - eapply Rle_trans; [apply Rabs_triang|]. rewrite Rabs_Ropp. lra.
Qed.

(** A number divided by a scalar is computed as [x s / (s s)]. *)
Theorem C141_scalar_partial : forall (a : complex float) (s : float), finite (f_mul s s) ->
  zero_or_normal emax (value s * value s) -> value s <> 0 ->
  let u := unit_roundoff prec in let h := half_smallest prec emax in
  let bound x := ((1 + u) / (1 - u) ^ 2 * (Rabs (x * value s) + (u * Rabs (x * value s) + h)) - Rabs (x * value s)) / (value s * value s) + h in
  let q := f_cdiv_scalar a s in
  (finite (real q) -> Rabs (value (real q) - value (real a) / value s) <= bound (value (real a))) /\
  (finite (imag q) -> Rabs (value (imag q) - value (imag a) / value s) <= bound (value (imag a))).
Proof.
  intros a s F Nr Nz u h bound q. destruct (square_normal s F Nr) as [_ [B1 B2]].
  pose proof (@u_pos prec) as U. pose proof (@u_half prec Hp) as U2.
  assert (0 < value s * value s) as HD by nra.
  assert (B : (1 - u) ^ 2 * (value s * value s) <= value (f_mul s s) <= (1 + u) ^ 2 * (value s * value s)).
  { fold u in B1, B2, U, U2. set (D := value s * value s) in *. clearbody D u. split; [apply Rle_trans with ((1 - u) * D)|apply Rle_trans with ((1 + u) * D)]; auto.
    - apply Rmult_le_compat_r; [lra|]. cbn [pow]. nra.
    - apply Rmult_le_compat_r; [lra|]. cbn [pow]. nra. }
  assert (G : forall x, finite (f_div (f_mul x s) (f_mul s s)) -> Rabs (value (f_div (f_mul x s) (f_mul s s)) - value x / value s) <= bound (value x)).
  { intros x Fq. replace (value x / value s) with (value x * value s / (value s * value s)) by (field; exact Nz).
    apply quotient_bound; auto; [|lra]. intros Fn. destruct (mul_ok x s Fn) as (_ & _ & e & t & He & Ht & ->).
    replace (value x * value s * (1 + e) + t - value x * value s) with (value x * value s * e + t) by ring.
    eapply Rle_trans; [apply Rabs_triang|]. rewrite Rabs_mult. apply Rplus_le_compat; auto. rewrite Rmult_comm.
    apply Rmult_le_compat_r; auto using Rabs_pos. }
  split; apply G.
Qed.

(** ** C140: determinants *)

Lemma nth_at (m : list (list float)) n i j : shape n n m -> (i < n)%nat -> (j < n)%nat -> at_ f_zero m i j = nth j (nth i m []) B754_nan.
Proof.
  intros S Hi Hj. unfold at_, entry. destruct (shape_row _ _ _ i S Hi) as (r & E & L). rewrite E.
  rewrite (nth_error_nth m i [] E). rewrite (nth_error_nth' r B754_nan) by lia. reflexivity.
Qed.

(** Upper triangular matrices without zeros on the diagonal: the product of the diagonal, from the left. *)
Theorem C140_triangular_partial : forall n (m : list (list float)), (3 <= n)%nat -> shape n n m -> Forall (Forall finite) m ->
  (forall i j, (j < i)%nat -> (i < n)%nat -> cell m i j = 0) -> (forall i, (i < n)%nat -> cell m i i <> 0) ->
  f_determinant n m = Ret (fold_left f_mul (map (fun i => nth i (nth i m []) B754_nan) (seq 0 n)) f_one).
Proof.
  intros n m Hn S F Low Dia.
  assert (forall i j, (i < n)%nat -> (j < n)%nat -> finite (at_ f_zero m i j)) as Fin.
  { intros i j Hi Hj. destruct (shape_row _ _ _ i S Hi) as (r & E & L). unfold at_, entry. rewrite E.
    rewrite Forall_forall in F. specialize (F r (nth_error_In _ _ E)). rewrite Forall_forall in F.
    destruct (nth_error r j) as [x|] eqn:Ex; [|reflexivity]. apply F. eapply nth_error_In; eauto. }
  destruct (triangular_gauss n m S Fin) as (m' & E & S' & A).
  { intros i j Hj Hi. rewrite (cell_at m n n) by (auto; lia). auto. }
  { intros i Hi. rewrite (cell_at m n n) by auto. auto. }
  unfold f_determinant, determinant. destruct n as [|[|[|n]]]; try lia. set (k := Datatypes.S (Datatypes.S (Datatypes.S n))) in *.
  rewrite E. cbn [obind].
  assert (diag k m' = Ret (map (fun i => nth i (nth i m []) B754_nan) (seq 0 k))) as ->.
  { unfold diag. apply from_fn_ok. intros i Hi. rewrite (mat_get_at f_zero k k m' i i S' Hi Hi). f_equal.
    rewrite (same_nonzero _ _ (A i i Hi Hi)); [apply (nth_at m k); auto|]. rewrite (cell_at m k k) by auto. auto. }
  cbn [obind]. rewrite (proj2 (C86_sum_product _ f_zero f_one f_add f_mul k _ ltac:(rewrite map_length, seq_length; reflexivity))).
  cbn [obind]. rewrite div_one. reflexivity.
Qed.

Lemma zero_test (x : float) : f_is_zero x = false <-> ~ (finite x /\ value x = 0).
Proof.
  destruct (is_finite x) eqn:F.
  - pose proof (is_zero_value x F) as Q. split.
    + intros E [_ V]. apply Q in V. congruence.
    + intros N. apply not_true_is_false. intros E. apply N. split; [exact F|apply Q, E].
  - split; [intros _ [X _]; unfold finite in X; congruence|]. intros _. destruct x as [|[]| |]; try discriminate; reflexivity.
Qed.

Section Nan.
Context (n : nat) (m : list (list float)) (S0 : shape n n m).
Notation at0 k := (at_ f_zero m k 0).
Notation search := (min_nonzero f_is_zero f_partial_cmp mat_get m 0).

Lemma step_nan_best : forall len start off o, (start + len <= n)%nat -> (0 < n)%nat ->
  (exists k, (start <= k < start + len)%nat /\ f_is_zero (at0 k) = false) -> search start len off (Some (o, B754_nan)) = Pan.
Proof.
  induction len; intros start off o L N (k & Hk & Z); [lia|]. cbn [min_nonzero].
  rewrite (mat_get_at f_zero n n m start 0 S0) by lia. cbn [obind]. destruct (f_is_zero (at0 start)) eqn:E.
  - apply IHlen; try lia. exists k. split; auto. assert (k <> start) by congruence. lia.
  - reflexivity.
Qed.

Lemma cmp_nan_r (b : float) : f_partial_cmp b B754_nan = None.
Proof. destruct b as [|[]| |[]]; reflexivity. Qed.

Lemma step_some_best : forall len start off o b, (start + len <= n)%nat -> (0 < n)%nat ->
  (exists k, (start <= k < start + len)%nat /\ at0 k = B754_nan) -> search start len off (Some (o, b)) = Pan.
Proof.
  induction len; intros start off o b L N (k & Hk & Z); [lia|]. cbn [min_nonzero].
  rewrite (mat_get_at f_zero n n m start 0 S0) by lia. cbn [obind]. destruct (Nat.eq_dec k start) as [->|Ne].
  - rewrite Z. cbn [f_is_zero]. rewrite cmp_nan_r. reflexivity.
  - destruct (f_is_zero (at0 start)); [apply IHlen; eauto; try lia; exists k; split; auto; lia|].
    destruct (f_partial_cmp b (at0 start)) as [[]|]; auto; apply IHlen; try lia; exists k; split; auto; lia.
Qed.

Lemma step_no_best : forall len start off i j, (start + len <= n)%nat -> (0 < n)%nat ->
  (start <= i < start + len)%nat -> (start <= j < start + len)%nat -> i <> j -> at0 i = B754_nan -> f_is_zero (at0 j) = false ->
  search start len off None = Pan.
Proof.
  induction len; intros start off i j L N Hi Hj Ne Zi Zj; [lia|]. cbn [min_nonzero].
  rewrite (mat_get_at f_zero n n m start 0 S0) by lia. cbn [obind]. destruct (f_is_zero (at0 start)) eqn:E.
  - assert (i <> start) by (intros ->; rewrite Zi in E; discriminate). assert (j <> start) by congruence. apply (IHlen (Datatypes.S start) _ i j); auto; lia.
  - destruct (Nat.eq_dec i start) as [->|Ni].
    + rewrite Zi. apply step_nan_best; try lia. exists j. split; auto. lia.
    + apply step_some_best; try lia. exists i. split; auto. lia.
Qed.

Lemma all_zero_false : forall len start, (start + len <= n)%nat -> (0 < n)%nat ->
  (exists k, (start <= k < start + len)%nat /\ f_is_zero (at0 k) = false) -> all_zero f_is_zero mat_get m 0 start len = Ret false.
Proof.
  induction len; intros start L N (k & Hk & Z); [lia|]. cbn [all_zero].
  rewrite (mat_get_at f_zero n n m start 0 S0) by lia. cbn [obind]. destruct (f_is_zero (at0 start)) eqn:E; auto.
  apply IHlen; try lia. exists k. split; auto. assert (k <> start) by congruence. lia.
Qed.

Lemma nan_gauss i j : (i < n)%nat -> (j < n)%nat -> i <> j -> at0 i = B754_nan -> f_is_zero (at0 j) = false ->
  static_gauss f_one f_sub f_mul f_neg (fun x y => Ret (f_div x y)) f_is_zero f_partial_cmp n n m = Pan.
Proof.
  intros Hi Hj Ne Zi Zj. unfold static_gauss, gauss_elim.
  assert (gauss_col f_sub f_mul f_neg (fun x y => Ret (f_div x y)) f_is_zero f_partial_cmp mat_get mat_set swap_rows n n (m, f_one, 0%nat) 0 = Pan) as C.
  { unfold gauss_col. rewrite Nat.sub_0_r. rewrite (all_zero_false n 0) by (try lia; exists j; split; auto; lia). cbn [obind].
    rewrite (step_no_best n 0 0 i j) by (auto; lia). reflexivity. }
  assert (forall l, (0 < l)%nat -> for_loop (gauss_col f_sub f_mul f_neg (fun x y => Ret (f_div x y)) f_is_zero f_partial_cmp mat_get mat_set swap_rows n n)
    0 l (m, f_one, 0%nat) = Pan) as L by (intros [|l] Hl; [lia|]; cbn [for_loop]; rewrite C; reflexivity).
  rewrite L by lia. reflexivity.
Qed.
End Nan.

(** A NaN in the first column beside another entry that is not zero: a panic. *)
Theorem C140_nan_partial : forall n (m : list (list float)) i j, (3 <= n)%nat -> shape n n m -> (i < n)%nat -> (j < n)%nat -> i <> j ->
  nth 0 (nth i m []) f_zero = B754_nan -> ~ (finite (nth 0 (nth j m []) f_zero) /\ value (nth 0 (nth j m []) f_zero) = 0) ->
  f_determinant n m = Pan /\ f_row_reduce n n m = Pan.
Proof.
  intros n m i j Hn S Hi Hj Ne Zi Zj.
  assert (forall k, (k < n)%nat -> at_ f_zero m k 0 = nth 0 (nth k m []) f_zero) as Q.
  { intros k Hk. unfold at_, entry. destruct (shape_row _ _ _ k S Hk) as (r & E & L). rewrite E.
    rewrite (nth_error_nth m k [] E). rewrite (nth_error_nth' r f_zero) by lia. reflexivity. }
  rewrite <- (Q i Hi) in Zi. rewrite <- (Q j Hj) in Zj. apply zero_test in Zj.
  pose proof (nan_gauss n m S i j Hi Hj Ne Zi Zj) as G. split.
  - unfold f_determinant, determinant. destruct n as [|[|[|n]]]; try lia. rewrite G. reflexivity.
  - unfold f_row_reduce, static_row_reduce. rewrite G. reflexivity.
Qed.
End Format.
Print Assumptions C138_dot_product.
Print Assumptions C138_sum.
Print Assumptions C138_matrix_product.
Print Assumptions C138_two_products.
Print Assumptions C138_whole_numbers.
Print Assumptions C139_in_range_partial.
Print Assumptions C141_in_range_partial.
Print Assumptions C141_scalar_partial.
Print Assumptions C140_triangular_partial.
Print Assumptions C140_nan_partial.

(** *** Examples and refutations, in [f64] *)

Definition fbits (x : f64) := B2SF x.

Example C138_demo : let a := [of_z 1 (-1); of_z 3 0] in let b := [of_z 1 60; of_z 1 (-1)] in
  exists r, f_dot a b = Ret r /\ fbits r = fbits (of_z 1 59) /\ finite r.
Proof. eexists. split; [reflexivity|]. split; vm_compute; reflexivity. Qed.

Example C138_whole_demo : Forall2 is_whole_number [of_z 3 0; of_z (-5) 0] [3%Z; (-5)%Z] /\
  exists r, f_dot [of_z 3 0; of_z (-5) 0] [of_z 7 0; of_z 2 0] = Ret r /\ fbits r = fbits (of_z 11 0).
Proof.
  split.
  - repeat constructor; try (apply of_z_value; lia); [destruct (of_z_value 3 0) as [_ ->]|destruct (of_z_value (-5) 0) as [_ ->]]; try lia; cbn; lra.
  - eexists. split; [reflexivity|]. vm_compute. reflexivity.
Qed.

Lemma pow_1_value e : (-1074 <= e <= 900)%Z -> value (of_z 1 e) = powerRZ 2 e.
Proof. intros H. destruct (of_z_value 1 e) as [_ ->]; [lia|auto|]. lra. Qed.

(** [2^600] is a float, and so is its modulus; the computed modulus is infinite.  [2^-600] has modulus zero. *)
Theorem C139_refuted : let big := Cx (of_z 1 600) f_zero in let small := Cx (of_z 1 (-600)) f_zero in
  (finite (real big) /\ value (real big) = powerRZ 2 600 /\ f_abs big = B754_infinity false) /\
  (finite (real small) /\ value (real small) = powerRZ 2 (-600) /\ f_abs small = B754_zero false).
Proof.
  cbv zeta. cbn [real]. split; (split; [apply of_z_value; lia|split; [apply pow_1_value; lia|vm_compute; reflexivity]]).
Qed.
Print Assumptions C139_refuted.

Example C139_demo : let a := Cx (of_z 3 0) (of_z 4 0) in fbits (f_abs a) = fbits (of_z 5 0) /\ finite (f_abs_squared a) /\
  zero_or_normal 1024 (value (real a) * value (real a)).
Proof.
  cbv zeta. split; [vm_compute; reflexivity|]. split; [vm_compute; reflexivity|]. cbn [real]. right.
  destruct (of_z_value 3 0) as [_ ->]; try lia. replace (IZR 3 * powerRZ 2 0 * (IZR 3 * powerRZ 2 0)) with 9 by (cbn; ring).
  rewrite Rabs_pos_eq by lra. rewrite normal_bpow. apply Rle_trans with (bpow radix2 0); [apply bpow_le; lia|cbn; lra].
Qed.

(** A determinant that is about 2 and computed as zero; a NaN that makes [determinant] panic. *)
Definition bad_pivot : list (list f64) :=
  [[of_z 1 (-66); of_z 1 0; of_z 1 0]; [of_z 1 0; of_z 1 0; of_z 1 1]; [of_z 1 0; of_z 1 1; of_z 1 0]].

Theorem C140_refuted : (Forall (Forall finite) bad_pivot /\ shape 3 3 bad_pivot /\ 1 < det3 (cell bad_pivot) /\
    exists r, f_determinant 3 bad_pivot = Ret r /\ finite r /\ value r = 0) /\
  f_determinant 3 [[B754_nan; f_zero; f_zero]; [f_one; f_one; f_zero]; [f_zero; f_zero; f_one : f64]] = Pan.
Proof.
  split; [|vm_compute; reflexivity]. split; [repeat constructor; apply of_z_value; lia|]. split; [repeat constructor|]. split.
  - unfold det3, cell, bad_pivot. cbn [nth]. rewrite !pow_1_value by lia.
    assert (powerRZ 2 (-66) < / 4) as H.
    { change (/ 4) with (/ (2 * 2)). apply Rlt_le_trans with (bpow radix2 (-2)); [|cbn; lra].
      replace (powerRZ 2 (-66)) with (bpow radix2 (-66)) by (rewrite bpow_powerRZ; reflexivity). apply bpow_lt. lia. }
    change (powerRZ 2 0) with 1. change (powerRZ 2 1) with (2 * 1). lra.
  - destruct (f_determinant 3 bad_pivot) as [r| |] eqn:E; [|exfalso; vm_compute in E; discriminate|exfalso; vm_compute in E; discriminate].
    exists r. split; auto. assert (r = B754_zero true) as -> by (vm_compute in E; injection E as <-; reflexivity). split; reflexivity.
Qed.
Print Assumptions C140_refuted.

Example C140_demo : let m := [[of_z 2 0; of_z 5 0; of_z 1 0]; [f_zero; of_z 3 0; of_z 7 0]; [f_zero; f_zero; of_z 1 (-1)]] in
  exists r, f_determinant 3 m = Ret r /\ fbits r = fbits (of_z 3 0).
Proof. eexists. split; [reflexivity|]. vm_compute. reflexivity. Qed.

(** Numbers divided by themselves: NaN. *)
Theorem C141_refuted : let big := Cx (of_z 1 600) f_zero in let small := Cx (of_z 1 (-600)) f_zero in
  (finite (real big) /\ value (real big) = powerRZ 2 600 /\ real (f_cdiv big big) = B754_nan) /\
  (finite (real small) /\ value (real small) = powerRZ 2 (-600) /\ real (f_cdiv small small) = B754_nan).
Proof.
  cbv zeta. cbn [real]. split; (split; [apply of_z_value; lia|split; [apply pow_1_value; lia|vm_compute; reflexivity]]).
Qed.
Print Assumptions C141_refuted.

(** The same through the division by a scalar. *)
Theorem C141_scalar_refuted : let big := of_z 1 600 in let small := of_z 1 (-600) in
  (finite big /\ value big = powerRZ 2 600 /\ real (f_cdiv_scalar (Cx big f_zero) big) = B754_nan) /\
  (finite small /\ value small = powerRZ 2 (-600) /\ real (f_cdiv_scalar (Cx small f_zero) small) = B754_nan).
Proof.
  cbv zeta. split; (split; [apply of_z_value; lia|split; [apply pow_1_value; lia|vm_compute; reflexivity]]).
Qed.
Print Assumptions C141_scalar_refuted.

Example C141_scalar_demo : let q := f_cdiv_scalar (Cx (of_z 5 0) (of_z 10 0)) (of_z 4 0) in
  fbits (real q) = fbits (of_z 5 (-2)) /\ fbits (imag q) = fbits (of_z 5 (-1)) /\ finite (f_mul (of_z 4 0) (of_z 4 0)).
Proof. vm_compute. repeat split; reflexivity. Qed.

Example C141_demo : let a := Cx (of_z 5 0) (of_z 10 0) in let b := Cx (of_z 3 0) (of_z 4 0) in
  fbits (real (f_cdiv a b)) = fbits (of_z 4953959590107546 (-51)) /\ fbits (imag (f_cdiv a b)) = fbits (of_z 3602879701896397 (-53)) /\ finite (f_abs_squared b).
Proof. vm_compute. repeat split; reflexivity. Qed.
