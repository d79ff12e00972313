(** C139, C141: moduli and quotients of complex numbers over floats whose squares overflow or vanish. *)
From Coq Require Import ZArith Reals List Bool Lia Lra Psatz.
From Flocq Require Import Core BinarySingleNaN.
From Verif Require Import Base StaticIterModel VectorModel CompoundsSpec MatrixModel MatrixProofs PropVector
  IeeeModel IeeeSpec IeeeProofs IeeeMore IeeeModulus PropIeee.
Import ListNotations.
Local Open Scope R_scope.

Section Format.
Context {prec emax : Z} {Hp : Prec_gt_0 prec} {Hm : Prec_lt_emax prec emax}.
Notation float := (binary_float prec emax).

(** ** C139: the modulus *)

(** For all finite components: the modulus is that of a number whose square is off by [E], or infinite because
    that square reaches the overflow threshold. *)
Theorem C139_all_finite_partial : forall a : complex float, finite (real a) -> finite (imag a) ->
  let u := unit_roundoff prec in let re := value (real a) in let im := value (imag a) in
  let N := re * re + im * im in let E := error_bound prec emax 2 [re * re; im * im] in
  (finite (f_abs a) /\ (1 - u) * sqrt (Rmax 0 (N - E)) <= value (f_abs a) <= (1 + u) * sqrt (N + E) /\ N - E < powerRZ 2 emax) \/
  (f_abs a = B754_infinity false /\ powerRZ 2 emax <= N + E).
Proof. apply abs_cases. Qed.

(** Overflow: no later than when one square passes the largest float. *)
Theorem C139_overflow_partial : forall a : complex float, finite (real a) -> finite (imag a) ->
  powerRZ 2 emax <= value (real a) * value (real a) \/ powerRZ 2 emax <= value (imag a) * value (imag a) -> f_abs a = B754_infinity false.
Proof. intros a Fr Fi H. unfold f_abs. rewrite (squared_overflow a Fr Fi H). reflexivity. Qed.

(** Underflow: exactly the numbers whose squares are at most half the smallest float have modulus zero. *)
Theorem C139_underflow_partial : forall a : complex float, finite (real a) -> finite (imag a) ->
  (f_abs a = B754_zero false <->
   value (real a) * value (real a) <= half_smallest prec emax /\ value (imag a) * value (imag a) <= half_smallest prec emax).
Proof. apply abs_zero. Qed.

(** NaN and infinite components. *)
Theorem C139_special_partial : forall a : complex float,
  (real a = B754_nan \/ imag a = B754_nan -> f_abs a = B754_nan) /\
  (real a <> B754_nan -> imag a <> B754_nan -> ~ (finite (real a) /\ finite (imag a)) -> f_abs a = B754_infinity false).
Proof. intros a. split; [intros H; apply abs_nan; exact H|apply abs_infinite]. Qed.

(** ** C141: quotients *)

(** A divisor whose square is not drowned by its rounding error. *)
Theorem C141_all_finite_partial : forall a b : complex float, finite (f_abs_squared b) ->
  let u := unit_roundoff prec in let rb := value (real b) in let ib := value (imag b) in
  let D := rb * rb + ib * ib in let F := error_bound prec emax 2 [rb * rb; ib * ib] in F < D ->
  let bound p q s := (1 + u) * ((error_bound prec emax 2 [p; q] * D + Rabs s * F) / (D * (D - F))) + u * (Rabs s / D) + half_smallest prec emax in
  let rr := value (real a) * rb in let ii := value (imag a) * ib in
  let ir := value (imag a) * rb in let ri := value (real a) * ib in
  let q := f_cdiv a b in
  (finite (real q) -> Rabs (value (real q) - (rr + ii) / D) <= bound rr ii (rr + ii)) /\
  (finite (imag q) -> Rabs (value (imag q) - (ir - ri) / D) <= bound ir ri (ir - ri)).
Proof.
  intros a b Fb u rb ib D F L bound rr ii ir ri q. destruct (two_products_add (real b) (real b) (imag b) (imag b) Fb) as [_ B].
  unfold q, f_cdiv, c_div. cbn [real imag]. split; intros Fq; apply quotient_general; auto.
  - intros Fn. apply two_products_add. exact Fn.
  - intros Fn. apply two_products_sub. exact Fn.
Qed.

(** A divisor whose square overflows: whatever the dividend, no component is a number other than zero. *)
Theorem C141_overflow_partial : forall a b : complex float, finite (real b) -> finite (imag b) ->
  powerRZ 2 emax <= value (real b) * value (real b) \/ powerRZ 2 emax <= value (imag b) * value (imag b) ->
  forall x, x = real (f_cdiv a b) \/ x = imag (f_cdiv a b) -> (exists s, x = B754_zero s) \/ x = B754_nan.
Proof.
  intros a b Fr Fi H x Hx. pose proof (squared_overflow b Fr Fi H) as I. unfold f_abs_squared, abs_squared in I. unfold f_cdiv, c_div in Hx. cbn [real imag] in Hx. rewrite I in Hx. destruct Hx as [-> | ->]; apply div_infinity.
Qed.

(** A divisor whose square vanishes: whatever the dividend, no component is finite. *)
Theorem C141_underflow_partial : forall a b : complex float, finite (real b) -> finite (imag b) ->
  value (real b) * value (real b) <= half_smallest prec emax -> value (imag b) * value (imag b) <= half_smallest prec emax ->
  ~ finite (real (f_cdiv a b)) /\ ~ finite (imag (f_cdiv a b)).
Proof.
  intros a b Fr Fi H1 H2. pose proof (proj2 (squared_zero b Fr Fi) (conj H1 H2)) as Z. unfold f_abs_squared, abs_squared in Z.
  unfold f_cdiv, c_div. cbn [real imag]. rewrite Z.
  split; [destruct (div_by_zero (f_add (f_mul (real a) (real b)) (f_mul (imag a) (imag b)))) as [[s ->]| ->]
         |destruct (div_by_zero (f_sub (f_mul (imag a) (real b)) (f_mul (real a) (imag b)))) as [[s ->]| ->]]; discriminate.
Qed.

(** The same for division by a scalar. *)
Theorem C141_scalar_extremes_partial : forall (a : complex float) (s : float), finite s ->
  (powerRZ 2 emax <= value s * value s -> forall x, x = real (f_cdiv_scalar a s) \/ x = imag (f_cdiv_scalar a s) -> (exists t, x = B754_zero t) \/ x = B754_nan) /\
  (value s * value s <= half_smallest prec emax -> ~ finite (real (f_cdiv_scalar a s)) /\ ~ finite (imag (f_cdiv_scalar a s))).
Proof.
  intros a s F. unfold f_cdiv_scalar, c_div_scalar. cbn [real imag]. split.
  - intros H x Hx. rewrite emax_bpow in H. apply round_ge_emax in H. destruct (square_cases s F) as [(_ & _ & _ & L)|(I & _)]; [lra|].
    rewrite I in Hx. destruct Hx as [-> | ->]; apply div_infinity.
  - intros H. apply (square_zero s F) in H. rewrite H.
    split; [destruct (div_by_zero (f_mul (real a) s)) as [[t ->]| ->]|destruct (div_by_zero (f_mul (imag a) s)) as [[t ->]| ->]]; discriminate.
Qed.
End Format.

Print Assumptions C139_all_finite_partial.
Print Assumptions C139_overflow_partial.
Print Assumptions C139_underflow_partial.
Print Assumptions C139_special_partial.
Print Assumptions C141_all_finite_partial.
Print Assumptions C141_overflow_partial.
Print Assumptions C141_underflow_partial.
Print Assumptions C141_scalar_extremes_partial.

(** *** Examples, in [f64] *)

(** A modulus whose square is a subnormal number keeps few correct digits. *)
Example C139_subnormal_demo : let a := Cx (of_z 3 (-538)) f_zero in finite (real a) /\ finite (f_abs a) /\
  fbits (f_abs a) = fbits (of_z 6369051672525773 (-589)) /\ fbits (of_z 3 (-538)) = fbits (of_z 6755399441055744 (-589)).
Proof. cbv zeta. cbn [real]. split; [vm_compute; reflexivity|]. split; [vm_compute; reflexivity|]. split; vm_compute; reflexivity. Qed.

Example C139_overflow_demo : let a := Cx f_zero (of_z 1 512) in finite (imag a) /\ powerRZ 2 1024 <= value (imag a) * value (imag a).
Proof.
  cbv zeta. cbn [imag]. split; [vm_compute; reflexivity|]. destruct (of_z_value 1 512) as [_ ->]; try lia.
  rewrite Rmult_1_l. rewrite <- powerRZ_add by lra. right. reflexivity.
Qed.

Example C139_underflow_demo : let a := Cx (of_z 1 (-538)) f_zero in finite (real a) /\ value (real a) * value (real a) <= half_smallest 53 1024 /\ f_abs a = B754_zero false.
Proof.
  cbv zeta. cbn [real]. split; [vm_compute; reflexivity|]. split; [|vm_compute; reflexivity]. destruct (of_z_value 1 (-538)) as [_ ->]; try lia.
  rewrite Rmult_1_l. rewrite <- powerRZ_add by lra. unfold half_smallest. change 2 with (IZR radix2). rewrite <- !bpow_powerRZ. apply bpow_le. lia.
Qed.

Example C139_special_demo : f_abs (Cx B754_nan (B754_infinity true) : complex f64) = B754_nan /\ f_abs (Cx (B754_infinity true) f_one : complex f64) = B754_infinity false.
Proof. split; vm_compute; reflexivity. Qed.

Example C141_extremes_demo : let one := Cx f_one f_one : complex f64 in
  real (f_cdiv one (Cx (of_z 1 512) f_zero)) = B754_zero false /\ real (f_cdiv one (Cx (of_z 1 (-538)) f_zero)) = B754_infinity false /\
  imag (f_cdiv one (Cx (of_z 1 (-538)) f_zero)) = B754_infinity false /\ real (f_cdiv_scalar one (of_z 1 512)) = B754_zero false.
Proof. cbv zeta. split; [vm_compute; reflexivity|]. split; [vm_compute; reflexivity|]. split; vm_compute; reflexivity. Qed.

(** A divisor with a subnormal square that the error bound still covers. *)
Example C141_all_finite_demo : let b := Cx (of_z 1 (-530)) f_zero in finite (f_abs_squared b) /\
  error_bound 53 1024 2 [value (real b) * value (real b); value (imag b) * value (imag b)] < value (real b) * value (real b) + value (imag b) * value (imag b).
Proof.
  cbv zeta. cbn [real imag]. split; [vm_compute; reflexivity|]. destruct (of_z_value 1 (-530)) as [_ ->]; try lia. change (value f_zero) with 0.
  rewrite Rmult_1_l. rewrite <- powerRZ_add by lra. unfold error_bound. cbn [magnitudes map total INR]. rewrite Rmult_0_l, Rabs_R0.
  unfold half_smallest, unit_roundoff. change 2 with (IZR radix2). rewrite <- !bpow_powerRZ. change (IZR radix2) with 2.
  rewrite Rabs_pos_eq by apply bpow_ge_0. replace (-530 + -530)%Z with (2 - 1024 - 53 + 15)%Z by lia. rewrite bpow_plus.
  change (- (53))%Z with (-53)%Z. set (h := bpow radix2 (2 - 1024 - 53)). assert (0 < h) by apply bpow_gt_0.
  assert (bpow radix2 15 = 32768) as -> by (cbn; lra).
  assert (0 < bpow radix2 (-53) <= / 32768 / 32768) as [U1 U2].
  { split; [apply bpow_gt_0|]. apply Rle_trans with (bpow radix2 (-30)); [apply bpow_le; lia|]. cbn; lra. }
  set (v := bpow radix2 (-53)) in *. clearbody v h. cbn [pow].
  assert ((1 + v) * ((1 + v) * 1) <= 1 + / 32768) as W by nra. set (w := (1 + v) * ((1 + v) * 1)) in *. clearbody w.
  assert (w * h <= (1 + / 32768) * h) by (apply Rmult_le_compat_r; lra). lra.
Qed.
