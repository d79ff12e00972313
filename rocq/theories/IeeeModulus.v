(** Moduli and quotients whose squares overflow or vanish. *)
From Coq Require Import ZArith Reals List Bool Lia Lra Psatz.
From Flocq Require Import Core BinarySingleNaN Relative Plus_error.
From Verif Require Import Base StaticIterModel VectorModel CompoundsSpec MatrixModel MatrixProofs IeeeModel IeeeSpec IeeeProofs IeeeMore.
Import ListNotations.
Local Open Scope R_scope.

Section Format.
Context {prec emax : Z} {Hp : Prec_gt_0 prec} {Hm : Prec_lt_emax prec emax}.
Notation float := (binary_float prec emax).
Notation u := (unit_roundoff prec).
Notation eta := (half_smallest prec emax).
Notation fexp := (SpecFloat.fexp prec emax).
Notation rnd := (round radix2 fexp ZnearestE).
Notation format := (generic_format radix2 fexp).

Instance vexp : Valid_exp fexp := fexp_correct prec emax Hp.
Instance mexp : Monotone_exp fexp.
Proof. intros a b H. rewrite !fexp_flt. apply FLT_exp_monotone; auto. Qed.

Lemma emax_bpow : powerRZ 2 emax = bpow radix2 emax.
Proof. rewrite bpow_powerRZ. reflexivity. Qed.

(** What rounds to zero. *)
Lemma round_to_zero x : 0 <= x -> (rnd x = 0 <-> x <= eta).
Proof.
  intros P. rewrite eta_bpow. set (h := bpow radix2 (2 - emax - prec)). assert (0 < h) as HP by apply bpow_gt_0. split.
  - intros E. pose proof (error_le_half_ulp_round radix2 fexp (fun n => negb (Z.even n)) x) as B. rewrite E in B.
    unfold ulp in B. rewrite Req_bool_true in B by reflexivity.
    assert (B' : match negligible_exp fexp with Some n => bpow radix2 (fexp n) | None => 0 end = bpow radix2 (3 - emax - prec)).
    { pose proof (ulp_FLT_0 radix2 (3 - emax - prec) prec) as U. unfold ulp in U. rewrite Req_bool_true in U by reflexivity. exact U. }
    rewrite B' in B. rewrite half_bpow in B. replace (3 - emax - prec - 1)%Z with (2 - emax - prec)%Z in B by lia. fold h in B.
    rewrite Rabs_minus_sym, Rminus_0_r, Rabs_pos_eq in B by auto. exact B.
  - intros L. destruct (Rle_lt_or_eq_dec 0 x P) as [Q|<-]; [|apply round_0, valid_rnd_N].
    assert (mag radix2 x <= 3 - emax - prec)%Z as M.
    { apply mag_le_bpow; [lra|]. rewrite Rabs_pos_eq by auto. apply Rle_lt_trans with h; auto. apply bpow_lt. lia. }
    unfold round, F2R. cbn [Fnum Fexp].
    replace (ZnearestE (scaled_mantissa radix2 fexp x)) with 0%Z; [apply Rmult_0_l|]. symmetry.
    assert (cexp radix2 fexp x = 3 - emax - prec)%Z as C. { unfold cexp. rewrite fexp_flt. unfold FLT_exp. unfold Prec_gt_0 in Hp. lia. }
    unfold scaled_mantissa. rewrite C. set (y := x * bpow radix2 (- (3 - emax - prec))).
    assert (0 <= y <= / 2) as Y.
    { unfold y. split; [apply Rmult_le_pos; [auto|apply bpow_ge_0]|].
      replace (/ 2) with (h * bpow radix2 (- (3 - emax - prec))).
      - apply Rmult_le_compat_r; [apply bpow_ge_0|auto].
      - unfold h. rewrite <- bpow_plus. replace (2 - emax - prec + - (3 - emax - prec))%Z with (-1)%Z by lia. reflexivity. }
    clearbody y. clear - Y. unfold Znearest.
    assert (Zfloor y = 0%Z) as F by (apply Zfloor_imp; cbn; lra). rewrite F. 
    destruct (Rcompare_spec (y - 0) (/ 2)); try reflexivity. lra.
Qed.

Lemma round_ge_emax x : bpow radix2 emax <= x -> bpow radix2 emax <= rnd x.
Proof.
  intros L. apply round_ge_generic; auto; [apply vexp|apply valid_rnd_N|]. apply generic_format_bpow. rewrite fexp_flt. unfold FLT_exp. unfold Prec_gt_0, Prec_lt_emax in *. lia.
Qed.

(** The square of a float. *)
Lemma square_cases (x : float) : finite x ->
  (finite (f_mul x x) /\ Bsign (f_mul x x) = false /\ value (f_mul x x) = rnd (value x * value x) /\ rnd (value x * value x) < bpow radix2 emax) \/
  (f_mul x x = B754_infinity false /\ bpow radix2 emax <= rnd (value x * value x)).
Proof.
  intros F. unfold finite, f_mul, value in *. pose proof (Bmult_correct prec emax Hp Hm mode_NE x x) as C. cbn [round_mode] in C.
  assert (0 <= rnd (B2R x * B2R x)) as P.
  { rewrite <- (round_0 radix2 fexp ZnearestE) at 1. apply round_le; [apply vexp|apply valid_rnd_N|nra]. }
  rewrite Rabs_pos_eq in C by exact P.
  destruct (Rlt_bool_spec (rnd (B2R x * B2R x)) (bpow radix2 emax)).
  - left. destruct C as (C1 & C2 & C3). rewrite F in C2. split; auto. split; auto. rewrite C3; [apply xorb_nilpotent|]. destruct (Bmult mode_NE x x); auto; discriminate.
  - right. split; auto. rewrite xorb_nilpotent in C. destruct (Bmult mode_NE x x); cbn in C; try discriminate. congruence.
Qed.

Lemma value_pos (x : float) : Bsign x = false -> 0 <= value x.
Proof. destruct x as [[]|[]| |[]]; cbn; try discriminate; intros _; try lra. apply F2R_ge_0. cbn. lia. Qed.

Lemma sign_pos (x : float) : 0 < value x -> Bsign x = false.
Proof. destruct x as [[]|[]| |[]]; cbn; intros H; try lra; auto. exfalso. pose proof (F2R_lt_0 radix2 (Float radix2 (Zneg m) e) ltac:(cbn; lia)). lra. Qed.

(** The sum of floats that are not negative. *)
Lemma sum_cases (x y : float) : finite x -> finite y -> Bsign x = false -> Bsign y = false ->
  (finite (f_add x y) /\ Bsign (f_add x y) = false /\ value (f_add x y) = rnd (value x + value y)) \/
  (f_add x y = B754_infinity false /\ bpow radix2 emax <= rnd (value x + value y)).
Proof.
  intros Fx Fy Sx Sy. pose proof (value_pos x Sx) as Px. pose proof (value_pos y Sy) as Py. unfold finite, f_add, value in *.
  pose proof (Bplus_correct prec emax Hp Hm mode_NE x y Fx Fy) as C. cbn [round_mode] in C.
  assert (0 <= rnd (B2R x + B2R y)) as P.
  { rewrite <- (round_0 radix2 fexp ZnearestE) at 1. apply round_le; [apply vexp|apply valid_rnd_N|lra]. }
  rewrite Rabs_pos_eq in C by exact P.
  destruct (Rlt_bool_spec (rnd (B2R x + B2R y)) (bpow radix2 emax)).
  - left. destruct C as (C1 & C2 & C3). split; auto. split; auto. rewrite C3, Sx, Sy. destruct (Rcompare_spec (B2R x + B2R y) 0); auto. lra.
  - right. split; auto. destruct C as [C _]. rewrite Sx in C. destruct (Bplus mode_NE x y); cbn in C; try discriminate. congruence.
Qed.

(** The squared modulus. *)
Lemma squared_cases (a : complex float) : finite (real a) -> finite (imag a) ->
  (finite (f_abs_squared a) /\ Bsign (f_abs_squared a) = false) \/
  (f_abs_squared a = B754_infinity false /\
   powerRZ 2 emax <= value (real a) * value (real a) + value (imag a) * value (imag a) +
     error_bound prec emax 2 [value (real a) * value (real a); value (imag a) * value (imag a)]).
Proof.
  intros Fr Fi. rewrite emax_bpow. unfold f_abs_squared, abs_squared. pose proof (@u_pos prec). pose proof (@eta_pos prec emax).
  set (r := value (real a)) in *. set (i := value (imag a)) in *. assert (0 <= r * r /\ 0 <= i * i) as [P1 P2] by nra.
  assert (r * r + i * i + error_bound prec emax 2 [r * r; i * i] = (1 + u) ^ 2 * (r * r + i * i + 2 * eta)) as ->.
  { unfold error_bound. cbn [magnitudes map total]. rewrite !(Rabs_pos_eq (_ * _)) by auto. cbn [INR]. ring. }
  assert (forall t, 0 <= t -> rnd t <= (1 + u) * t + eta) as RB.
  { intros t Ht. destruct (@round_err prec emax Hp t) as (e & h & He & Hh & ->). apply Rabs_le_inv in He, Hh. nra. }
  assert (0 <= u * u) by nra. assert (0 <= u * (r * r)) by nra. assert (0 <= u * (i * i)) by nra. assert (0 <= u * eta) by nra.
  assert (0 <= u * u * (r * r)) by nra. assert (0 <= u * u * (i * i)) by nra. assert (0 <= u * u * eta) by nra.
  destruct (square_cases (real a) Fr) as [(F1 & S1 & V1 & _)|(-> & O1)]; destruct (square_cases (imag a) Fi) as [(F2 & S2 & V2 & _)|(-> & O2)].
  - destruct (sum_cases _ _ F1 F2 S1 S2) as [(F & S & _)|(E & O)]; auto. right. split; auto.
    destruct (@plus_err prec emax Hp (value (f_mul (real a) (real a))) (value (f_mul (imag a) (imag a)))) as (e & He & E'); try apply generic_format_B2R.
    rewrite E' in O. clear E'. apply Rabs_le_inv in He. pose proof (value_pos _ S1) as Q1. pose proof (value_pos _ S2) as Q2.
    rewrite V1, V2 in *. pose proof (RB (r * r) P1) as B1. pose proof (RB (i * i) P2) as B2.
    fold r in O, Q1. fold i in O, Q2. set (p := rnd (r * r)) in *. set (q := rnd (i * i)) in *.
    apply Rle_trans with ((p + q) * (1 + e)); auto. apply Rle_trans with ((p + q) * (1 + u)); [apply Rmult_le_compat_l; lra|].
    apply Rle_trans with (((1 + u) * (r * r) + eta + ((1 + u) * (i * i) + eta)) * (1 + u)); [apply Rmult_le_compat_r; lra|]. cbn [pow]. lra.
  - right. split; [|pose proof (RB (i * i) P2); fold i in O2; cbn [pow]; lra].
    destruct (f_mul (real a) (real a)) as [[]|[]| |[]]; try discriminate; reflexivity.
  - right. split; [|pose proof (RB (r * r) P1); fold r in O1; cbn [pow]; lra].
    destruct (f_mul (imag a) (imag a)) as [[]|[]| |[]]; try discriminate; reflexivity.
  - right. split; [reflexivity|]. pose proof (RB (r * r) P1); fold r in O1; cbn [pow]; lra.
Qed.

Lemma value_lt (x : float) : value x < bpow radix2 emax.
Proof. apply Rle_lt_trans with (Rabs (value x)); [apply Rle_abs|]. apply abs_B2R_lt_emax. Qed.

(** Square roots lose no precision, not even those of the smallest floats. *)
Lemma sqrt_any (x : float) : finite x -> Bsign x = false ->
  finite (f_sqrt x) /\ exists e, Rabs e <= u /\ value (f_sqrt x) = sqrt (value x) * (1 + e).
Proof.
  intros F S. pose proof (value_pos x S) as P. unfold f_sqrt. destruct (Bsqrt_correct prec emax Hp Hm mode_NE x) as (C1 & C2 & _). split.
  - unfold finite. rewrite C2. destruct x as [|[]| |[]]; auto; try discriminate.
  - unfold value at 1. rewrite C1. apply round_err_normal. fold (value x).
    destruct (Rle_lt_or_eq_dec 0 _ P) as [Q|<-]; [right|left; apply sqrt_0].
    rewrite Rabs_pos_eq by apply sqrt_pos. rewrite normal_bpow.
    assert (bpow radix2 (3 - emax - prec) <= value x) as L.
    { destruct x as [|[]| |[] m e B]; cbn in Q; try lra; try discriminate. unfold value, B2R. unfold F2R. cbn [cond_Zopp Fnum Fexp].
      apply Rle_trans with (bpow radix2 e).
      - apply bpow_le. pose proof B as B0. unfold SpecFloat.bounded, SpecFloat.canonical_mantissa in B0. apply andb_prop in B0. destruct B0 as [B0 _].
        apply Zeq_bool_eq in B0. rewrite <- B0. unfold SpecFloat.fexp, SpecFloat.emin. lia.
      - rewrite <- (Rmult_1_l (bpow radix2 e)) at 1. apply Rmult_le_compat_r; [apply bpow_ge_0|]. apply IZR_le. lia. }
    rewrite <- (sqrt_square (bpow radix2 (2 - emax))) by apply bpow_ge_0. apply sqrt_le_1_alt. apply Rle_trans with (2 := L).
    rewrite <- bpow_plus. apply bpow_le. unfold Prec_lt_emax in Hm. lia.
Qed.

Lemma abs_cases (a : complex float) : finite (real a) -> finite (imag a) ->
  let N := value (real a) * value (real a) + value (imag a) * value (imag a) in
  let E := error_bound prec emax 2 [value (real a) * value (real a); value (imag a) * value (imag a)] in
  (finite (f_abs a) /\ (1 - u) * sqrt (Rmax 0 (N - E)) <= value (f_abs a) <= (1 + u) * sqrt (N + E) /\ N - E < powerRZ 2 emax) \/
  (f_abs a = B754_infinity false /\ powerRZ 2 emax <= N + E).
Proof.
  intros Fr Fi N E. destruct (squared_cases a Fr Fi) as [[F S]|[I O]].
  - left. destruct (sqrt_any _ F S) as (Fs & e & He & V). split; [exact Fs|].
    destruct (two_products_add (real a) (real a) (imag a) (imag a) F) as [_ B].
    change (f_add (f_mul (real a) (real a)) (f_mul (imag a) (imag a))) with (f_abs_squared a) in B. fold N in B. fold E in B. apply Rabs_le_inv in B, He.
    pose proof (value_pos _ S) as P. pose proof (@u_pos prec). pose proof (@u_half prec Hp). pose proof (value_lt (f_abs_squared a)).
    split; [|rewrite emax_bpow; lra]. unfold f_abs. rewrite V. pose proof (sqrt_pos (value (f_abs_squared a))). split.
    + rewrite Rmult_comm. apply Rmult_le_compat; [apply sqrt_pos|lra| |lra]. apply sqrt_le_1_alt. apply Rmax_lub; lra.
    + rewrite (Rmult_comm (1 + u)). apply Rmult_le_compat; [auto|lra| |lra]. apply sqrt_le_1_alt. lra.
  - right. split; [|exact O]. unfold f_abs. rewrite I. reflexivity.
Qed.

Lemma zero_pos (x : float) : finite x -> Bsign x = false -> value x = 0 -> x = B754_zero false.
Proof. intros F S V. destruct (zero_cases x F V) as (s & ->). cbn in S. congruence. Qed.

Lemma square_zero (x : float) : finite x -> (f_mul x x = B754_zero false <-> value x * value x <= eta).
Proof.
  intros F. rewrite <- (round_to_zero (value x * value x)) by nra. destruct (square_cases x F) as [(F1 & S1 & V1 & _)|(E & O)].
  - split; intros H.
    + rewrite H in V1. cbn in V1. auto.
    + apply zero_pos; auto. congruence.
  - split; intros H; [congruence|]. pose proof (bpow_gt_0 radix2 emax). lra.
Qed.

Lemma plus_zero (x y : float) : format (value x) -> format (value y) -> 0 <= value x -> 0 <= value y -> rnd (value x + value y) = 0 -> value x = 0 /\ value y = 0.
Proof.
  intros Fx Fy Px Py H. destruct (@plus_err prec emax Hp _ _ Fx Fy) as (e & He & E). rewrite E in H. apply Rabs_le_inv in He. pose proof (@u_half prec Hp).
  apply Rmult_integral in H. lra.
Qed.

Lemma squared_zero (a : complex float) : finite (real a) -> finite (imag a) ->
  (f_abs_squared a = B754_zero false <-> value (real a) * value (real a) <= eta /\ value (imag a) * value (imag a) <= eta).
Proof.
  intros Fr Fi. rewrite <- (square_zero _ Fr), <- (square_zero _ Fi). unfold f_abs_squared, abs_squared. split.
  - intros H. assert (finite (f_add (f_mul (real a) (real a)) (f_mul (imag a) (imag a)))) as F by (rewrite H; reflexivity).
    destruct (add_ok _ _ F) as (F1 & F2 & _). 
    destruct (square_cases (real a) Fr) as [(_ & S1 & _)|(E1 & _)]; [|rewrite E1 in F1; discriminate].
    destruct (square_cases (imag a) Fi) as [(_ & S2 & _)|(E2 & _)]; [|rewrite E2 in F2; discriminate].
    destruct (sum_cases _ _ F1 F2 S1 S2) as [(_ & _ & V)|(E & _)]; [|congruence]. rewrite H in V. cbn in V.
    destruct (plus_zero (f_mul (real a) (real a)) (f_mul (imag a) (imag a))) as [Z1 Z2]; try apply generic_format_B2R; try (apply value_pos; auto); auto.
    split; apply zero_pos; auto.
  - intros [-> ->]. reflexivity.
Qed.

Lemma abs_zero (a : complex float) : finite (real a) -> finite (imag a) ->
  (f_abs a = B754_zero false <-> value (real a) * value (real a) <= eta /\ value (imag a) * value (imag a) <= eta).
Proof.
  intros Fr Fi. rewrite <- (squared_zero a Fr Fi). unfold f_abs. split; [|intros ->; reflexivity].
  intros H. destruct (squared_cases a Fr Fi) as [[F S]|[I _]]; [|rewrite I in H; discriminate].
  destruct (sqrt_any _ F S) as (_ & e & He & V). rewrite H in V. cbn in V. apply zero_pos; auto. pose proof (value_pos _ S) as P.
  apply Rabs_le_inv in He. pose proof (@u_half prec Hp). symmetry in V. apply Rmult_integral in V. destruct V as [V|V]; [|lra].
  apply sqrt_eq_0; auto.
Qed.

Lemma abs_nan (a : complex float) : real a = B754_nan \/ imag a = B754_nan -> f_abs a = B754_nan /\ f_abs_squared a = B754_nan.
Proof.
  intros H. assert (f_abs_squared a = B754_nan) as E.
  { unfold f_abs_squared, abs_squared. destruct H as [-> | ->]; cbn; [reflexivity|]. destruct (f_mul (real a) (real a)) as [|[]| |]; reflexivity. }
  split; auto. unfold f_abs. rewrite E. reflexivity.
Qed.

Lemma square_inf_or_pos (x : float) : x <> B754_nan -> f_mul x x = B754_infinity false \/ (finite (f_mul x x) /\ Bsign (f_mul x x) = false).
Proof.
  intros N. destruct x as [s|s| |s m e B] eqn:Ex; try congruence.
  - right. destruct s; split; reflexivity.
  - left. destruct s; reflexivity.
  - rewrite <- Ex. destruct (square_cases x) as [(F & S & _)|(E & _)]; auto. rewrite Ex. reflexivity.
Qed.

Lemma abs_infinite (a : complex float) : real a <> B754_nan -> imag a <> B754_nan -> ~ (finite (real a) /\ finite (imag a)) -> f_abs a = B754_infinity false.
Proof.
  intros Nr Ni H. assert (f_abs_squared a = B754_infinity false) as E; [|unfold f_abs; rewrite E; reflexivity].
  unfold f_abs_squared, abs_squared.
  assert (f_mul (real a) (real a) = B754_infinity false \/ f_mul (imag a) (imag a) = B754_infinity false) as I.
  { destruct (real a) as [s|s| |s m e B] eqn:Er; try congruence; [|left; destruct s; reflexivity|];
    (destruct (imag a) as [s'|s'| |s' m' e' B'] eqn:Ei; try congruence; [|right; destruct s'; reflexivity|]); elim H; split; reflexivity. }
  destruct I as [I|I]; rewrite I; [destruct (square_inf_or_pos (imag a) Ni) as [-> |[F S]]|destruct (square_inf_or_pos (real a) Nr) as [-> |[F S]]]; try reflexivity.
  - destruct (f_mul (imag a) (imag a)) as [[]|[]| |[]]; try discriminate; reflexivity.
  - destruct (f_mul (real a) (real a)) as [[]|[]| |[]]; try discriminate; reflexivity.
Qed.

(** A squared modulus that must overflow. *)
Lemma squared_overflow (a : complex float) : finite (real a) -> finite (imag a) ->
  powerRZ 2 emax <= value (real a) * value (real a) \/ powerRZ 2 emax <= value (imag a) * value (imag a) -> f_abs_squared a = B754_infinity false.
Proof.
  intros Fr Fi H. rewrite emax_bpow in H. destruct (squared_cases a Fr Fi) as [[F S]|[I _]]; auto. exfalso.
  unfold f_abs_squared, abs_squared in F. destruct (add_ok _ _ F) as (F1 & F2 & _). destruct H as [H|H]; apply round_ge_emax in H.
  - destruct (square_cases (real a) Fr) as [(_ & _ & _ & L)|(E & _)]; [lra|]. rewrite E in F1. discriminate.
  - destruct (square_cases (imag a) Fi) as [(_ & _ & _ & L)|(E & _)]; [lra|]. rewrite E in F2. discriminate.
Qed.

(** A quotient of inexact numbers. *)
Lemma quotient_general (n d : float) P D E1 E2 : E2 < D -> Rabs (value d - D) <= E2 -> finite (f_div n d) -> (finite n -> Rabs (value n - P) <= E1) ->
  Rabs (value (f_div n d) - P / D) <= (1 + u) * ((E1 * D + Rabs P * E2) / (D * (D - E2))) + u * (Rabs P / D) + eta.
Proof.
  intros L Bd F Bn. assert (0 <= E2) as PE by (eapply Rle_trans; [apply Rabs_pos|exact Bd]). assert (0 < D) as PD by lra.
  assert (D - E2 <= value d) as Ld by (apply Rabs_le_inv in Bd; lra).
  destruct (div_ok n d) as (Fn & e & h & He & Hh & V); [lra|exact F|]. specialize (Bn Fn). rewrite V. set (x := value n) in *. set (y := value d) in *.
  pose proof (@u_pos prec). pose proof (@u_half prec Hp).
  assert (x / y * (1 + e) + h - P / D = (x / y - P / D) * (1 + e) + P / D * e + h) as -> by ring.
  assert (Rabs (x / y - P / D) <= (E1 * D + Rabs P * E2) / (D * (D - E2))) as Q.
  { replace (x / y - P / D) with (((x - P) * D - P * (y - D)) / (D * y)) by (field; lra).
    unfold Rdiv at 1. rewrite Rabs_mult. rewrite (Rabs_pos_eq (/ _)) by (left; apply Rinv_0_lt_compat, Rmult_lt_0_compat; lra).
    apply Rmult_le_compat; [apply Rabs_pos|left; apply Rinv_0_lt_compat, Rmult_lt_0_compat; lra| |].
    - unfold Rminus at 1. eapply Rle_trans; [apply Rabs_triang|]. rewrite Rabs_Ropp, !Rabs_mult, (Rabs_pos_eq D) by lra.
      apply Rplus_le_compat; [apply Rmult_le_compat_r; lra|apply Rmult_le_compat_l; [apply Rabs_pos|exact Bd]].
    - apply Rinv_le_contravar; [apply Rmult_lt_0_compat; lra|apply Rmult_le_compat_l; lra]. }
  eapply Rle_trans; [apply Rabs_triang|]. apply Rplus_le_compat; [|exact Hh].
  eapply Rle_trans; [apply Rabs_triang|]. apply Rplus_le_compat.
  - rewrite Rabs_mult, Rmult_comm. apply Rmult_le_compat; try apply Rabs_pos; auto. apply Rabs_le_inv in He. rewrite Rabs_pos_eq; lra.
  - rewrite Rabs_mult, Rmult_comm. apply Rmult_le_compat; try apply Rabs_pos; auto. unfold Rdiv. rewrite Rabs_mult, (Rabs_pos_eq (/ D)); [lra|]. left. apply Rinv_0_lt_compat. lra.
Qed.

Lemma div_infinity (x : float) : (exists s, f_div x (B754_infinity false) = B754_zero s) \/ f_div x (B754_infinity false) = B754_nan.
Proof. destruct x; cbn; eauto. Qed.
Lemma div_by_zero (x : float) : (exists s, f_div x (B754_zero false) = B754_infinity s) \/ f_div x (B754_zero false) = B754_nan.
Proof. destruct x; cbn; eauto. Qed.
End Format.
