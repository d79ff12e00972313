(** Rounding floats to whole numbers, and their fractional parts. *)
From Coq Require Import ZArith QArith Qround Qabs List Bool Lia.
From Verif Require Import Base Words RealSpec RealProofs FpModel FpSpec FpProofs.
Local Open Scope Z_scope.

Section Round.
Variable F : fmt.
Hypothesis HF : ieee F.
Notation m := (Z.of_nat (fbits F)).
Notation e := (Z.of_nat (ebits F)).
Notation B := (bias F).
Notation D := (2 ^ (B - 1 + m)).

Lemma unit_den_D : unit_den F = D.
Proof. reflexivity. Qed.

Lemma sig_small k : 0 <= k <= 2 ^ m -> round_sig (m + 1) k = k.
Proof.
  intros H. apply round_small; [lia|]. pose proof (pm F). replace (m + 1) with (Z.succ m) by lia. rewrite Z.pow_succ_r; lia.
Qed.

(** A whole number less than one away from a float is itself a float. *)
Lemma near_representable neg E f k : 0 <= E < 2 ^ e - 1 -> 0 <= f < 2 ^ m ->
  Z.abs (k * D - units F neg E f) < D ->
  round_sig (m + 1) (Z.abs k) = Z.abs k /\ Z.abs k < 2 ^ (B + 1).
Proof.
  intros HE Hf Hk. pose proof (pm F) as Pm. pose proof (D_pos F HF) as HD. pose proof (m_ge F HF) as Hm.
  pose proof (bias_ge F HF) as [Hb1 Hb2]. pose proof (pow_e F HF) as Pe.
  assert (Z.abs (units F neg E f) = if E =? 0 then f else (2 ^ m + f) * 2 ^ (E - 1)) as EU.
  { unfold units. destruct (Z.eqb_spec E 0) as [|N].
    - destruct neg; lia.
    - assert (0 < 2 ^ (E - 1)) by (apply Z.pow_pos_nonneg; lia).
      assert (0 <= (2 ^ m + f) * 2 ^ (E - 1)) by (apply Z.mul_nonneg_nonneg; lia). destruct neg; lia. }
  destruct (Z_lt_ge_dec (E - 1) (B - 1 + m)) as [Hs|Hl].
  - assert (Z.abs (units F neg E f) < 2 ^ m * D) as Hu.
    { rewrite EU. destruct (Z.eqb_spec E 0); [nia|].
      assert (D = 2 ^ (E - 1) * 2 ^ (B - 1 + m - (E - 1))) as -> by (rewrite <- Z.pow_add_r by lia; f_equal; lia).
      assert (0 < 2 ^ (E - 1)) by (apply Z.pow_pos_nonneg; lia).
      assert (2 <= 2 ^ (B - 1 + m - (E - 1))) by (apply (Z.pow_le_mono_r 2 1); lia).
      set (p := 2 ^ (B - 1 + m - (E - 1))) in *. set (q := 2 ^ (E - 1)) in *.
      assert ((2 ^ m + f) * q < 2 ^ m * 2 * q) by (apply Z.mul_lt_mono_pos_r; lia).
      assert (2 ^ m * 2 * q <= 2 ^ m * p * q) by (apply Z.mul_le_mono_nonneg_r; nia). lia. }
    assert (Z.abs k <= 2 ^ m).
    { assert (Z.abs k * D < (2 ^ m + 1) * D) by (rewrite <- (Z.abs_eq D) at 1 by lia; rewrite <- Z.abs_mul; lia).
      assert (Z.abs k < 2 ^ m + 1) by (apply (Z.mul_lt_mono_pos_r D); lia). lia. }
    split; [apply sig_small; lia|].
    assert (2 ^ m < 2 ^ (B + 1)) by (apply Z.pow_lt_mono_r; lia). lia.
  - rewrite (proj2 (Z.eqb_neq E 0)) in EU by lia.
    assert ((2 ^ m + f) * 2 ^ (E - 1) = (2 ^ m + f) * 2 ^ (E - B - m) * D) as EA.
    { rewrite <- Z.mul_assoc, <- Z.pow_add_r by lia. do 2 f_equal. lia. }
    rewrite EA in EU. remember ((2 ^ m + f) * 2 ^ (E - B - m)) as a eqn:Ea.
    assert (0 < 2 ^ (E - B - m)) as Pp by (apply Z.pow_pos_nonneg; lia).
    assert (0 <= a) by (rewrite Ea; apply Z.mul_nonneg_nonneg; lia).
    assert (Z.abs k = a) as ->.
    { assert (units F neg E f = a * D \/ units F neg E f = - a * D) as [U|U] by lia; rewrite U in Hk;
        rewrite <- Z.mul_sub_distr_r, Z.abs_mul, (Z.abs_eq D) in Hk by lia; nia. }
    assert (2 ^ (m + 1) = 2 * 2 ^ m) as E2 by (rewrite <- Z.pow_succ_r by lia; f_equal; lia).
    split.
    + apply round_sig_id; [lia|lia|]. exists (2 ^ m + f), (E - B - m). split; [auto|lia].
    + assert (2 ^ (B + 1) = 2 ^ (m + 1) * 2 ^ (B - m)) as -> by (rewrite <- Z.pow_add_r by lia; f_equal; lia).
      assert (2 ^ (E - B - m) <= 2 ^ (B - m)) by (apply Z.pow_le_mono_r; lia).
      assert (0 < 2 ^ (B - m)) by (apply Z.pow_pos_nonneg; lia). rewrite Ea, E2. nia.
Qed.

Lemma zero_decode neg : let z := if neg : bool then 2 ^ (e + m) else 0 in
  pattern_of F z /\ fp_decode F z = DFin 0 /\ sign_of F z = neg.
Proof.
  pose proof (pm F). pose proof (pe F). pose proof (pow_e F HF). pose proof (bias_ge F HF).
  destruct (encode_fields F neg 0 0) as (P & S & _); [lia|lia|].
  pose proof (decode_encode F neg 0 0 ltac:(lia) ltac:(lia)) as Hd.
  rewrite (proj2 (Z.eqb_neq 0 (2 ^ e - 1))) in Hd by lia.
  assert (fp_encode F neg 0 0 = if neg then 2 ^ (e + m) else 0) as Ee by (unfold fp_encode; destruct neg; lia).
  rewrite Ee in *. cbn zeta. split; auto. split; auto. rewrite Hd. f_equal. unfold units. cbn. destruct neg; auto.
Qed.

Lemma of_int_sign v : v <> 0 -> Z.abs v < 2 ^ (B + 1) -> round_sig (m + 1) (Z.abs v) = Z.abs v ->
  sign_of F (fl_of_int F v) = (v <? 0).
Proof.
  intros H0 Hlt Hr. pose proof (of_int_finite F HF v) as Hf. rewrite Hr in Hf. destruct (Hf Hlt) as [P Hd].
  rewrite decode_fields in Hd by auto. destruct (_ =? _); [destruct (_ =? _); discriminate|]. injection Hd as Hd.
  unfold units in Hd. pose proof (frac_range F (fl_of_int F v)). pose proof (D_pos F HF). pose proof (pm F).
  assert (0 <= (if exponent_of F (fl_of_int F v) =? 0 then fraction_of F (fl_of_int F v)
                else (2 ^ m + fraction_of F (fl_of_int F v)) * 2 ^ (exponent_of F (fl_of_int F v) - 1))).
  { destruct (_ =? _); [lia|]. apply Z.mul_nonneg_nonneg; [lia|apply Z.pow_nonneg; lia]. }
  assert (Z.sgn v * Z.abs v * D = v * D) as E by (rewrite Z.mul_comm with (n := Z.sgn v), Z.abs_sgn; auto).
  rewrite E in Hd. destruct (sign_of F (fl_of_int F v)), (Z.ltb_spec v 0); auto; exfalso; nia.
Qed.

Lemma whole_ok x u k : pattern_of F x -> fp_decode F x = DFin u -> Z.abs (k * D - u) < D ->
  pattern_of F (fl_whole F x k) /\ fp_decode F (fl_whole F x k) = DFin (k * D) /\
  sign_of F (fl_whole F x k) = if k =? 0 then sign_of F x else k <? 0.
Proof.
  intros P Hd Hk. unfold fl_whole. destruct (Z.eqb_spec k 0) as [->|Hn].
  - destruct (zero_decode (sign_of F x)) as (P0 & D0 & S0). rewrite (sign_leb F x) in * by auto.
    destruct (2 ^ (e + m) <=? x); auto.
  - rewrite decode_fields in Hd by auto. destruct (Z.eqb_spec (exponent_of F x) (2 ^ e - 1)) as [|HE]; [destruct (_ =? _); discriminate|].
    injection Hd as <-. pose proof (exp_range F x). pose proof (frac_range F x).
    destruct (near_representable (sign_of F x) (exponent_of F x) (fraction_of F x) k ltac:(lia) ltac:(lia) Hk) as [R1 R2].
    pose proof (of_int_finite F HF k) as Hf. rewrite R1 in Hf. destruct (Hf R2) as [P1 D1]. split; auto. split.
    + rewrite D1. f_equal. rewrite (Z.mul_comm (Z.sgn k)), Z.abs_sgn. auto.
    + apply of_int_sign; auto.
Qed.

(** ** Fractional parts *)

Lemma units_log a : 0 < a -> m <= Z.log2 a -> (2 ^ (Z.log2 a - m) | a) ->
  (2 ^ m + (a / 2 ^ (Z.log2 a - m) - 2 ^ m)) * 2 ^ (Z.log2 a - m) = a /\ 0 <= a / 2 ^ (Z.log2 a - m) - 2 ^ m < 2 ^ m.
Proof.
  intros Ha Hm [z Hz]. destruct (Z.log2_spec a Ha) as [L1 L2]. remember (Z.log2 a - m) as s eqn:Es.
  assert (0 < 2 ^ s) as Ps by (apply Z.pow_pos_nonneg; lia). pose proof (pm F).
  assert (a / 2 ^ s = z) as -> by (rewrite Hz at 1; apply Z.div_mul; lia).
  assert (2 ^ Z.log2 a = 2 ^ m * 2 ^ s) as E by (rewrite <- Z.pow_add_r by lia; f_equal; lia).
  rewrite Z.pow_succ_r in L2 by lia. split; [lia|]. nia.
Qed.

Lemma of_units_ok u : Z.abs u < 2 ^ (m + 2 ^ e - 2) -> (m <= Z.log2 (Z.abs u) -> (2 ^ (Z.log2 (Z.abs u) - m) | Z.abs u)) ->
  pattern_of F (fl_of_units F u) /\ fp_decode F (fl_of_units F u) = DFin u.
Proof.
  intros Hu Hdiv. pose proof (pm F) as Pm. pose proof (pe F). pose proof (pow_e F HF). pose proof (bias_ge F HF).
  pose proof (m_ge F HF). unfold fl_of_units.
  destruct (Z.ltb_spec (Z.log2 (Z.abs u)) m) as [Hs|Hl].
  - assert (0 <= Z.abs u < 2 ^ m) as Ha.
    { split; [lia|]. destruct (Z.eq_dec (Z.abs u) 0) as [->|]; auto. apply Z.log2_lt_pow2; lia. }
    destruct (encode_fields F (u <? 0) 0 (Z.abs u)) as (P & _); [lia|lia|]. split; auto.
    rewrite decode_encode by lia. rewrite (proj2 (Z.eqb_neq 0 (2 ^ e - 1))) by lia. f_equal. unfold units.
    cbn [Z.eqb]. destruct (Z.ltb_spec u 0); lia.
  - assert (0 < Z.abs u) as Ha. { destruct (Z.eq_dec (Z.abs u) 0) as [E|]; [rewrite E in Hl; cbn in Hl; lia|lia]. }
    destruct (units_log _ Ha Hl (Hdiv Hl)) as [E1 E2].
    assert (Z.log2 (Z.abs u) < m + 2 ^ e - 2) by (apply Z.log2_lt_pow2; lia).
    destruct (encode_fields F (u <? 0) (Z.log2 (Z.abs u) - m + 1) (Z.abs u / 2 ^ (Z.log2 (Z.abs u) - m) - 2 ^ m)) as (P & _); [lia|lia|].
    split; auto. rewrite decode_encode by lia.
    rewrite (proj2 (Z.eqb_neq (Z.log2 (Z.abs u) - m + 1) (2 ^ e - 1))) by lia. f_equal. unfold units.
    rewrite (proj2 (Z.eqb_neq (Z.log2 (Z.abs u) - m + 1) 0)) by lia.
    rewrite Z.add_simpl_r, E1. destruct (Z.ltb_spec u 0); lia.
Qed.

Lemma fract_units neg E f : 0 <= E < 2 ^ e - 1 -> 0 <= f < 2 ^ m ->
  let r := Z.rem (units F neg E f) D in
  Z.abs r < 2 ^ (m + 2 ^ e - 2) /\ (m <= Z.log2 (Z.abs r) -> (2 ^ (Z.log2 (Z.abs r) - m) | Z.abs r)).
Proof.
  intros HE Hf r. pose proof (pm F) as Pm. pose proof (D_pos F HF) as HD. pose proof (m_ge F HF) as Hm.
  pose proof (bias_ge F HF) as [Hb1 Hb2]. pose proof (pow_e F HF) as Pe.
  assert (Z.abs r < D) as Hr by (pose proof (Z.rem_bound_abs (units F neg E f) D ltac:(lia)); rewrite (Z.abs_eq D) in *; lia).
  split. { assert (D <= 2 ^ (m + 2 ^ e - 2)) by (apply Z.pow_le_mono_r; lia). lia. }
  intros Hl. destruct (Z.eq_dec r 0) as [->|Hn]; [apply Z.divide_0_r|].
  destruct (Z.eqb_spec E 0) as [->|HE0].
  - (* subnormal: smaller than [2^m] *)
    exfalso. assert (Z.abs r <= f) as Hle.
    { unfold r, units. cbn [Z.eqb]. destruct neg; rewrite ?Z.rem_opp_l, ?Z.abs_opp by lia;
        rewrite Z.abs_eq by (apply Z.rem_nonneg; lia); apply Z.rem_le; lia. }
    assert (Z.log2 (Z.abs r) < m) by (apply Z.log2_lt_pow2; lia). lia.
  - assert ((2 ^ (E - 1) | Z.abs r)) as Hd1.
    { apply Z.divide_abs_r. unfold r. assert ((2 ^ (E - 1) | units F neg E f)) as HU.
      { unfold units. rewrite (proj2 (Z.eqb_neq E 0)) by lia. destruct neg; [apply Z.divide_opp_r|]; apply Z.divide_factor_r. }
      destruct (Z_lt_ge_dec (B - 1 + m) (E - 1)) as [Hb|Hb].
      - exfalso. apply Hn. unfold r. apply Z.rem_divide; [lia|]. apply Z.divide_trans with (2 ^ (E - 1)); auto.
        exists (2 ^ (E - 1 - (B - 1 + m))). rewrite <- Z.pow_add_r by lia. f_equal. lia.
      - rewrite Z.rem_eq by lia. apply Z.divide_sub_r; auto. apply Z.divide_mul_l.
        exists (2 ^ (B - 1 + m - (E - 1))). rewrite <- Z.pow_add_r by lia. f_equal. lia. }
    eapply Z.divide_trans; [|exact Hd1].
    assert (Z.log2 (Z.abs r) - m <= E - 1) as HL.
    { assert (Z.abs r <= Z.abs (units F neg E f)) as Hle.
      { unfold r. rewrite <- (Z.rem_abs (units F neg E f) D), (Z.abs_eq D) by lia. apply Z.rem_le; lia. }
      assert (Z.abs (units F neg E f) < 2 ^ (m + E)).
      { unfold units. rewrite (proj2 (Z.eqb_neq E 0)) by lia.
        assert (2 ^ (m + E) = 2 * 2 ^ m * 2 ^ (E - 1)) as -> by (rewrite <- Z.pow_succ_r, <- Z.pow_add_r by lia; f_equal; lia).
        assert (0 < 2 ^ (E - 1)) by (apply Z.pow_pos_nonneg; lia). destruct neg; rewrite ?Z.abs_opp, Z.abs_eq; nia. }
      assert (Z.log2 (Z.abs r) < m + E) by (apply Z.log2_lt_pow2; lia). lia. }
    exists (2 ^ (E - 1 - (Z.log2 (Z.abs r) - m))). rewrite <- Z.pow_add_r by lia. f_equal. lia.
Qed.

Lemma fract_ok x u : pattern_of F x -> fp_decode F x = DFin u ->
  pattern_of F (fl_fract F x) /\ fp_decode F (fl_fract F x) = DFin (Z.rem u D).
Proof.
  intros P Hd. unfold fl_fract. rewrite Hd, unit_den_D. rewrite decode_fields in Hd by auto.
  destruct (Z.eqb_spec (exponent_of F x) (2 ^ e - 1)) as [|HE]; [destruct (_ =? _); discriminate|].
  injection Hd as <-. pose proof (exp_range F x). pose proof (frac_range F x).
  destruct (fract_units (sign_of F x) (exponent_of F x) (fraction_of F x) ltac:(lia) ltac:(lia)) as [R1 R2].
  apply of_units_ok; auto.
Qed.
End Round.
