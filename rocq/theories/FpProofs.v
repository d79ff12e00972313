(** Proofs about FpModel.v. *)
From Coq Require Import ZArith QArith Qabs Qpower List Bool Lia.
From Verif Require Import Base Words Spec Arith BitSliceModel BitSliceProofs PrimModel PrimProofs UModel UProofs FpModel FpSpec RealSpec RealProofs.
Import ListNotations.
Local Open Scope Z_scope.

(** ** Rounding *)
Section Round.
Variable p : Z.
Hypothesis Hp1 : 1 <= p.

Lemma round_small x : 0 <= x < 2 ^ p -> round_sig p x = x.
Proof.
  intros H. unfold round_sig. assert (Z.log2 x <= p - 1).
  { destruct (Z.eq_dec x 0) as [->|]; [cbn; lia|]. assert (Z.log2 x < p) by (apply Z.log2_lt_pow2; lia). lia. }
  destruct (Z.leb_spec (Z.log2 x - (p - 1)) 0); auto. lia.
Qed.

Lemma pow_p : 2 ^ p = 2 * 2 ^ (p - 1).
Proof. rewrite <- Z.pow_succ_r by lia. f_equal. lia. Qed.

Lemma round_shape x : 2 ^ p <= x -> let e := Z.log2 x - (p - 1) in 0 < e /\
  exists q r n, x = q * 2 ^ e + r /\ 0 <= r < 2 ^ e /\ 2 ^ (p - 1) <= q < 2 ^ p /\
    round_sig p x = n * 2 ^ e /\ 2 ^ (p - 1) <= n <= 2 ^ p /\ 2 * Z.abs (n * 2 ^ e - x) <= 2 ^ e /\ (n = q \/ n = q + 1).
Proof.
  intros H. cbn zeta. remember (Z.log2 x - (p - 1)) as e eqn:Ee.
  assert (0 < 2 ^ p) by (apply Z.pow_pos_nonneg; lia).
  assert (p <= Z.log2 x) as Hl by (apply Z.log2_le_pow2; lia).
  assert (0 < e) as He by lia. split; auto.
  assert (0 < 2 ^ e) as Hp by (apply Z.pow_pos_nonneg; lia).
  assert (2 ^ e = 2 * 2 ^ (e - 1)) as Hh. { rewrite <- Z.pow_succ_r by lia. f_equal. lia. }
  destruct (Z.log2_spec x ltac:(lia)) as [L1 L2].
  assert (2 ^ Z.log2 x = 2 ^ (p - 1) * 2 ^ e) as E1. { rewrite <- Z.pow_add_r by lia. f_equal. lia. }
  assert (2 ^ Z.succ (Z.log2 x) = 2 ^ p * 2 ^ e) as E2. { rewrite <- Z.pow_add_r by lia. f_equal. lia. }
  pose proof (Z.div_mod x (2 ^ e) ltac:(lia)) as D. pose proof (Z.mod_pos_bound x (2 ^ e) Hp) as B.
  assert (2 ^ (p - 1) <= x / 2 ^ e < 2 ^ p) as Q.
  { split; [apply Z.div_le_lower_bound; lia|apply Z.div_lt_upper_bound; lia]. }
  unfold round_sig. rewrite <- Ee. rewrite (proj2 (Z.leb_gt e 0)) by lia.
  remember (x / 2 ^ e) as q. remember (x mod 2 ^ e) as r.
  destruct (Z.ltb_spec (2 ^ (e - 1)) r); cbn [orb].
  - exists q, r, (q + 1). repeat split; try lia.
  - destruct (Z.eqb_spec r (2 ^ (e - 1))); cbn [andb].
    + destruct (Z.odd q).
      * exists q, r, (q + 1). repeat split; try lia.
      * exists q, r, q. repeat split; try lia.
    + exists q, r, q. repeat split; try lia.
Qed.

(** Whole numbers of at most [p] significant bits. *)
Definition sig_bits (y : Z) : Prop := exists n s, y = n * 2 ^ s /\ 0 <= n < 2 ^ p /\ 0 <= s.

Lemma round_sig_bits x : 0 <= x -> sig_bits (round_sig p x).
Proof.
  intros H. pose proof pow_p. assert (0 < 2 ^ (p - 1)) by (apply Z.pow_pos_nonneg; lia).
  destruct (Z_lt_ge_dec x (2 ^ p)).
  - rewrite round_small by lia. exists x, 0. cbn. lia.
  - destruct (round_shape x) as (He & q & r & n & E & Hr & Hq & -> & Hm & Hd & _); [lia|].
    destruct (Z.eq_dec n (2 ^ p)) as [->|].
    + exists (2 ^ (p - 1)), (Z.log2 x - (p - 1) + 1). split; [|lia]. rewrite Z.pow_add_r by lia. lia.
    + exists n, (Z.log2 x - (p - 1)). split; [reflexivity|]. lia.
Qed.

Lemma round_nonneg x : 0 <= x -> 0 <= round_sig p x.
Proof.
  intros H. destruct (round_sig_bits x H) as (n & s & -> & Hn & Hs).
  assert (0 < 2 ^ s) by (apply Z.pow_pos_nonneg; lia). nia.
Qed.

Lemma round_nearest x y : 0 <= x -> sig_bits y -> Z.abs (round_sig p x - x) <= Z.abs (y - x).
Proof.
  intros H Hy. pose proof pow_p. assert (0 < 2 ^ (p - 1)) by (apply Z.pow_pos_nonneg; lia).
  destruct (Z_lt_ge_dec x (2 ^ p)).
  - rewrite round_small by lia. lia.
  - destruct (round_shape x) as (He & q & r & n & E & Hr & Hq & -> & Hm & Hd & _); [lia|].
    remember (Z.log2 x - (p - 1)) as e. assert (0 < 2 ^ e) as Hp by (apply Z.pow_pos_nonneg; lia).
    assert (forall k, Z.abs (n * 2 ^ e - x) <= Z.abs (k * 2 ^ e - x)) as Hk.
    { intros k. destruct (Z.eq_dec k n) as [->|]; [lia|]. assert (2 ^ e <= Z.abs (k * 2 ^ e - n * 2 ^ e)).
      { rewrite <- Z.mul_sub_distr_r, Z.abs_mul, (Z.abs_eq (2 ^ e)) by lia. assert (1 <= Z.abs (k - n)) by lia. nia. }
      lia. }
    destruct Hy as (k & f & -> & Hn & Hf).
    destruct (Z_le_gt_dec e f).
    + assert (2 ^ f = 2 ^ (f - e) * 2 ^ e) as -> by (rewrite <- Z.pow_add_r by lia; f_equal; lia).
      rewrite Z.mul_assoc. apply Hk.
    + assert (k * 2 ^ f <= 2 ^ (p - 1) * 2 ^ e).
      { assert (2 ^ e = 2 ^ (e - f - 1) * 2 * 2 ^ f) as ->.
        { rewrite <- (Z.mul_assoc _ 2), <- Z.pow_succ_r, <- Z.pow_add_r by lia. f_equal. lia. }
        assert (0 < 2 ^ f) by (apply Z.pow_pos_nonneg; lia). assert (0 < 2 ^ (e - f - 1)) by (apply Z.pow_pos_nonneg; lia).
        assert (k <= 2 * 2 ^ (p - 1)) by lia.
        replace (2 ^ (p - 1) * (2 ^ (e - f - 1) * 2 * 2 ^ f)) with (2 * 2 ^ (p - 1) * (2 ^ (e - f - 1) * 2 ^ f)) by ring.
        apply Z.mul_le_mono_nonneg; try lia. nia. }
      specialize (Hk (2 ^ (p - 1))). assert (2 ^ (p - 1) * 2 ^ e <= x) by nia. lia.
Qed.

(** Rounding is monotone. *)
Lemma round_mono x y : 0 <= x <= y -> round_sig p x <= round_sig p y.
Proof.
  intros H. pose proof (round_nearest x _ ltac:(lia) (round_sig_bits y ltac:(lia))) as A.
  pose proof (round_nearest y _ ltac:(lia) (round_sig_bits x ltac:(lia))) as B.
  destruct (Z_le_gt_dec (round_sig p x) (round_sig p y)); auto. exfalso.
  assert (x = y) by lia. subst. lia.
Qed.
Lemma round_sig_id y : 0 <= y -> sig_bits y -> round_sig p y = y.
Proof. intros H0 H. pose proof (round_nearest y y H0 H). lia. Qed.
End Round.

(** ** Patterns *)
Section Fmt.
Variable F : fmt.
Hypothesis HF : ieee F.
Notation m := (Z.of_nat (fbits F)).
Notation e := (Z.of_nat (ebits F)).
Notation B := (bias F).
(** Units per one. *)
Notation D := (2 ^ (B - 1 + m)).

Lemma e_ge : 2 <= e. Proof. destruct HF. lia. Qed.
Lemma m_ge : 1 <= m. Proof. destruct HF as (_ & _ & ?). lia. Qed.
Lemma bias_ge : 1 <= B /\ m + 1 <= B. Proof. destruct HF as (? & ? & ?). lia. Qed.
Lemma pow_e : 2 ^ e = 2 * (B + 1).
Proof. unfold bias. pose proof e_ge. rewrite Z.sub_add, <- Z.pow_succ_r by lia. f_equal. lia. Qed.
Lemma D_pos : 0 < D. Proof. pose proof bias_ge. apply Z.pow_pos_nonneg; lia. Qed.
Lemma pm : 0 < 2 ^ m. Proof. apply Z.pow_pos_nonneg; lia. Qed.
Lemma pe : 0 < 2 ^ e. Proof. apply Z.pow_pos_nonneg; lia. Qed.
Lemma pem : 2 ^ (e + m) = 2 ^ e * 2 ^ m. Proof. apply Z.pow_add_r; lia. Qed.
Lemma p1em : 2 ^ (1 + e + m) = 2 * 2 ^ (e + m).
Proof. rewrite <- Z.pow_succ_r by lia. f_equal. lia. Qed.

Lemma sign_leb b : pattern_of F b -> sign_of F b = (2 ^ (e + m) <=? b).
Proof.
  intros [H0 H]. rewrite p1em in H. assert (0 < 2 ^ (e + m)) by (apply Z.pow_pos_nonneg; lia).
  unfold sign_of. rewrite Z.testbit_odd, Z.shiftr_div_pow2 by lia.
  destruct (Z.leb_spec (2 ^ (e + m)) b).
  - assert (b / 2 ^ (e + m) = 1) as ->; auto. symmetry. apply Z.div_unique with (b - 2 ^ (e + m)); lia.
  - rewrite Z.div_small by lia. auto.
Qed.

Lemma encode_fields neg E f : 0 <= E < 2 ^ e -> 0 <= f < 2 ^ m ->
  let b := fp_encode F neg E f in
  pattern_of F b /\ sign_of F b = neg /\ exponent_of F b = E /\ fraction_of F b = f.
Proof.
  intros HE Hf. cbn zeta. pose proof pm. pose proof pe. pose proof pem. pose proof p1em.
  remember (fp_encode F neg E f) as b eqn:Eb. unfold fp_encode in Eb.
  assert (0 <= E * 2 ^ m + f < 2 ^ (e + m)) as R by nia.
  assert (pattern_of F b) as P. { unfold pattern_of. destruct neg; lia. }
  split; auto. rewrite sign_leb by auto. split.
  { destruct neg; [apply Z.leb_le|apply Z.leb_gt]; lia. }
  unfold exponent_of, fraction_of.
  assert (b = ((if neg then 2 ^ e else 0) + E) * 2 ^ m + f) as -> by (destruct neg; lia).
  rewrite Z.div_add_l, (Z.div_small f), Z.add_0_r by lia.
  rewrite (Z.add_comm _ f), Z.mod_add, (Z.mod_small f) by lia.
  split; auto. destruct neg; [|rewrite Z.add_0_l, Z.mod_small; lia].
  replace (2 ^ e + E) with (E + 1 * 2 ^ e) by lia. rewrite Z.mod_add, Z.mod_small; lia.
Qed.

(** Units of a finite pattern, by its fields. *)
Definition units (neg : bool) (E f : Z) : Z :=
  let a := if E =? 0 then f else (2 ^ m + f) * 2 ^ (E - 1) in if neg then - a else a.

Lemma decode_fields b : pattern_of F b ->
  fp_decode F b = if exponent_of F b =? 2 ^ e - 1 then if fraction_of F b =? 0 then DInf (sign_of F b) else DNan
                  else DFin (units (sign_of F b) (exponent_of F b) (fraction_of F b)).
Proof. intros H. rewrite sign_leb by auto. reflexivity. Qed.

Lemma decode_encode neg E f : 0 <= E < 2 ^ e -> 0 <= f < 2 ^ m ->
  fp_decode F (fp_encode F neg E f) =
  if E =? 2 ^ e - 1 then if f =? 0 then DInf neg else DNan else DFin (units neg E f).
Proof.
  intros HE Hf. destruct (encode_fields neg E f HE Hf) as (P & A1 & A2 & A3).
  rewrite decode_fields, A1, A2, A3 by auto. reflexivity.
Qed.

Lemma exp_range b : 0 <= exponent_of F b < 2 ^ e.
Proof. apply Z.mod_pos_bound, pe. Qed.
Lemma frac_range b : 0 <= fraction_of F b < 2 ^ m.
Proof. apply Z.mod_pos_bound, pm. Qed.

Lemma q2_nz k : ~ (2 ^ k == 0)%Q.
Proof. apply Qpower_not_0. discriminate. Qed.
Lemma inj_pow k : 0 <= k -> (inject_Z (2 ^ k) == 2 ^ k)%Q.
Proof. intros H. rewrite Zpower_Qpower by auto. reflexivity. Qed.

Lemma units_q (neg : bool) (E f : Z) : 0 <= E ->
  (inject_Z (if neg then -1 else 1) * (inject_Z (if (E =? 0)%Z then 0 else 1) + inject_Z f / 2 ^ m) *
     2 ^ (Z.max 1 E - B) == frac (units neg E f) D)%Q.
Proof.
  intros HE. pose proof bias_ge. pose proof m_ge. unfold frac, units.
  assert (Z.max 1 E - B = (Z.max 1 E - 1) + - (B - 1)) as -> by lia.
  rewrite Qpower_plus, Qpower_opp by discriminate.
  rewrite Z.pow_add_r, inject_Z_mult, !inj_pow by lia.
  pose proof (q2_nz m). pose proof (q2_nz (B - 1)).
  destruct (Z.eqb_spec E 0) as [->|]; destruct neg;
    rewrite ?inject_Z_opp, ?inject_Z_mult, ?inject_Z_plus, ?inj_pow by lia.
  - change (Z.max 1 0 - 1) with 0. change (2 ^ 0)%Q with 1%Q. change (inject_Z (-1)) with (-1)%Q. change (inject_Z 0) with 0%Q. field. auto.
  - change (Z.max 1 0 - 1) with 0. change (2 ^ 0)%Q with 1%Q. change (inject_Z 1) with 1%Q. change (inject_Z 0) with 0%Q. field. auto.
  - rewrite Z.max_r by lia. change (inject_Z (-1)) with (-1)%Q. change (inject_Z 1) with 1%Q. field. auto.
  - rewrite Z.max_r by lia. change (inject_Z 1) with 1%Q. field. auto.
Qed.

Lemma num_iff b q : pattern_of F b ->
  is_num F b q <-> exists u, fp_decode F b = DFin u /\ (q == frac u D)%Q.
Proof.
  intros P. rewrite decode_fields by auto. unfold is_num. pose proof (exp_range b) as RE.
  destruct (Z.eqb_spec (exponent_of F b) (2 ^ e - 1)) as [Ee|Ee].
  - split; [intros [N _]; contradiction|]. intros (u & C & _). destruct (fraction_of F b =? 0); discriminate.
  - rewrite units_q by lia. split.
    + intros [_ Eq]. eexists. split; [reflexivity|exact Eq].
    + intros (u & C & Eq). injection C as <-. auto.
Qed.
Lemma nan_iff b : pattern_of F b -> is_nan F b <-> fp_decode F b = DNan.
Proof.
  intros P. rewrite decode_fields by auto. unfold is_nan.
  destruct (Z.eqb_spec (exponent_of F b) (2 ^ e - 1)), (Z.eqb_spec (fraction_of F b) 0); split; try tauto; try discriminate; auto.
Qed.
Lemma inf_iff b neg : pattern_of F b -> is_inf F neg b <-> fp_decode F b = DInf neg.
Proof.
  intros P. rewrite decode_fields by auto. unfold is_inf.
  destruct (Z.eqb_spec (exponent_of F b) (2 ^ e - 1)), (Z.eqb_spec (fraction_of F b) 0);
    split; try tauto; try discriminate; try (intros (_ & _ & ->); reflexivity).
  intros E. injection E. auto.
Qed.

(** Every finite pattern is below [2^(bias+1)] in magnitude. *)
Lemma units_bound neg E f : 0 <= E < 2 ^ e - 1 -> 0 <= f < 2 ^ m ->
  Z.abs (units neg E f) <= (2 * 2 ^ m - 1) * 2 ^ (2 ^ e - 3).
Proof.
  intros HE Hf. pose proof pm. pose proof pow_e. pose proof bias_ge. unfold units.
  assert (0 <= (if E =? 0 then f else (2 ^ m + f) * 2 ^ (E - 1)) <= (2 * 2 ^ m - 1) * 2 ^ (2 ^ e - 3)) as R.
  { destruct (Z.eqb_spec E 0) as [E0|E0].
    - split; [lia|]. assert (1 <= 2 ^ (2 ^ e - 3)) by (apply (Z.pow_le_mono_r 2 0); lia). nia.
    - assert (0 < 2 ^ (E - 1)) by (apply Z.pow_pos_nonneg; lia).
      assert (2 ^ (E - 1) <= 2 ^ (2 ^ e - 3)) by (apply Z.pow_le_mono_r; lia).
      split; [nia|]. apply Z.mul_le_mono_nonneg; lia. }
  destruct neg; lia.
Qed.

Lemma frac_D_le a b : (frac a D <= frac b D)%Q <-> a <= b.
Proof. pose proof D_pos. rewrite frac_le by auto. nia. Qed.
Lemma frac_D_lt a b : (frac a D < frac b D)%Q <-> a < b.
Proof. pose proof D_pos. rewrite frac_lt by auto. nia. Qed.
Lemma frac_D_eq a b : (frac a D == frac b D)%Q <-> a = b.
Proof. pose proof D_pos. rewrite frac_eq by lia. nia. Qed.
Lemma frac_D_0 : (frac 0 D == 0)%Q.
Proof. pose proof D_pos. change 0%Q with (frac 0 1). rewrite frac_eq; lia. Qed.
Lemma frac_D_int z : (frac (z * D) D == inject_Z z)%Q.
Proof. pose proof D_pos. rewrite <- frac_int, frac_eq; lia. Qed.
End Fmt.

(** ** Integers to floats *)

Lemma round_nearest_scaled p x n s d : 1 <= p -> 0 <= x -> 0 <= n < 2 ^ p -> 0 <= s -> 0 <= d ->
  Z.abs (round_sig p x - x) * 2 ^ d <= Z.abs (n * 2 ^ s - x * 2 ^ d).
Proof.
  intros Hp1 H Hn Hs Hd0. pose proof (pow_p p Hp1). assert (0 < 2 ^ (p - 1)) by (apply Z.pow_pos_nonneg; lia).
  assert (0 < 2 ^ d) by (apply Z.pow_pos_nonneg; lia). assert (0 < 2 ^ s) by (apply Z.pow_pos_nonneg; lia).
  destruct (Z_lt_ge_dec x (2 ^ p)).
  - rewrite round_small by lia. rewrite Z.sub_diag. cbn [Z.abs]. lia.
  - destruct (round_shape p Hp1 x) as (He & q & r & k & E & Hr & Hq & -> & Hm & Hd & _); [lia|].
    remember (Z.log2 x - (p - 1)) as e. assert (0 < 2 ^ e) as Hp by (apply Z.pow_pos_nonneg; lia).
    assert (forall j, Z.abs (k * 2 ^ e - x) <= Z.abs (j * 2 ^ e - x)) as Hk.
    { intros j. destruct (Z.eq_dec j k) as [->|]; [lia|]. assert (2 ^ e <= Z.abs (j * 2 ^ e - k * 2 ^ e)).
      { rewrite <- Z.mul_sub_distr_r, Z.abs_mul, (Z.abs_eq (2 ^ e)) by lia. assert (1 <= Z.abs (j - k)) by lia. nia. }
      lia. }
    destruct (Z_le_gt_dec (e + d) s).
    + assert (2 ^ s = 2 ^ (s - e - d) * 2 ^ e * 2 ^ d) as -> by (rewrite <- !Z.pow_add_r by lia; f_equal; lia).
      rewrite !Z.mul_assoc, <- Z.mul_sub_distr_r, Z.abs_mul, (Z.abs_eq (2 ^ d)) by lia.
      apply Z.mul_le_mono_nonneg_r; [lia|]. apply Hk.
    + assert (n * 2 ^ s <= 2 ^ (p - 1) * 2 ^ e * 2 ^ d).
      { assert (2 ^ (p - 1) * 2 ^ e * 2 ^ d = 2 ^ p * 2 ^ s * 2 ^ (e + d - s - 1)) as ->
          by (rewrite <- !Z.pow_add_r by lia; f_equal; lia).
        assert (1 <= 2 ^ (e + d - s - 1)) by (apply (Z.pow_le_mono_r 2 0); lia).
        assert (n * 2 ^ s <= 2 ^ p * 2 ^ s) by (apply Z.mul_le_mono_nonneg_r; lia). nia. }
      specialize (Hk (2 ^ (p - 1))). assert (2 ^ (p - 1) * 2 ^ e <= x) as Hx by nia.
      assert (Z.abs (k * 2 ^ e - x) * 2 ^ d <= (x - 2 ^ (p - 1) * 2 ^ e) * 2 ^ d)
        by (apply Z.mul_le_mono_nonneg_r; lia). lia.
Qed.

Section OfInt.
Variable F : fmt.
Hypothesis HF : ieee F.
Notation m := (Z.of_nat (fbits F)).
Notation e := (Z.of_nat (ebits F)).
Notation B := (bias F).
Notation D := (2 ^ (B - 1 + m)).
Notation rnd v := (round_sig (m + 1) (Z.abs v)).

Lemma of_int_finite v : rnd v < 2 ^ (B + 1) ->
  pattern_of F (fl_of_int F v) /\
  fp_decode F (fl_of_int F v) = DFin (Z.sgn v * rnd v * D).
Proof.
  intros Hlt. pose proof (m_ge F HF) as Hm. pose proof (e_ge F HF) as He. pose proof (bias_ge F HF) as Hb.
  pose proof (pm F). pose proof (pe F). pose proof (pow_e F HF) as Hpe.
  pose proof (round_nonneg (m + 1) ltac:(lia) (Z.abs v) ltac:(lia)) as Hy0.
  pose proof (round_sig_bits (m + 1) ltac:(lia) (Z.abs v) ltac:(lia)) as (n & s & Hn & Hn2 & Hs).
  remember (rnd v) as y eqn:Ey. unfold fl_of_int. fold (bias F). rewrite <- Ey.
  destruct (Z.eqb_spec y 0) as [Y0|Y0].
  - rewrite Y0. assert (0 < 2 ^ (1 + e + m)) by (apply Z.pow_pos_nonneg; lia).
    assert (pattern_of F 0) as P by (unfold pattern_of; lia). split; auto.
    rewrite decode_fields by auto. unfold exponent_of, fraction_of, units, sign_of.
    rewrite Z.div_0_l, !Z.mod_0_l, Z.testbit_0_l by lia.
    destruct (Z.eqb_spec 0 (2 ^ e - 1)); [lia|]. cbn [Z.eqb]. f_equal. lia.
  - rewrite (proj2 (Z.leb_gt _ _)) by auto.
    assert (0 < y) as Yp by lia.
    destruct (Z.log2_spec y Yp) as [L1 L2]. pose proof (Z.log2_nonneg y) as L0.
    assert (Z.log2 y <= B) as LB.
    { assert (Z.log2 y < B + 1) by (apply Z.log2_lt_pow2; lia). lia. }
    remember (Z.log2 y) as k eqn:Ek.
    remember (if k <=? m then y * 2 ^ (m - k) else y / 2 ^ (k - m)) as sg eqn:Esg.
    assert (sg * 2 ^ k = y * 2 ^ m /\ 2 ^ m <= sg < 2 * 2 ^ m) as [S1 S2].
    { rewrite Z.pow_succ_r in L2 by lia. assert (0 < 2 ^ k) by (apply Z.pow_pos_nonneg; lia).
      destruct (Z.leb_spec k m).
      - assert (2 ^ m = 2 ^ (m - k) * 2 ^ k) as -> by (rewrite <- Z.pow_add_r by lia; f_equal; lia).
        assert (0 < 2 ^ (m - k)) by (apply Z.pow_pos_nonneg; lia). subst sg. split; [ring|nia].
      - (* [y] is a multiple of [2^(k-m)] *)
        assert (2 ^ k = 2 ^ (k - m) * 2 ^ m) as E by (rewrite <- Z.pow_add_r by lia; f_equal; lia).
        assert (0 < 2 ^ (k - m)) by (apply Z.pow_pos_nonneg; lia).
        assert (exists z, y = z * 2 ^ (k - m)) as [z Hz].
        { destruct (Z_lt_ge_dec s (k - m)).
          - exfalso. assert (n * 2 ^ s < 2 ^ (m + 1) * 2 ^ s) as C.
            { apply Z.mul_lt_mono_pos_r; [apply Z.pow_pos_nonneg; lia|lia]. }
            rewrite <- Z.pow_add_r in C by lia.
            assert (2 ^ (m + 1 + s) <= 2 ^ k) by (apply Z.pow_le_mono_r; lia). lia.
          - exists (n * 2 ^ (s - (k - m))). rewrite Hn, <- Z.mul_assoc, <- Z.pow_add_r by lia. do 2 f_equal. lia. }
        rewrite Hz, Z.div_mul in Esg by lia. subst sg. rewrite E, Hz. split; [ring|]. nia. }
    destruct (encode_fields F (v <? 0) (k + B) (sg - 2 ^ m)) as (P & _); [lia|lia|].
    split; auto. rewrite (decode_encode F) by lia.
    rewrite (proj2 (Z.eqb_neq (k + B) _)) by lia. unfold units. rewrite (proj2 (Z.eqb_neq (k + B) 0)) by lia.
    assert ((2 ^ m + (sg - 2 ^ m)) * 2 ^ (k + B - 1) = y * D) as ->.
    { replace (2 ^ m + (sg - 2 ^ m)) with sg by ring.
      replace (k + B - 1) with (k + (B - 1)) by lia. rewrite !Z.pow_add_r by lia.
      transitivity (sg * 2 ^ k * 2 ^ (B - 1)); [ring|]. rewrite S1. ring. }
    assert (v <> 0) by (intros ->; cbn in Ey; unfold round_sig in Ey; cbn [Z.log2] in Ey;
       rewrite (proj2 (Z.leb_le _ _)) in Ey by lia; lia).
    destruct (Z.ltb_spec v 0); f_equal; [rewrite Z.sgn_neg by lia|rewrite Z.sgn_pos by lia]; ring.
Qed.

Lemma of_int_inf v : 2 ^ (B + 1) <= rnd v ->
  pattern_of F (fl_of_int F v) /\ fp_decode F (fl_of_int F v) = DInf (v <? 0).
Proof.
  intros Hge. pose proof (bias_ge F HF). pose proof (pm F). pose proof (pe F). pose proof (pow_e F HF).
  assert (0 < 2 ^ (B + 1)) by (apply Z.pow_pos_nonneg; lia).
  unfold fl_of_int. fold (bias F). rewrite (proj2 (Z.eqb_neq _ _)) by lia.
  rewrite (proj2 (Z.leb_le _ _)) by auto.
  destruct (encode_fields F (v <? 0) (2 ^ e - 1) 0) as (P & _); [lia|lia|]. split; auto.
  rewrite decode_encode by lia. rewrite !Z.eqb_refl. reflexivity.
Qed.

(** The finite results are those of integers less than half a unit above the largest float. *)
Definition int_limit : Z := 2 ^ (B + 1) - 2 ^ (B - m - 1).
Lemma limit_iff v : Z.abs v < int_limit <-> rnd v < 2 ^ (B + 1).
Proof.
  pose proof (m_ge F HF) as Hm. pose proof (bias_ge F HF) as Hb. unfold int_limit.
  assert (0 < 2 ^ (B - m - 1)) as P1 by (apply Z.pow_pos_nonneg; lia).
  assert (2 ^ (B - m) = 2 * 2 ^ (B - m - 1)) as E1 by (rewrite <- Z.pow_succ_r by lia; f_equal; lia).
  assert (2 ^ (B + 1) = 2 ^ (m + 1) * 2 ^ (B - m)) as E2 by (rewrite <- Z.pow_add_r by lia; f_equal; lia).
  assert (4 <= 2 ^ (m + 1)) as P2 by (apply (Z.pow_le_mono_r 2 2); lia).
  split; intros H.
  - destruct (Z_lt_ge_dec (rnd v) (2 ^ (B + 1))); auto. exfalso.
    assert (sig_bits (m + 1) ((2 ^ (m + 1) - 1) * 2 ^ (B - m))) as S
      by (exists (2 ^ (m + 1) - 1), (B - m); lia).
    pose proof (round_nearest (m + 1) ltac:(lia) (Z.abs v) _ ltac:(lia) S) as N. lia.
  - destruct (Z_lt_ge_dec (Z.abs v) (2 ^ (B + 1) - 2 ^ (B - m - 1))) as [|G]; auto. exfalso.
    assert (2 ^ (B + 1) <= round_sig (m + 1) (2 ^ (B + 1) - 2 ^ (B - m - 1))) as R.
    { (* a tie, resolved upward *)
      remember (2 ^ (B + 1) - 2 ^ (B - m - 1)) as x.
      assert (Z.log2 x = B) as L.
      { apply Z.log2_unique; [lia|]. rewrite Z.pow_succ_r by lia.
        assert (2 ^ (B + 1) = 2 * 2 ^ B) by (rewrite <- Z.pow_succ_r by lia; f_equal; lia).
        assert (2 ^ B = 2 ^ m * 2 ^ (B - m)) by (rewrite <- Z.pow_add_r by lia; f_equal; lia).
        assert (2 ^ 1 <= 2 ^ m) by (apply Z.pow_le_mono_r; lia). nia. }
      unfold round_sig. rewrite L. replace (B - (m + 1 - 1)) with (B - m) by lia.
      rewrite (proj2 (Z.leb_gt (B - m) 0)) by lia.
      assert (x = (2 ^ (m + 1) - 1) * 2 ^ (B - m) + 2 ^ (B - m - 1)) as -> by lia.
      rewrite Z.div_add_l, (Z.div_small (2 ^ (B - m - 1))), Z.add_0_r by lia.
      rewrite (Z.add_comm _ (2 ^ (B - m - 1))), Z.mod_add, Z.mod_small by lia.
      rewrite Z.ltb_irrefl, Z.eqb_refl. cbn [orb andb].
      assert (Z.odd (2 ^ (m + 1) - 1) = true) as ->.
      { replace (m + 1) with (Z.succ m) by lia. rewrite Z.pow_succ_r, Z.odd_sub, Z.odd_mul by lia. reflexivity. }
      nia. }
    assert (2 ^ (B - m - 1) <= 2 ^ (B + 1)) by nia.
    pose proof (round_mono (m + 1) ltac:(lia) (2 ^ (B + 1) - 2 ^ (B - m - 1)) (Z.abs v) ltac:(lia)). lia.
Qed.

(** No finite float is nearer. *)
Lemma of_int_nearest v b u : pattern_of F b -> fp_decode F b = DFin u ->
  Z.abs (Z.sgn v * rnd v * D - v * D) <= Z.abs (u - v * D).
Proof.
  intros P Hd. pose proof (m_ge F HF) as Hm. pose proof (bias_ge F HF) as Hb. pose proof (D_pos F HF) as HD.
  pose proof (pm F) as HPm. pose proof (exp_range F b) as RE. pose proof (frac_range F b) as RF.
  rewrite decode_fields in Hd by auto.
  destruct (exponent_of F b =? 2 ^ e - 1); [destruct (fraction_of F b =? 0); discriminate|].
  injection Hd as <-. unfold units.
  assert (exists n s, (if exponent_of F b =? 0 then fraction_of F b else (2 ^ m + fraction_of F b) * 2 ^ (exponent_of F b - 1))
    = n * 2 ^ s /\ 0 <= n < 2 ^ (m + 1) /\ 0 <= s) as (n & s & -> & Hn & Hs).
  { assert (2 ^ (m + 1) = 2 * 2 ^ m) as E1 by (rewrite <- Z.pow_succ_r by lia; f_equal; lia).
    destruct (Z.eqb_spec (exponent_of F b) 0).
    - exists (fraction_of F b), 0. rewrite Z.pow_0_r. lia.
    - exists (2 ^ m + fraction_of F b), (exponent_of F b - 1). lia. }
  pose proof (round_nearest_scaled (m + 1) (Z.abs v) n s (B - 1 + m) ltac:(lia) ltac:(lia) Hn Hs ltac:(lia)) as N.
  assert (0 <= n * 2 ^ s) by (apply Z.mul_nonneg_nonneg; [lia|apply Z.pow_nonneg; lia]).
  assert (Z.abs (Z.sgn v * rnd v * D - v * D) = Z.abs (rnd v - Z.abs v) * D) as ->.
  { rewrite <- Z.mul_sub_distr_r, Z.abs_mul, (Z.abs_eq D) by lia. f_equal.
    destruct (Z.lt_trichotomy v 0) as [L|[->|L]].
    - rewrite Z.sgn_neg by lia. lia.
    - cbn. unfold round_sig. cbn [Z.log2]. rewrite (proj2 (Z.leb_le _ _)) by lia. reflexivity.
    - rewrite Z.sgn_pos by lia. lia. }
  etransitivity; [exact N|]. assert (0 <= Z.abs v * D) by nia.
  assert (v * D = Z.abs v * D \/ v * D = - (Z.abs v * D)) as [->| ->] by (destruct (Z.abs_eq_or_opp v) as [->| ->]; lia);
    destruct (sign_of F b); lia.
Qed.
End OfInt.
