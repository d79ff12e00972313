(** C112 and C113: the bit patterns of f32 and f64 are the interchange formats of Flocq, and [as] from
    an integer is Flocq's rounding to nearest even. *)
From Coq Require Import ZArith QArith Reals Qreals Bool Lia Lra.
From Flocq Require Import Core IEEE754.Binary IEEE754.Bits.
From Verif Require Import Base Words FpModel RealSpec FpSpec FpProofs FpFlocq PropFloat.
Local Open Scope Z_scope.

Section Any.
Variable F : fmt.
Hypothesis HF : ieee F.
Notation m := (Z.of_nat (fbits F)).
Notation e := (Z.of_nat (ebits F)).
Variables (Hm : 0 < m) (He : 0 < e) (Hmax : m + 1 < 2 ^ (e - 1)).

Lemma Q2R_frac u d : 0 < d -> Q2R (frac u d) = (IZR u / IZR d)%R.
Proof.
  intros Hd. unfold frac, Qdiv. rewrite Q2R_mult, Q2R_inv. unfold Q2R, inject_Z. cbn [Qnum Qden]. change (IZR (Z.pos 1)) with 1%R. field.
  - apply not_0_IZR. lia.
  - intros E. unfold inject_Z, Qeq in E. cbn in E. lia.
Qed.

Lemma tie_patterns b : pattern_of F b -> let x := binary_float_of_bits m e Hm He Hmax b in
  (FpSpec.is_nan F b <-> Binary.is_nan _ _ x = true) /\
  (forall s, is_inf F s b <-> x = B754_infinity _ _ s) /\
  (forall q, is_num F b q <-> is_finite _ _ x = true /\ B2R _ _ x = Q2R q).
Proof.
  intros P x. pose proof (tie_decode F HF Hm He Hmax b P) as T. fold x in T. split; [|split].
  - rewrite nan_iff by auto. destruct (fp_decode F b) as [|s|u].
    + tauto.
    + rewrite T. split; discriminate.
    + destruct T as [T _]. split; [discriminate|]. destruct x; discriminate.
  - intros s. rewrite inf_iff by auto. destruct (fp_decode F b) as [|t|u].
    + split; [discriminate|]. intros ->. discriminate T.
    + rewrite T. split; congruence.
    + destruct T as [T _]. split; [discriminate|]. intros ->. discriminate T.
  - intros q. rewrite num_iff by auto. destruct (fp_decode F b) as [|t|u].
    + split; [intros (? & ? & _); discriminate|]. intros [G _]. destruct x; discriminate.
    + rewrite T. split; [intros (? & ? & _); discriminate|]. intros [G _]. discriminate G.
    + destruct T as (T1 & _ & T2). rewrite T2.
      assert (Q2R (frac u (2 ^ (bias F - 1 + m))) = (IZR u * bpow radix2 (1 - bias F - m))%R) as E.
      { rewrite Q2R_frac by (apply D_pos; auto). unfold Rdiv. f_equal. replace (1 - bias F - m) with (- (bias F - 1 + m)) by lia. rewrite bpow_opp. f_equal.
        apply (IZR_Zpower radix2). pose proof (bias_ge F HF). lia. }
      split.
      * intros (u' & Eu & Q). injection Eu as <-. split; auto. rewrite <- E. symmetry. apply Qeq_eqR. exact Q.
      * intros [_ Q]. exists u. split; auto. apply eqR_Qeq. rewrite <- Q, E. reflexivity.
Qed.
End Any.

(** A pattern of 64 bits is a NaN, an infinity or the number [q] exactly when Flocq's binary64 of these bits is. *)
Theorem C112_doubles : forall b, 0 <= b < 2 ^ 64 -> let x := b64_of_bits b in
  (FpSpec.is_nan f64_fmt b <-> Binary.is_nan 53 1024 x = true) /\
  (forall s, is_inf f64_fmt s b <-> x = B754_infinity 53 1024 s) /\
  (forall q, is_num f64_fmt b q <-> is_finite 53 1024 x = true /\ B2R 53 1024 x = Q2R q).
Proof. intros b H. exact (tie_patterns f64_fmt ieee_f64 eq_refl eq_refl eq_refl b H). Qed.
Print Assumptions C112_doubles.

Theorem C112_singles : forall b, 0 <= b < 2 ^ 32 -> let x := b32_of_bits b in
  (FpSpec.is_nan f32_fmt b <-> Binary.is_nan 24 128 x = true) /\
  (forall s, is_inf f32_fmt s b <-> x = B754_infinity 24 128 s) /\
  (forall q, is_num f32_fmt b q <-> is_finite 24 128 x = true /\ B2R 24 128 x = Q2R q).
Proof. intros b H. exact (tie_patterns f32_fmt ieee_f32 eq_refl eq_refl eq_refl b H). Qed.
Print Assumptions C112_singles.

(** Comparing patterns is comparing binary64 and binary32. *)
Theorem C112_compare :
  (forall a b, 0 <= a < 2 ^ 64 -> 0 <= b < 2 ^ 64 -> fp_cmp f64_fmt a b = Bcompare 53 1024 (b64_of_bits a) (b64_of_bits b)) /\
  (forall a b, 0 <= a < 2 ^ 32 -> 0 <= b < 2 ^ 32 -> fp_cmp f32_fmt a b = Bcompare 24 128 (b32_of_bits a) (b32_of_bits b)).
Proof.
  split; intros a b Ha Hb.
  - exact (tie_compare f64_fmt ieee_f64 eq_refl eq_refl eq_refl a b Ha Hb).
  - exact (tie_compare f32_fmt ieee_f32 eq_refl eq_refl eq_refl a b Ha Hb).
Qed.
Print Assumptions C112_compare.

(** An integer of any size becomes the pattern of that integer rounded to nearest, ties to even. *)
Theorem C113_rounding : forall v : Z,
  fl_of_int f64_fmt v = bits_of_b64 (binary_normalize 53 1024 eq_refl eq_refl BinarySingleNaN.mode_NE v 0 false) /\
  fl_of_int f32_fmt v = bits_of_b32 (binary_normalize 24 128 eq_refl eq_refl BinarySingleNaN.mode_NE v 0 false).
Proof.
  intros v. split.
  - exact (tie_of_int f64_fmt ieee_f64 eq_refl eq_refl eq_refl eq_refl eq_refl v).
  - exact (tie_of_int f32_fmt ieee_f32 eq_refl eq_refl eq_refl eq_refl eq_refl v).
Qed.
Print Assumptions C113_rounding.

Example C112_flocq_demo : B2R 53 1024 (b64_of_bits (4611686018427387904 + 2 ^ 51)) = 3%R /\ is_num f64_fmt (4611686018427387904 + 2 ^ 51) 3 /\
  fl_of_int f64_fmt (2 ^ 53 + 1) = fl_of_int f64_fmt (2 ^ 53) /\ fl_of_int f32_fmt (2 ^ 128 - 1) = 255 * 2 ^ 23.
Proof.
  assert (is_num f64_fmt (4611686018427387904 + 2 ^ 51) 3) as N by (split; [vm_compute; discriminate|vm_compute; reflexivity]).
  split; [|split; [exact N|split; vm_compute; reflexivity]].
  assert (R : 0 <= 4611686018427387904 + 2 ^ 51 < 2 ^ 64) by (split; [vm_compute; discriminate|reflexivity]).
  destruct (C112_doubles _ R) as (_ & _ & H). destruct (proj1 (H _) N) as [_ ->]. unfold Q2R. cbn [Qnum Qden]. lra.
Qed.
