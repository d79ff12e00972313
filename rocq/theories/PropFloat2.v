(** Property C121: rounding of [f32] and [f64] to whole numbers, and their fractional part. *)
From Coq Require Import ZArith QArith Qround Qabs List Bool Lia.
From Verif Require Import Base Words PropPrim RealSpec RealProofs FpModel FpSpec FpProofs FpRoundProofs PropFloat.
Local Open Scope Z_scope.

Section Facts.
Variable F : fmt.
Hypothesis HF : ieee F.
Notation D := (2 ^ (bias F - 1 + Z.of_nat (fbits F))).

Lemma div_near u : Z.abs (u / D * D - u) < D.
Proof. pose proof (D_pos F HF). pose proof (Z.div_mod u D ltac:(lia)). pose proof (Z.mod_pos_bound u D ltac:(lia)). lia. Qed.
Lemma ceil_near u : Z.abs (- (- u / D) * D - u) < D.
Proof. pose proof (div_near (- u)). lia. Qed.
Lemma quot_near u : Z.abs (Z.quot u D * D - u) < D.
Proof.
  pose proof (D_pos F HF). pose proof (Z.quot_rem u D ltac:(lia)). pose proof (Z.rem_bound_abs u D ltac:(lia)).
  rewrite (Z.abs_eq D) in * by lia. lia.
Qed.
Definition rounded u := Z.sgn u * ((2 * Z.abs u + D) / (2 * D)).
Lemma rounded_near u : 2 * Z.abs (rounded u * D - u) <= D /\
  (forall j, 2 * Z.abs (j * D - u) <= D -> Z.abs j <= Z.abs (rounded u)).
Proof.
  pose proof (D_pos F HF). unfold rounded. pose proof (Z.div_mod (2 * Z.abs u + D) (2 * D) ltac:(lia)).
  pose proof (Z.mod_pos_bound (2 * Z.abs u + D) (2 * D) ltac:(lia)).
  assert (0 <= (2 * Z.abs u + D) / (2 * D)) by (apply Z.div_pos; lia).
  remember ((2 * Z.abs u + D) / (2 * D)) as k. remember ((2 * Z.abs u + D) mod (2 * D)) as r.
  split; [destruct (Z.sgn_spec u) as [[? ->]|[[? ->]|[? ->]]]; try lia; subst u; nia|].
  intros j Hj. assert (Z.abs (Z.sgn u * k) = k \/ u = 0) as [->| ->]
    by (destruct (Z.sgn_spec u) as [[? ->]|[[? ->]|[? ->]]]; lia).
  - assert (Z.abs j * D < (k + 1) * D) as C. { rewrite <- (Z.abs_eq D) at 1 by lia. rewrite <- Z.abs_mul. nia. }
    apply (Z.mul_lt_mono_pos_r D) in C; lia.
  - rewrite Z.sub_0_r, Z.abs_mul, (Z.abs_eq D) in Hj by lia. nia.
Qed.

Lemma rounded_num f b q u : pattern_of F b -> fp_decode F b = DFin u -> (q == frac u D)%Q ->
  (forall u, Z.abs (f u * D - u) < D) ->
  pattern_of F (fl_rounded F f b) /\ is_num F (fl_rounded F f b) (inject_Z (f u)) /\
  sign_of F (fl_rounded F f b) = if f u =? 0 then sign_of F b else f u <? 0.
Proof.
  intros P Hd Hq Hf. unfold fl_rounded. rewrite Hd. destruct (whole_ok F HF b u (f u) P Hd (Hf u)) as (P1 & D1 & S1).
  split; auto. split; auto. apply (num_iff F HF _ _ P1). eexists. split; [exact D1|]. symmetry. apply frac_D_int. auto.
Qed.

Lemma sign_units b u : pattern_of F b -> fp_decode F b = DFin u ->
  (sign_of F b = true -> u <= 0) /\ (sign_of F b = false -> 0 <= u).
Proof.
  intros P Hd. rewrite decode_fields in Hd by auto. destruct (_ =? _); [destruct (_ =? _); discriminate|].
  injection Hd as <-. unfold units. pose proof (frac_range F b). pose proof (pm F).
  assert (0 <= if exponent_of F b =? 0 then fraction_of F b
               else (2 ^ Z.of_nat (fbits F) + fraction_of F b) * 2 ^ (exponent_of F b - 1)).
  { destruct (_ =? _); [lia|]. apply Z.mul_nonneg_nonneg; [lia|apply Z.pow_nonneg; lia]. }
  destruct (sign_of F b); split; intros; try discriminate; lia.
Qed.

Lemma near_sign f b u : pattern_of F b -> fp_decode F b = DFin u -> (forall u, Z.abs (f u * D - u) < D) ->
  (if f u =? 0 then sign_of F b else f u <? 0) = sign_of F b.
Proof.
  intros P Hd Hf. specialize (Hf u). pose proof (D_pos F HF). destruct (sign_units b u P Hd) as [S1 S2].
  destruct (Z.eqb_spec (f u) 0); auto. destruct (sign_of F b); [specialize (S1 eq_refl)|specialize (S2 eq_refl)];
    destruct (Z.ltb_spec (f u) 0); auto; exfalso; nia.
Qed.

Lemma rounded_near' u : Z.abs (rounded u * D - u) < D.
Proof. pose proof (D_pos F HF). pose proof (proj1 (rounded_near u)). lia. Qed.
End Facts.

(** [round] gives a nearest whole number, of two the one farther from zero; [trunc] goes toward
    zero and [fract] is the rest; all without rounding error. *)
Theorem C121_round_fract : forall F b q, ieee F -> pattern_of F b -> is_num F b q ->
  (exists k, is_num F (fl_round F b) (inject_Z k) /\ nearest q k /\ forall j, nearest q j -> Z.abs j <= Z.abs k) /\
  is_num F (fl_trunc F b) (inject_Z (toward_zero q)) /\
  is_num F (fl_fract F b) (q - inject_Z (toward_zero q)) /\
  pattern_of F (fl_round F b) /\ pattern_of F (fl_trunc F b) /\ pattern_of F (fl_fract F b).
Proof.
  intros F b q HF P Hq. pose proof (D_pos F HF) as HD. pose proof Hq as Hn. apply (num_iff F HF b q P) in Hq.
  destruct Hq as (u & Hd & Hq).
  assert (forall k, nearest q k <-> 2 * Z.abs (k * 2 ^ (bias F - 1 + Z.of_nat (fbits F)) - u) <= 2 ^ (bias F - 1 + Z.of_nat (fbits F))) as N.
  { intros k. assert (nearest q k <-> nearest (frac u (2 ^ (bias F - 1 + Z.of_nat (fbits F)))) k) as ->.
    { unfold nearest. split; intros H j; specialize (H j); [rewrite <- Hq|rewrite Hq]; exact H. }
    rewrite nearest_iff by auto. rewrite <- (Z.abs_opp (u - _)). rewrite Z.opp_sub_distr. replace (- u + k * 2 ^ (bias F - 1 + Z.of_nat (fbits F))) with (k * 2 ^ (bias F - 1 + Z.of_nat (fbits F)) - u) by ring. tauto. }
  destruct (rounded_num F HF (rounded F) b q u P Hd Hq (rounded_near' F HF)) as (P1 & N1 & _).
  destruct (rounded_num F HF (fun u => Z.quot u (2 ^ (bias F - 1 + Z.of_nat (fbits F)))) b q u P Hd Hq (quot_near F HF)) as (P2 & N2 & _).
  destruct (rounded_near F HF u) as [R1 R2]. destruct (fract_ok F HF b u P Hd) as [P3 D3].
  assert (toward_zero q = Z.quot u (2 ^ (bias F - 1 + Z.of_nat (fbits F)))) as ET.
  { rewrite (toward_zero_proper _ _ Hq). apply frac_toward_zero. lia. }
  split.
  { exists (rounded F u). split; [exact N1|]. split; [apply N; auto|]. intros j Hj. apply R2, N, Hj. }
  split; [rewrite ET; exact N2|]. split; [|split; [exact P1|split; [exact P2|exact P3]]].
  apply (num_iff F HF _ _ P3). eexists. split; [exact D3|]. rewrite ET, Hq.
  rewrite <- (frac_D_int F HF (Z.quot u _)). unfold frac.
  assert (~ inject_Z (2 ^ (bias F - 1 + Z.of_nat (fbits F))) == 0)%Q as NZ by (apply inj_nz; lia).
  rewrite Z.rem_eq by lia. unfold Z.sub. rewrite inject_Z_plus, inject_Z_opp. rewrite (Z.mul_comm _ (Z.quot _ _)). field. exact NZ.
Qed.
Print Assumptions C121_round_fract.

(** [floor] and [ceil] round down and up, [trunc] toward zero; on numbers of at least 0, where
    these agree with "toward 0", "away from 0" and "toward negative infinity", this is what the
    trait asks for.  Missing: negative numbers that are not whole. *)
Theorem C121_floor_ceil_partial : forall F b q, ieee F -> pattern_of F b -> is_num F b q ->
  is_num F (fl_floor F b) (inject_Z (Qfloor q)) /\ is_num F (fl_ceil F b) (inject_Z (Qceiling q)) /\
  pattern_of F (fl_floor F b) /\ pattern_of F (fl_ceil F b) /\
  ((0 <= q)%Q -> toward_zero q = Qfloor q /\ away_from_zero q = Qceiling q).
Proof.
  intros F b q HF P Hq. pose proof (D_pos F HF) as HD. apply (num_iff F HF b q P) in Hq. destruct Hq as (u & Hd & Hq).
  destruct (rounded_num F HF (fun u => u / 2 ^ (bias F - 1 + Z.of_nat (fbits F))) b q u P Hd Hq (div_near F HF)) as (P1 & N1 & _).
  destruct (rounded_num F HF (fun u => - (- u / 2 ^ (bias F - 1 + Z.of_nat (fbits F)))) b q u P Hd Hq (ceil_near F HF)) as (P2 & N2 & _).
  assert (Qfloor q = u / 2 ^ (bias F - 1 + Z.of_nat (fbits F))) as -> by (rewrite Hq; apply frac_floor).
  assert (Qceiling q = - (- u / 2 ^ (bias F - 1 + Z.of_nat (fbits F)))) as -> by (rewrite Hq; apply frac_ceil).
  split; [exact N1|]. split; [exact N2|]. split; [exact P1|]. split; [exact P2|]. intros H0.
  unfold toward_zero, away_from_zero. destruct (Qlt_le_dec q 0) as [L|_]; [apply Qlt_not_le in L; tauto|].
  split; rewrite Hq; [apply frac_floor|apply frac_ceil].
Qed.
Print Assumptions C121_floor_ceil_partial.

(** All four keep the sign bit, so negative zero stays negative; what is not finite is returned as
    it is, and an infinite float has no fractional part. *)
Theorem C121_signs : forall F b, ieee F -> pattern_of F b ->
  (forall q, is_num F b q -> sign_of F (fl_floor F b) = sign_of F b /\ sign_of F (fl_ceil F b) = sign_of F b /\
     sign_of F (fl_round F b) = sign_of F b /\ sign_of F (fl_trunc F b) = sign_of F b) /\
  (is_nan F b \/ (exists neg, is_inf F neg b) ->
     fl_floor F b = b /\ fl_ceil F b = b /\ fl_round F b = b /\ fl_trunc F b = b /\
     pattern_of F (fl_fract F b) /\ is_nan F (fl_fract F b)).
Proof.
  intros F b HF P. split.
  - intros q Hq. apply (num_iff F HF b q P) in Hq. destruct Hq as (u & Hd & Hq).
    assert (forall f, (forall u, Z.abs (f u * 2 ^ (bias F - 1 + Z.of_nat (fbits F)) - u) < 2 ^ (bias F - 1 + Z.of_nat (fbits F))) ->
      sign_of F (fl_rounded F f b) = sign_of F b) as K.
    { intros f Hf. destruct (rounded_num F HF f b q u P Hd Hq Hf) as (_ & _ & ->). apply near_sign; auto. }
    split; [apply K, div_near; auto|]. split; [apply K, ceil_near; auto|]. split; [apply K, rounded_near'; auto|apply K, quot_near; auto].
  - intros H. unfold fl_floor, fl_ceil, fl_round, fl_trunc, fl_rounded, fl_fract.
    destruct H as [H|[neg H]]; [pose proof H as H'; apply (nan_iff F b P) in H'|pose proof H as H'; apply (inf_iff F b neg P) in H'];
      rewrite H'; repeat split; auto; try apply P; try apply H.
    + destruct (encode_fields F false (2 ^ Z.of_nat (ebits F) - 1) (2 ^ (Z.of_nat (fbits F) - 1))) as (P1 & _);
        [pose proof (pe F); lia| |apply P1].
      pose proof (m_ge F HF). split; [apply Z.pow_nonneg; lia|apply Z.pow_lt_mono_r; lia].
    + destruct (encode_fields F false (2 ^ Z.of_nat (ebits F) - 1) (2 ^ (Z.of_nat (fbits F) - 1))) as (P1 & _);
        [pose proof (pe F); lia| |apply P1].
      pose proof (m_ge F HF). split; [apply Z.pow_nonneg; lia|apply Z.pow_lt_mono_r; lia].
    + destruct (encode_fields F false (2 ^ Z.of_nat (ebits F) - 1) (2 ^ (Z.of_nat (fbits F) - 1))) as (_ & _ & P1 & _);
        [pose proof (pe F); lia| |apply P1].
      pose proof (m_ge F HF). split; [apply Z.pow_nonneg; lia|apply Z.pow_lt_mono_r; lia].
    + destruct (encode_fields F false (2 ^ Z.of_nat (ebits F) - 1) (2 ^ (Z.of_nat (fbits F) - 1))) as (_ & _ & _ & ->);
        [pose proof (pe F); lia| |].
      * pose proof (m_ge F HF). split; [apply Z.pow_nonneg; lia|apply Z.pow_lt_mono_r; lia].
      * pose proof (m_ge F HF). assert (0 < 2 ^ (Z.of_nat (fbits F) - 1)) by (apply Z.pow_pos_nonneg; lia). lia.
Qed.
Print Assumptions C121_signs.

(** The trait says that [floor] rounds toward 0, [ceil] away from 0 and [trunc] toward negative
    infinity.  For [-1.5] they give -2, -1 and -1. *)
Theorem C121_direction_refuted : exists b q, pattern_of f32_fmt b /\ is_num f32_fmt b q /\
  (is_num f32_fmt (fl_floor f32_fmt b) (-2) /\ toward_zero q = -1) /\
  (is_num f32_fmt (fl_ceil f32_fmt b) (-1) /\ away_from_zero q = -2) /\
  (is_num f32_fmt (fl_trunc f32_fmt b) (-1) /\ Qfloor q = -2).
Proof.
  exists 3217031168, (-3 # 2)%Q. split; [split; vm_compute; congruence|].
  split; [split; [vm_compute; discriminate|vm_compute; reflexivity]|].
  repeat split; try (vm_compute; reflexivity); vm_compute; discriminate.
Qed.
Print Assumptions C121_direction_refuted.

Example C121_demo : (* 2.5 and -0.25 in f32, 1e300 in f64 *)
  is_num f32_fmt 1075838976 (5 # 2) /\ is_num f32_fmt (fl_round f32_fmt 1075838976) 3 /\
  is_num f32_fmt (fl_floor f32_fmt 1075838976) 2 /\ is_num f32_fmt (fl_fract f32_fmt 1075838976) (1 # 2) /\
  is_num f32_fmt 3196059648 (-1 # 4) /\ fl_ceil f32_fmt 3196059648 = 2 ^ 31 /\
  fl_fract f32_fmt 3196059648 = 3196059648 /\
  fl_trunc f64_fmt 9094988921128908178 = 9094988921128908178 /\ fl_fract f64_fmt 9094988921128908178 = 0.
Proof.
  repeat match goal with |- _ /\ _ => split end; match goal with
  | |- is_num _ _ _ => split; [vm_compute; discriminate|vm_compute; reflexivity]
  | |- _ => vm_compute; reflexivity end.
Qed.
