(** Properties C110-C114: bounds of integers and [NonZero] integers, byte conversions of
    primitives, bounds and signs of floats, casts between integers and floats.  A float is its
    bit pattern in a format [F]; [is_num F b q] says the pattern is finite and denotes the
    rational [q] (FpSpec.v). *)
From Coq Require Import ZArith QArith Qabs List Bool Lia.
From Verif Require Import Base Words Spec Arith BitSliceModel BitSliceProofs PrimModel PrimProofs PropPrim
  UModel UProofs RealSpec RealProofs FpModel FpSpec FpProofs.
Import ListNotations.
Local Open Scope Z_scope.

(** ** C110 *)

(** Bounds of the integer types: they are values, and bound every value. *)
Theorem C110_bounds : forall t v, (0 < ibits t)%nat -> fits t v ->
  fits t (prim_min_value t) /\ fits t (prim_max_value t) /\
  prim_min_value t <= v <= prim_max_value t.
Proof. intros t v Hb Hv. pose proof (imin_le0 t Hb). unfold prim_min_value, prim_max_value, fits in *. lia. Qed.
Print Assumptions C110_bounds.

(** What a [NonZero] type holds. *)
Definition nonzero (t : ity) (v : Z) : Prop := fits t v /\ v <> 0.

(** The same for the [NonZero] types; and no constant or operation of theirs is ever 0. *)
Theorem C110_nonzero : forall dbg t v, (1 < ibits t)%nat -> nonzero t v ->
  nonzero t nz_one /\ nonzero t (nz_min_value t) /\ nonzero t (nz_max_value t) /\
  nz_min_value t <= v <= nz_max_value t /\
  (forall r, nz_abs dbg t v = Ok r -> nonzero t r) /\
  (Z.abs v <= imax t -> nz_abs dbg t v = Ok (Z.abs v)) /\
  (nz_is_positive v = true <-> v >= 0) /\ (nz_is_negative v = true <-> v < 0).
Proof.
  intros dbg t v Hb [Hv H0].
  assert (2 <= 2 ^ (Z.of_nat (ibits t) - 1)) by (apply (Z.pow_le_mono_r 2 1); lia).
  assert (4 <= 2 ^ Z.of_nat (ibits t)) by (apply (Z.pow_le_mono_r 2 2); lia).
  assert (imin t <= 0 /\ 1 <= imax t /\ (isigned t = true -> imin t < 0 /\ imax t = - imin t - 1) /\ (isigned t = false -> imin t = 0)) as (R1 & R2 & R3 & R4).
  { unfold imin, imax. destruct (isigned t); repeat split; intros; try discriminate; lia. }
  assert (forall r, nz_abs dbg t v = Ok r -> nonzero t r) as HA.
  { intros r Hr. destruct (isigned t) eqn:Hs.
    - destruct (R3 eq_refl) as [R5 R6].
      destruct (C96_sign_partial dbg t v ltac:(lia) Hs Hv) as (_ & _ & A1 & A2). unfold nz_abs in Hr.
      destruct (Z.eq_dec v (imin t)) as [E|E].
      + rewrite A2 in Hr by auto. destruct dbg; [discriminate|]. injection Hr as <-. split; auto.
      + rewrite A1 in Hr by auto. injection Hr as <-. unfold nonzero, fits in *. lia.
    - specialize (R4 eq_refl). unfold nz_abs, prim_abs, nonzero, fits in *. rewrite arith_in in Hr by lia.
      injection Hr as <-. lia. }
  assert (nz_min_value t <= v /\ nonzero t (nz_min_value t)) as [HM1 HM2].
  { unfold nz_min_value, nonzero, fits in *. destruct (isigned t) eqn:Hs.
    - destruct (R3 eq_refl). lia.
    - specialize (R4 eq_refl). lia. }
  unfold fits in Hv. split; [unfold nonzero, nz_one, fits; lia|]. split; [auto|].
  split; [unfold nonzero, nz_max_value, fits; lia|]. split; [split; [auto|unfold nz_max_value; lia]|].
  split; [auto|]. split; [intros; apply arith_in; lia|].
  unfold nz_is_positive, nz_is_negative, prim_is_positive, prim_is_negative. rewrite !Z.ltb_lt. lia.
Qed.
Print Assumptions C110_nonzero.

(** The least positive and greatest negative value of a signed [NonZero] type. *)
Theorem C110_smallest : forall dbg t, (1 < ibits t)%nat -> isigned t = true ->
  nonzero t nz_min_positive /\ 0 < nz_min_positive /\
  (forall v, nonzero t v -> 0 < v -> nz_min_positive <= v) /\
  exists m, nz_max_negative dbg t = Ok m /\ nonzero t m /\ m < 0 /\
    forall v, nonzero t v -> v < 0 -> v <= m.
Proof.
  intros dbg t Hb Hs. assert (2 <= 2 ^ (Z.of_nat (ibits t) - 1)) by (apply (Z.pow_le_mono_r 2 1); lia).
  assert (imin t <= -2 /\ 1 <= imax t) as [R1 R2] by (unfold imin, imax; rewrite Hs; lia).
  unfold nonzero, nz_min_positive, nz_max_negative, nz_one, fits. repeat split; intros; try lia.
  exists (-1). rewrite arith_in by lia. repeat split; intros; lia.
Qed.
Print Assumptions C110_smallest.

Example C110_demo : nonzero i8 (-128) /\ nz_min_value i8 = -128 /\ nz_min_value u8 = 1 /\
  nz_abs false i8 (-128) = Ok (-128) /\ nz_abs true i8 (-5) = Ok 5 /\ nz_max_negative true i8 = Ok (-1).
Proof. unfold nonzero, fits. repeat split; try reflexivity; vm_compute; discriminate. Qed.

(** ** C111 *)

(** A pattern of [size] bytes: the [i]th byte in little-endian order is the [i]th digit in base
    256; big-endian order is the reverse; each conversion is undone by its inverse. *)
Theorem C111_patterns : forall le size p, 0 <= p < 2 ^ (8 * Z.of_nat size) ->
  let b := pat_to_le size p in
  length b = size /\ wf 8 b /\ p = fold_right (fun d acc => d + 256 * acc) 0 b /\
  pat_to_be size p = rev b /\ pat_to_ne le size p = (if le then b else rev b) /\
  pat_from_le b = p /\ pat_from_be (pat_to_be size p) = p /\ pat_from_ne le (pat_to_ne le size p) = p.
Proof.
  intros le size p Hp. cbn zeta. unfold pat_to_le, pat_to_be, pat_to_ne, pat_from_le, pat_from_be, pat_from_ne.
  assert (from_le (le_bytes size p) = p) as E by (rewrite from_le_val, val_le_bytes; apply Z.mod_small; auto).
  assert (forall l, fold_right (fun d acc => d + 256 * acc) 0 l = from_le l) as Ef by (induction l; cbn [fold_right from_le]; congruence).
  split; [apply length_le_bytes|]. split; [apply wf_le_bytes|]. rewrite Ef, E.
  destruct le; unfold pat_to_le, pat_to_be, pat_from_le, pat_from_be; rewrite rev_involutive, E; auto 10.
Qed.
Print Assumptions C111_patterns.

(** Conversely every array of bytes is one value's. *)
Theorem C111_arrays : forall le b, wf 8 b ->
  let size := length b in
  0 <= pat_from_le b < 2 ^ (8 * Z.of_nat size) /\
  pat_to_le size (pat_from_le b) = b /\ pat_to_be size (pat_from_be b) = b /\
  pat_to_ne le size (pat_from_ne le b) = b.
Proof.
  intros le b Hb. cbn zeta. unfold pat_to_le, pat_to_be, pat_to_ne, pat_from_le, pat_from_be, pat_from_ne.
  assert (forall c, wf 8 c -> le_bytes (length c) (from_le c) = c) as E.
  { intros c Hc. apply (val_inj 8); auto using wf_le_bytes; [rewrite length_le_bytes; auto|].
    rewrite val_le_bytes, from_le_val. apply Z.mod_small, val_bound; auto. }
  assert (wf 8 (rev b)) as Hr by (apply Forall_rev; auto).
  assert (rev (le_bytes (length b) (from_le (rev b))) = b) as Er.
  { rewrite <- (rev_length b), E by auto. apply rev_involutive. }
  split; [rewrite from_le_val; apply val_bound; auto|].
  destruct le; unfold pat_to_le, pat_to_be, pat_from_le, pat_from_be; rewrite E by auto; auto.
Qed.
Print Assumptions C111_arrays.

(** Integers, of either signedness. *)
Theorem C111_integers : forall le t size v, ibits t = (8 * size)%nat -> (0 < size)%nat -> fits t v ->
  prim_to_be t size v = rev (prim_to_le t size v) /\
  (0 <= v -> v = fold_right (fun d acc => d + 256 * acc) 0 (prim_to_le t size v)) /\
  prim_from_le t (prim_to_le t size v) = v /\ prim_from_be t (prim_to_be t size v) = v /\
  prim_from_ne le t (prim_to_ne le t size v) = v.
Proof.
  intros le t size v Hs H0 Hv. assert (0 < ibits t)%nat as Hb by lia.
  assert (2 ^ (8 * Z.of_nat size) = base (ibits t)) as Ep.
  { unfold base. f_equal. lia. }
  assert (0 <= pattern t v < 2 ^ (8 * Z.of_nat size)) as Hp.
  { rewrite Ep. apply Z.mod_pos_bound, base_pos. }
  destruct (C111_patterns le size (pattern t v) Hp) as (_ & _ & P1 & P2 & _ & P3 & P4 & P5).
  assert (wrap t (pattern t v) = v) as W.
  { apply wrap_unique; auto. unfold pattern, base. rewrite Z.mod_mod; auto. pose proof (two_pow_pos (ibits t)). lia. }
  unfold prim_to_be, prim_to_le, prim_to_ne, prim_from_le, prim_from_be, prim_from_ne.
  rewrite P3, P4, P5, W. repeat split; auto.
  intros Hn. rewrite <- P1. symmetry. apply Z.mod_small. unfold base. split; auto.
  unfold fits, imax in Hv. destruct (isigned t); [|lia].
  assert (2 ^ (Z.of_nat (ibits t) - 1) <= 2 ^ Z.of_nat (ibits t)) by (apply Z.pow_le_mono_r; lia). lia.
Qed.
Print Assumptions C111_integers.

Example C111_demo : let i32 := {| ibits := 32; isigned := true |} in
  fits i32 (-2) /\ prim_to_be i32 4 (-2) = [255; 255; 255; 254] /\ wf 8 [255; 255; 255; 254] /\
  prim_from_be i32 [255; 255; 255; 254] = -2 /\ prim_to_le i32 4 305419896 = [120; 86; 52; 18].
Proof.
  assert (wf 8 [255; 255; 255; 254]) by (repeat (apply Forall_cons; [vm_compute; split; congruence|]); apply Forall_nil).
  unfold fits. cbn zeta. split; [split; vm_compute; discriminate|]. split; [reflexivity|]. auto.
Qed.

(** ** C112 *)

Lemma ieee_f32 : ieee f32_fmt. Proof. repeat split; vm_compute; try discriminate; lia. Qed.
Lemma ieee_f64 : ieee f64_fmt. Proof. repeat split; vm_compute; try discriminate; lia. Qed.

Section Consts.
Variable F : fmt.
Hypothesis HF : ieee F.
Notation m := (Z.of_nat (fbits F)).
Notation e := (Z.of_nat (ebits F)).
Notation D := (2 ^ (bias F - 1 + m)).

Lemma zero_decode : pattern_of F 0 /\ fp_decode F 0 = DFin 0.
Proof.
  pose proof (pe F). pose proof (pm F). pose proof (e_ge F HF). pose proof (pow_e F HF). pose proof (bias_ge F HF).
  assert (0 < 2 ^ (1 + e + m)) by (apply Z.pow_pos_nonneg; lia).
  assert (pattern_of F 0) as P by (unfold pattern_of; lia). split; auto.
  rewrite decode_fields by auto. unfold exponent_of, fraction_of, units, sign_of.
  rewrite Z.div_0_l, !Z.mod_0_l, Z.testbit_0_l by lia. destruct (Z.eqb_spec 0 (2 ^ e - 1)); [lia|]. reflexivity.
Qed.
Lemma one_decode : pattern_of F (fl_one F) /\ fp_decode F (fl_one F) = DFin D.
Proof.
  pose proof (pe F). pose proof (pm F). pose proof (e_ge F HF). pose proof (pow_e F HF). pose proof (bias_ge F HF).
  unfold fl_one. fold (bias F). destruct (encode_fields F false (bias F) 0) as (P & _); [lia|lia|]. split; auto.
  rewrite decode_encode by lia. rewrite (proj2 (Z.eqb_neq _ _)) by lia. unfold units.
  rewrite (proj2 (Z.eqb_neq (bias F) 0)) by lia. f_equal. rewrite Z.add_0_r, <- Z.pow_add_r by lia. f_equal. lia.
Qed.
Lemma max_decode neg : pattern_of F (fp_encode F neg (2 ^ e - 2) (2 ^ m - 1)) /\
  fp_decode F (fp_encode F neg (2 ^ e - 2) (2 ^ m - 1)) =
  DFin (let M := (2 * 2 ^ m - 1) * 2 ^ (2 ^ e - 3) in if neg then - M else M).
Proof.
  pose proof (pe F). pose proof (pm F). pose proof (e_ge F HF). pose proof (pow_e F HF). pose proof (bias_ge F HF).
  destruct (encode_fields F neg (2 ^ e - 2) (2 ^ m - 1)) as (P & _); [lia|lia|]. split; auto.
  rewrite decode_encode by lia. rewrite (proj2 (Z.eqb_neq _ _)) by lia. unfold units.
  rewrite (proj2 (Z.eqb_neq (2 ^ e - 2) 0)) by lia.
  replace (2 ^ m + (2 ^ m - 1)) with (2 * 2 ^ m - 1) by lia.
  replace (2 ^ e - 2 - 1) with (2 ^ e - 3) by lia. reflexivity.
Qed.
Lemma neg_pattern b : pattern_of F b -> sign_of F b = false ->
  fp_neg F b = b + 2 ^ (e + m).
Proof.
  intros P Hs. unfold fp_neg. symmetry. apply Z.add_nocarry_lxor.
  apply Z.bits_inj'. intros n Hn. rewrite Z.land_spec, Z.bits_0.
  destruct (Z.eq_dec n (e + m)) as [->|]; [unfold sign_of in Hs; rewrite Hs; auto|].
  rewrite Z.pow2_bits_false by auto. apply andb_false_r.
Qed.
End Consts.

(** Bounds: [max_value] and [min_value] are numbers, and bound every finite float. *)
Theorem C112_bounds : forall F b q, ieee F -> pattern_of F b -> is_num F b q ->
  exists lo hi, pattern_of F (fl_min_value F) /\ pattern_of F (fl_max_value F) /\
    is_num F (fl_min_value F) lo /\ is_num F (fl_max_value F) hi /\ (lo <= q <= hi)%Q.
Proof.
  intros F b q HF P Hq. apply (num_iff F HF b q P) in Hq. destruct Hq as (u & Eu & Hq).
  destruct (max_decode F HF true) as [P1 D1]. destruct (max_decode F HF false) as [P2 D2].
  do 2 eexists. split; [exact P1|]. split; [exact P2|].
  split; [apply (num_iff F HF _ _ P1); eexists; split; [exact D1|reflexivity]|].
  split; [apply (num_iff F HF _ _ P2); eexists; split; [exact D2|reflexivity]|].
  rewrite Hq, !(frac_D_le F HF). rewrite decode_fields in Eu by auto.
  pose proof (exp_range F b). pose proof (frac_range F b).
  destruct (Z.eqb_spec (exponent_of F b) (2 ^ Z.of_nat (ebits F) - 1)); [destruct (fraction_of F b =? 0); discriminate|].
  injection Eu as <-. cbn zeta.
  pose proof (units_bound F HF (sign_of F b) (exponent_of F b) (fraction_of F b) ltac:(lia) ltac:(lia)). lia.
Qed.
Print Assumptions C112_bounds.

(** Constants and predicates; minus zero is zero and counts as positive; NaN is neither
    positive nor negative. *)
Theorem C112_predicates : forall F b, ieee F -> pattern_of F b ->
  is_num F fl_zero 0 /\ is_num F (fl_one F) 1 /\
  (forall q, is_num F b q ->
     (fl_is_zero F b = true <-> (q == 0)%Q) /\ (fl_is_one F b = true <-> (q == 1)%Q) /\
     (fl_is_negative F b = true <-> (q < 0)%Q) /\ (fl_is_positive F b = true <-> (0 <= q)%Q)) /\
  (is_nan F b -> fl_is_zero F b = false /\ fl_is_one F b = false /\
     fl_is_negative F b = false /\ fl_is_positive F b = false) /\
  (forall neg, is_inf F neg b -> fl_is_zero F b = false /\ fl_is_one F b = false /\
     fl_is_negative F b = neg /\ fl_is_positive F b = negb neg).
Proof.
  intros F b HF P. destruct (zero_decode F HF) as [P0 D0]. destruct (one_decode F HF) as [P1 D1].
  pose proof (D_pos F HF) as HD.
  assert (frac (2 ^ (bias F - 1 + Z.of_nat (fbits F))) (2 ^ (bias F - 1 + Z.of_nat (fbits F))) == 1)%Q as H1.
  { pose proof (frac_D_int F HF 1) as H. rewrite Z.mul_1_l in H. exact H. }
  pose proof (frac_D_0 F HF) as H0.
  split; [apply (num_iff F HF _ _ P0); eexists; split; [exact D0|symmetry; exact H0]|].
  split; [apply (num_iff F HF _ _ P1); eexists; split; [exact D1|symmetry; exact H1]|].
  unfold fl_is_zero, fl_is_one, fl_is_negative, fl_is_positive, fp_eq, fp_lt, fp_ge, fp_cmp, fl_zero.
  rewrite D0, D1. split; [|split].
  - intros q Hq. apply (num_iff F HF b q P) in Hq. destruct Hq as (u & -> & Hq).
    rewrite Hq. set (D := 2 ^ (bias F - 1 + Z.of_nat (fbits F))) in *.
    assert ((frac u D == 0)%Q <-> u = 0) as -> by (rewrite <- H0; apply (frac_D_eq F HF)).
    assert ((frac u D == 1)%Q <-> u = D) as -> by (rewrite <- H1; apply (frac_D_eq F HF)).
    assert ((frac u D < 0)%Q <-> u < 0) as -> by (rewrite <- H0; apply (frac_D_lt F HF)).
    assert ((0 <= frac u D)%Q <-> 0 <= u) as -> by (rewrite <- H0; apply (frac_D_le F HF)).
    destruct (Z.compare_spec u 0), (Z.compare_spec u D); repeat split; intros; try discriminate; auto; lia.
  - intros H. apply (nan_iff F b P) in H. rewrite H. auto.
  - intros neg H. apply (inf_iff F b neg P) in H. rewrite H. destruct neg; auto.
Qed.
Print Assumptions C112_predicates.

(** [abs]. *)
Theorem C112_abs : forall F b, ieee F -> pattern_of F b ->
  pattern_of F (fl_abs F b) /\
  (forall q, is_num F b q -> is_num F (fl_abs F b) (Qabs q)) /\
  (is_nan F b -> is_nan F (fl_abs F b)) /\
  (forall neg, is_inf F neg b -> is_inf F false (fl_abs F b)).
Proof.
  intros F b HF P. set (m := Z.of_nat (fbits F)). set (e := Z.of_nat (ebits F)).
  pose proof (pe F) as Pe. pose proof (pm F) as Pm. pose proof (pem F) as Pem. pose proof (p1em F) as P1.
  fold m e in Pe, Pm, Pem, P1.
  assert (fl_abs F b = fp_encode F false (exponent_of F b) (fraction_of F b)) as E.
  { unfold fl_abs, fp_encode, exponent_of, fraction_of. fold m e. rewrite Pem, (Z.mul_comm (2 ^ e)).
    rewrite Z.rem_mul_r by lia. lia. }
  destruct (encode_fields F false (exponent_of F b) (fraction_of F b) (exp_range F b) (frac_range F b)) as (A & A1 & A2 & A3).
  rewrite <- E in A, A1, A2, A3. split; auto.
  split; [|unfold is_nan, is_inf; rewrite A1, A2, A3; tauto].
  intros q Hq. apply (num_iff F HF b q P) in Hq. destruct Hq as (u & Eu & Hq).
  apply (num_iff F HF _ _ A). exists (Z.abs u). rewrite decode_fields in * by auto. rewrite A1, A2, A3.
  destruct (exponent_of F b =? 2 ^ Z.of_nat (ebits F) - 1); [destruct (fraction_of F b =? 0); discriminate|].
  injection Eu as <-. unfold units.
  remember (if exponent_of F b =? 0 then fraction_of F b else (2 ^ Z.of_nat (fbits F) + fraction_of F b) * 2 ^ (exponent_of F b - 1)) as a eqn:Ea.
  assert (0 <= a) as Ha.
  { rewrite Ea. pose proof (frac_range F b) as R. fold m in R |- *. destruct (exponent_of F b =? 0); [lia|].
    apply Z.mul_nonneg_nonneg; [lia|apply Z.pow_nonneg; lia]. }
  split; [destruct (sign_of F b); f_equal; lia|].
  rewrite Hq. unfold units. rewrite <- Ea. pose proof (D_pos F HF) as HD.
  assert (forall x, 0 <= x -> (Qabs (frac x (2 ^ (bias F - 1 + Z.of_nat (fbits F)))) == frac x (2 ^ (bias F - 1 + Z.of_nat (fbits F))))%Q) as K.
  { intros x Hx. apply Qabs_pos. rewrite <- (frac_D_0 F HF), frac_D_le; auto. }
  destruct (sign_of F b).
  - rewrite <- frac_opp, Qabs_opp, K, Z.abs_opp, Z.abs_eq by auto. reflexivity.
  - rewrite K, Z.abs_eq by auto. reflexivity.
Qed.
Print Assumptions C112_abs.

(** [min_positive] is the least positive number among the normal ones, [max_negative] its
    negation. *)
Theorem C112_min_positive_partial : forall F, ieee F ->
  exists s, is_num F (fl_min_positive F) s /\ (0 < s)%Q /\ pattern_of F (fl_max_negative F) /\
    is_num F (fl_max_negative F) (- s) /\
    forall b q, pattern_of F b -> is_num F b q -> exponent_of F b <> 0 -> (s <= Qabs q)%Q.
Proof.
  intros F HF. pose proof (pe F) as Pe. pose proof (pm F) as Pm. pose proof (pow_e F HF) as Hpe. pose proof (bias_ge F HF) as Hb.
  destruct (encode_fields F false 1 0) as (P & S1 & S2 & S3); [lia|lia|].
  assert (fp_decode F (fl_min_positive F) = DFin (2 ^ Z.of_nat (fbits F))) as Ed.
  { unfold fl_min_positive. rewrite decode_encode by lia. rewrite (proj2 (Z.eqb_neq _ _)) by lia. unfold units. cbn [Z.eqb Pos.eqb].
    f_equal. rewrite Z.pow_0_r. lia. }
  eexists. split; [apply (num_iff F HF); [exact P|]; eexists; split; [exact Ed|reflexivity]|].
  split; [rewrite <- (frac_D_0 F HF), frac_D_lt; auto|].
  assert (fl_max_negative F = fp_encode F true 1 0) as En.
  { unfold fl_max_negative. rewrite neg_pattern by auto. unfold fl_min_positive, fp_encode. lia. }
  destruct (encode_fields F true 1 0) as (P' & _); [lia|lia|]. rewrite En. split; auto.
  split.
  { apply (num_iff F HF); auto. rewrite decode_encode by lia. rewrite (proj2 (Z.eqb_neq _ _)) by lia.
    eexists. split; [reflexivity|]. rewrite frac_opp. unfold units. cbn [Z.eqb Pos.eqb].
    rewrite frac_D_eq by auto. change (2 ^ (1 - 1)) with 1. lia. }
  intros b q Pb Hq Hn. pose proof (D_pos F HF).
  destruct Hq as [Hx Hq]. rewrite Hq, units_q by (auto; apply exp_range). unfold units.
  rewrite (proj2 (Z.eqb_neq _ _)) by auto. pose proof (exp_range F b). pose proof (frac_range F b).
  assert (1 <= 2 ^ (exponent_of F b - 1)) by (apply (Z.pow_le_mono_r 2 0); lia).
  assert (2 ^ Z.of_nat (fbits F) <= (2 ^ Z.of_nat (fbits F) + fraction_of F b) * 2 ^ (exponent_of F b - 1)) as K by nia.
  assert (0 <= frac ((2 ^ Z.of_nat (fbits F) + fraction_of F b) * 2 ^ (exponent_of F b - 1)) (2 ^ (bias F - 1 + Z.of_nat (fbits F))))%Q as K0.
  { rewrite <- (frac_D_0 F HF), frac_D_le; auto. lia. }
  destruct (sign_of F b).
  - rewrite <- frac_opp, Qabs_opp, Qabs_pos by auto. rewrite frac_D_le; auto.
  - rewrite Qabs_pos by auto. rewrite frac_D_le; auto.
Qed.
Print Assumptions C112_min_positive_partial.

(** Documented as the least value greater than 0, which the subnormals undercut. *)
Theorem C112_min_positive_refuted : exists b q s, pattern_of f32_fmt b /\ is_num f32_fmt b q /\
  is_num f32_fmt (fl_min_positive f32_fmt) s /\ (0 < q)%Q /\ (q < s)%Q.
Proof.
  exists 1, (frac 1 (2 ^ 149)), (frac (2 ^ 23) (2 ^ 149)).
  assert (pattern_of f32_fmt 1) as P by (split; vm_compute; congruence).
  assert (pattern_of f32_fmt (fl_min_positive f32_fmt)) as P' by (split; vm_compute; congruence).
  split; [exact P|]. split; [apply (num_iff _ ieee_f32 _ _ P); exists 1; split; vm_compute; reflexivity|].
  split; [apply (num_iff _ ieee_f32 _ _ P'); exists (2 ^ 23); split; vm_compute; reflexivity|].
  split; vm_compute; reflexivity.
Qed.
Print Assumptions C112_min_positive_refuted.

Example C112_demo : (* -1.5 = 0xBFC00000 *)
  let b := 3217031168 in pattern_of f32_fmt b /\ is_num f32_fmt b (- (3 # 2)) /\
  fl_is_negative f32_fmt b = true /\ fl_is_positive f32_fmt b = false /\ fl_abs f32_fmt b = 1069547520 /\
  fl_is_zero f32_fmt 2147483648 = true /\ fl_max_value f32_fmt = 2139095039 /\ fl_one f64_fmt = 4607182418800017408 /\
  is_nan f32_fmt 2143289344 /\ is_inf f32_fmt true 4286578688.
Proof.
  cbn zeta. split; [split; vm_compute; congruence|]. split.
  { split; [vm_compute; discriminate|vm_compute; reflexivity]. }
  repeat split; try reflexivity; vm_compute; discriminate.
Qed.

(** ** C113 *)

(** No finite float is nearer to [v] than the number [q]. *)
Definition nearest_float (F : fmt) (v : Z) (q : Q) : Prop :=
  forall b q', pattern_of F b -> is_num F b q' -> (Qabs (q - inject_Z v) <= Qabs (q' - inject_Z v))%Q.

Lemma frac_dist_D F u v : ieee F ->
  (Qabs (frac u (2 ^ (bias F - 1 + Z.of_nat (fbits F))) - inject_Z v) ==
   frac (Z.abs (u - v * 2 ^ (bias F - 1 + Z.of_nat (fbits F)))) (2 ^ (bias F - 1 + Z.of_nat (fbits F))))%Q.
Proof. intros HF. apply frac_dist, D_pos. auto. Qed.

(** An integer less than half a unit beyond the largest float becomes a nearest float, without a
    change of sign; one of at most [fbits + 1] bits becomes itself. *)
Theorem C113_nearest_partial : forall F v, ieee F ->
  Z.abs v < 2 ^ (bias F + 1) - 2 ^ (bias F - Z.of_nat (fbits F) - 1) ->
  let b := fl_of_int F v in
  exists q, pattern_of F b /\ is_num F b q /\ nearest_float F v q /\
    (0 <= v -> (0 <= q)%Q) /\ (v <= 0 -> (q <= 0)%Q) /\
    (Z.abs v <= 2 ^ (Z.of_nat (fbits F) + 1) -> (q == inject_Z v)%Q).
Proof.
  intros F v HF Hv. cbn zeta. apply (proj1 (limit_iff F HF v)) in Hv.
  destruct (of_int_finite F HF v Hv) as [P Hd]. pose proof (m_ge F HF) as Hm.
  eexists. split; [exact P|]. split; [apply (num_iff F HF _ _ P); eexists; split; [exact Hd|reflexivity]|].
  pose proof (round_nonneg (Z.of_nat (fbits F) + 1) ltac:(lia) (Z.abs v) ltac:(lia)) as R0.
  pose proof (D_pos F HF) as HD.
  split; [|split; [|split]].
  - intros b q' Pb Hq'. apply (num_iff F HF b q' Pb) in Hq'. destruct Hq' as (u & Eu & ->).
    rewrite !frac_dist_D by auto. rewrite frac_D_le by auto. apply (of_int_nearest F HF v b u); auto.
  - intros Hn. rewrite <- (frac_D_0 F HF), frac_D_le by auto. pose proof (Z.sgn_nonneg v). nia.
  - intros Hn. rewrite <- (frac_D_0 F HF), frac_D_le by auto. pose proof (Z.sgn_nonpos v). nia.
  - intros Hs. assert (round_sig (Z.of_nat (fbits F) + 1) (Z.abs v) = Z.abs v) as ->.
    { destruct (Z.eq_dec (Z.abs v) (2 ^ (Z.of_nat (fbits F) + 1))) as [->|].
      - apply round_sig_id; [lia|apply Z.pow_nonneg; lia|]. exists 1, (Z.of_nat (fbits F) + 1).
        assert (2 ^ 1 <= 2 ^ (Z.of_nat (fbits F) + 1)) by (apply Z.pow_le_mono_r; lia). lia.
      - apply round_small; lia. }
    rewrite Z.mul_comm, (Z.mul_comm (Z.sgn v)), Z.abs_sgn, Z.mul_comm. apply frac_D_int. auto.
Qed.
Print Assumptions C113_nearest_partial.

(** From there on the result is infinite. *)
Theorem C113_overflow_partial : forall F v, ieee F ->
  2 ^ (bias F + 1) - 2 ^ (bias F - Z.of_nat (fbits F) - 1) <= Z.abs v ->
  is_inf F (v <? 0) (fl_of_int F v).
Proof.
  intros F v HF Hv. assert (~ round_sig (Z.of_nat (fbits F) + 1) (Z.abs v) < 2 ^ (bias F + 1)) as N.
  { rewrite <- limit_iff by auto. unfold int_limit. lia. }
  destruct (of_int_inf F HF v ltac:(lia)) as [P Hd]. apply (inf_iff F _ _ P). exact Hd.
Qed.
Print Assumptions C113_overflow_partial.

(** Of the integer types only [u128] has such values, and only for [f32]. *)
Theorem C113_types : forall pw p F v, pw = 16%nat \/ pw = 32%nat \/ pw = 64%nat ->
  F = f32_fmt \/ F = f64_fmt -> fits (prim_ty pw p) v ->
  ~ (p = U128 /\ F = f32_fmt) ->
  exists q, is_num F (fl_of_int F v) q /\ nearest_float F v q.
Proof.
  intros pw p F v Hpw HFF Hv Hx.
  assert (ieee F) as HF by (destruct HFF; subst; [apply ieee_f32|apply ieee_f64]).
  destruct (C113_nearest_partial F v HF) as (q & _ & H1 & H2 & _); [|exists q; auto].
  assert (Z.abs v <= 2 ^ 127 \/ (F = f64_fmt /\ Z.abs v < 2 ^ 128)) as HB.
  { unfold fits, imin, imax in Hv. destruct p; cbn [prim_ty ibits isigned] in Hv;
      try (left; revert Hv; destruct Hpw as [-> | [-> | ->]]; cbn; lia).
    right. split; [destruct HFF; auto; tauto|]. cbn in Hv |- *. lia. }
  destruct HFF; subst F.
  - destruct HB as [HB|[C _]]; [|discriminate C]. eapply Z.le_lt_trans; [exact HB|]. vm_compute. reflexivity.
  - eapply Z.le_lt_trans with (2 ^ 128); [destruct HB as [HB|[_ HB]]; [transitivity (2 ^ 127); [lia|vm_compute; discriminate]|lia]|].
    vm_compute. reflexivity.
Qed.
Print Assumptions C113_types.

(** [u128::MAX] saturates to infinity although [f32::MAX] is a value. *)
Theorem C113_saturate_refuted : exists v q, fits (prim_ty 64 U128) v /\
  is_num f32_fmt (fl_max_value f32_fmt) q /\ is_inf f32_fmt false (fl_of_int f32_fmt v).
Proof.
  exists (2 ^ 128 - 1), (frac ((2 ^ 24 - 1) * 2 ^ 253) (2 ^ 149)).
  split; [split; vm_compute; discriminate|]. split; [split; [vm_compute; discriminate|vm_compute; reflexivity]|].
  repeat split; vm_compute; reflexivity.
Qed.
Print Assumptions C113_saturate_refuted.

(** The conversion is monotone. *)
Theorem C113_monotone : forall F v w qv qw, ieee F -> v <= w ->
  is_num F (fl_of_int F v) qv -> is_num F (fl_of_int F w) qw -> (qv <= qw)%Q.
Proof.
  intros F v w qv qw HF Hvw Hv Hw.
  assert (forall x q, is_num F (fl_of_int F x) q ->
    (q == frac (Z.sgn x * round_sig (Z.of_nat (fbits F) + 1) (Z.abs x) * 2 ^ (bias F - 1 + Z.of_nat (fbits F))) (2 ^ (bias F - 1 + Z.of_nat (fbits F))))%Q) as K.
  { intros x q Hq. destruct (Z_lt_ge_dec (round_sig (Z.of_nat (fbits F) + 1) (Z.abs x)) (2 ^ (bias F + 1))) as [L|G].
    - destruct (of_int_finite F HF x L) as [P Hd]. apply (num_iff F HF _ _ P) in Hq.
      destruct Hq as (u & Eu & Hq). rewrite Hd in Eu. injection Eu as <-. exact Hq.
    - destruct (of_int_inf F HF x ltac:(lia)) as [P Hd]. apply (num_iff F HF _ _ P) in Hq.
      destruct Hq as (u & Eu & _). congruence. }
  rewrite (K _ _ Hv), (K _ _ Hw), frac_D_le by auto. pose proof (D_pos F HF).
  apply Z.mul_le_mono_nonneg_r; [lia|]. pose proof (m_ge F HF).
  pose proof (round_nonneg (Z.of_nat (fbits F) + 1) ltac:(lia) (Z.abs v) ltac:(lia)).
  pose proof (round_nonneg (Z.of_nat (fbits F) + 1) ltac:(lia) (Z.abs w) ltac:(lia)).
  destruct (Z.sgn_spec v) as [[S1 ->]|[[S1 ->]|[S1 ->]]], (Z.sgn_spec w) as [[S2 ->]|[[S2 ->]|[S2 ->]]]; try lia.
  - pose proof (round_mono (Z.of_nat (fbits F) + 1) ltac:(lia) (Z.abs v) (Z.abs w) ltac:(lia)). lia.
  - pose proof (round_mono (Z.of_nat (fbits F) + 1) ltac:(lia) (Z.abs w) (Z.abs v) ltac:(lia)). lia.
Qed.
Print Assumptions C113_monotone.

Example C113_demo : (* 16777217 = 2^24 + 1 becomes 2^24, -5 becomes -5.0 *)
  fl_of_int f32_fmt 16777217 = 1266679808 /\ is_num f32_fmt 1266679808 (inject_Z 16777216) /\
  fl_of_int f32_fmt (-5) = 3231711232 /\ is_num f32_fmt 3231711232 (-5) /\
  fits (prim_ty 64 I64) (2 ^ 63 - 1) /\ fl_of_int f64_fmt (2 ^ 63 - 1) = 4890909195324358656.
Proof.
  assert (forall b u, pattern_of f32_fmt b -> fp_decode f32_fmt b = DFin u -> is_num f32_fmt b (frac u (2 ^ (bias f32_fmt - 1 + 23)))) as K.
  { intros b u P E. apply (num_iff f32_fmt ieee_f32 b _ P). exists u. split; auto. reflexivity. }
  split; [vm_compute; reflexivity|]. split; [split; [vm_compute; discriminate|vm_compute; reflexivity]|].
  split; [vm_compute; reflexivity|]. split; [split; [vm_compute; discriminate|vm_compute; reflexivity]|].
  split; [split; vm_compute; discriminate|]. vm_compute. reflexivity.
Qed.

(** ** C114 *)

(** NaN gives 0; an infinity the bound on its side; a number its integral part, clamped. *)
Theorem C114_to_int_partial : forall F t b, ieee F -> (0 < ibits t)%nat -> pattern_of F b ->
  fits t (fl_to_int F t b) /\
  (is_nan F b -> fl_to_int F t b = 0) /\
  (forall neg, is_inf F neg b -> fl_to_int F t b = if neg then imin t else imax t) /\
  (forall q, is_num F b q -> fits t (toward_zero q) -> fl_to_int F t b = toward_zero q) /\
  (forall q, is_num F b q -> toward_zero q < imin t -> fl_to_int F t b = imin t) /\
  (forall q, is_num F b q -> imax t < toward_zero q -> fl_to_int F t b = imax t).
Proof.
  intros F t b HF Hb P. pose proof (imin_le0 t Hb) as R. unfold fl_to_int, fits. fold (bias F).
  assert (forall q, is_num F b q -> exists u, fp_decode F b = DFin u /\ toward_zero q = Z.quot u (2 ^ (bias F - 1 + Z.of_nat (fbits F)))) as K.
  { intros q Hq. apply (num_iff F HF b q P) in Hq. destruct Hq as (u & Eu & Hq). exists u. split; auto.
    rewrite (toward_zero_proper _ _ Hq). apply frac_toward_zero. pose proof (D_pos F HF). lia. }
  split; [destruct (fp_decode F b) as [|neg|u]; [lia|destruct neg; lia|lia]|].
  split; [intros H; apply (nan_iff F b P) in H; rewrite H; auto|].
  split; [intros neg H; apply (inf_iff F b neg P) in H; rewrite H; auto|].
  split; [|split]; intros q Hq H; destruct (K q Hq) as (u & -> & E); rewrite <- E; lia.
Qed.
Print Assumptions C114_to_int_partial.

(** An integer of at most [fbits + 1] bits survives the round trip. *)
Theorem C114_round_trip : forall F t v, ieee F -> (0 < ibits t)%nat -> fits t v ->
  Z.abs v <= 2 ^ (Z.of_nat (fbits F) + 1) -> fl_to_int F t (fl_of_int F v) = v.
Proof.
  intros F t v HF Hb Hv Hs. pose proof (bias_ge F HF) as B1. pose proof (m_ge F HF).
  assert (2 ^ (Z.of_nat (fbits F) + 1) <= 2 ^ bias F) by (apply Z.pow_le_mono_r; lia).
  assert (2 ^ (bias F + 1) = 2 * 2 ^ bias F) by (rewrite <- Z.pow_succ_r by lia; f_equal; lia).
  assert (2 ^ (bias F - Z.of_nat (fbits F) - 1) < 2 ^ bias F) by (apply Z.pow_lt_mono_r; lia).
  destruct (C113_nearest_partial F v HF) as (q & P & Hq & _ & _ & _ & E); [lia|].
  specialize (E Hs).
  assert (toward_zero q = v) as T.
  { rewrite (toward_zero_proper _ _ E), <- (toward_zero_proper _ _ (frac_int v)), frac_toward_zero by lia. apply Z.quot_1_r. }
  destruct (C114_to_int_partial F t (fl_of_int F v) HF Hb P) as (_ & _ & _ & C & _).
  rewrite (C q Hq) by (rewrite T; auto). exact T.
Qed.
Print Assumptions C114_round_trip.

(** Documented as the nearest value: 2.75 becomes 2. *)
Theorem C114_nearest_refuted : exists b q, is_num f32_fmt b q /\ fl_to_int f32_fmt u8 b = 2 /\
  ~ nearest q 2 /\ nearest q 3.
Proof.
  exists 1076887552, (11 # 4)%Q. split; [split; [vm_compute; discriminate|vm_compute; reflexivity]|].
  split; [vm_compute; reflexivity|].
  assert ((11 # 4) == frac 11 4)%Q as E by reflexivity.
  assert (forall k, nearest (11 # 4) k <-> nearest (frac 11 4) k) as N.
  { intros k. unfold nearest. split; intros H j; specialize (H j); [rewrite <- E|rewrite E]; exact H. }
  rewrite !N, !nearest_iff by lia. lia.
Qed.
Print Assumptions C114_nearest_refuted.

Example C114_demo : (* 300.5 and -1.0 as u8; infinity as i8 *)
  is_num f32_fmt 1133920256 (601 # 2) /\ fl_to_int f32_fmt u8 1133920256 = 255 /\
  fl_to_int f32_fmt u8 3212836864 = 0 /\ fl_to_int f32_fmt i8 3212836864 = -1 /\
  is_inf f32_fmt false 2139095040 /\ fl_to_int f32_fmt i8 2139095040 = 127 /\
  fits i64 (2 ^ 53) /\ fl_to_int f64_fmt i64 (fl_of_int f64_fmt (2 ^ 53)) = 2 ^ 53.
Proof.
  split; [split; [vm_compute; discriminate|vm_compute; reflexivity]|].
  repeat split; try reflexivity; vm_compute; try reflexivity; discriminate.
Qed.
