(** The bit patterns of FpModel.v against Flocq's interchange formats. *)
From Coq Require Import ZArith Reals List Bool Lia Lra.
From Flocq Require Import Core IEEE754.Binary IEEE754.Bits.
From Verif Require Import Base Words FpModel FpSpec FpProofs.
Local Open Scope Z_scope.

Lemma zeq_eqb x y : Zeq_bool x y = (x =? y).
Proof. unfold Zeq_bool. rewrite Z.eqb_compare. reflexivity. Qed.

Section Tie.
Variable F : fmt.
Hypothesis HF : ieee F.
Notation m := (Z.of_nat (fbits F)).
Notation e := (Z.of_nat (ebits F)).
Notation B := (bias F).
Notation least := (bpow radix2 (1 - B - m)).

Lemma emin_eq : 3 - 2 ^ (e - 1) - (m + 1) = 1 - B - m.
Proof. unfold bias. lia. Qed.

Lemma F2R_units (s : bool) n E : F2R (Float radix2 (cond_Zopp s n) (E + (1 - B - m) - 1)) = (IZR (if s then - (n * 2 ^ (E - 1)) else n * 2 ^ (E - 1)) * least)%R \/ E < 1.
Proof.
  destruct (Z_lt_le_dec E 1) as [H|H]; [right; auto|left].
  unfold F2R. cbn [Fnum Fexp]. replace (E + (1 - B - m) - 1) with ((E - 1) + (1 - B - m)) by lia. rewrite bpow_plus, <- Rmult_assoc. f_equal.
  replace (bpow radix2 (E - 1)) with (IZR (2 ^ (E - 1))) by (apply (IZR_Zpower radix2); lia).
  rewrite <- mult_IZR. f_equal. destruct s; cbn [cond_Zopp]; lia.
Qed.

Lemma aux_decode b : pattern_of F b ->
  match fp_decode F b with
  | DNan => exists s p, binary_float_of_bits_aux m e b = F754_nan s p
  | DInf s => binary_float_of_bits_aux m e b = F754_infinity s
  | DFin u => is_finite_FF (binary_float_of_bits_aux m e b) = true /\ sign_FF (binary_float_of_bits_aux m e b) = (2 ^ (e + m) <=? b) /\
      FF2R radix2 (binary_float_of_bits_aux m e b) = (IZR u * least)%R
  end.
Proof.
  intros P. pose proof (pm F) as Pm. pose proof (pe F) as Pe. pose proof (pem F) as Pem. pose proof (pow_e F HF) as Hpe. pose proof (bias_ge F HF) as Hb.
  unfold binary_float_of_bits_aux, split_bits, fp_decode. cbv zeta. unfold SpecFloat.emin. rewrite emin_eq.
  replace (2 ^ m * 2 ^ e) with (2 ^ (e + m)) by lia.
  set (s := 2 ^ (e + m) <=? b). set (E := b / 2 ^ m mod 2 ^ e). set (f := b mod 2 ^ m).
  assert (HE : 0 <= E < 2 ^ e) by (apply Z.mod_pos_bound; exact Pe).
  assert (Hf : 0 <= f < 2 ^ m) by (apply Z.mod_pos_bound; exact Pm).
  clearbody s E f. rewrite !zeq_eqb.
  destruct (Z.eqb_spec E 0) as [->|N0].
  - rewrite (proj2 (Z.eqb_neq 0 (2 ^ e - 1))) by lia. cbn [Z.eqb].
    destruct f as [|p|p]; [| |lia]; cbn [is_finite_FF sign_FF FF2R].
    + repeat split; auto. destruct s; cbn [Z.opp]; lra.
    + split; [reflexivity|]. split; [reflexivity|]. unfold F2R. cbn [Fnum Fexp]. destruct s; reflexivity.
  - destruct (Z.eqb_spec E (2 ^ e - 1)) as [->|N1].
    + destruct f as [|p|p]; [| |lia]; cbn [Z.eqb]; eauto.
    + destruct (f + 2 ^ m) as [|p|p] eqn:Ef; try lia. cbn [is_finite_FF sign_FF FF2R]. split; [reflexivity|]. split; [reflexivity|].
      destruct (F2R_units s (Z.pos p) E) as [G|G]; [|lia]. rewrite G. f_equal. f_equal. rewrite <- Ef, (Z.add_comm f). destruct s; reflexivity.
Qed.


(** The rounding of a whole number. *)
Lemma round_near x (s : Z) : 0 <= x -> 0 < s ->
  let q := x / 2 ^ s in let r := x mod 2 ^ s in
  ZnearestE (IZR x * bpow radix2 (- s)) = if (2 ^ (s - 1) <? r) || ((r =? 2 ^ (s - 1)) && Z.odd q) then q + 1 else q.
Proof.
  intros Hx Hs q r. assert (P : 0 < 2 ^ s) by (apply Z.pow_pos_nonneg; lia).
  assert (P1 : 0 < 2 ^ (s - 1)) by (apply Z.pow_pos_nonneg; lia).
  assert (E2 : 2 ^ s = 2 * 2 ^ (s - 1)) by (rewrite <- Z.pow_succ_r by lia; f_equal; lia).
  pose proof (Z.div_mod x (2 ^ s) ltac:(lia)) as D. fold q r in D. pose proof (Z.mod_pos_bound x (2 ^ s) P) as R. fold r in R.
  assert (Ex : (IZR x * bpow radix2 (- s) = IZR x / IZR (2 ^ s))%R).
  { rewrite bpow_opp. unfold Rdiv. f_equal. f_equal. symmetry. apply (IZR_Zpower radix2). lia. }
  rewrite Ex. assert (Fl : Zfloor (IZR x / IZR (2 ^ s)) = q) by (apply Zfloor_div; lia).
  assert (PR : (0 < IZR (2 ^ s))%R) by (apply IZR_lt; exact P).
  assert (Fr : (IZR x / IZR (2 ^ s) - IZR q = IZR r / IZR (2 ^ s))%R).
  { rewrite D at 1. rewrite plus_IZR, mult_IZR. field. lra. }
  assert (Half : Rcompare (IZR x / IZR (2 ^ s) - IZR q) (/ 2) = (r ?= 2 ^ (s - 1))).
  { rewrite Fr. rewrite <- Rcompare_IZR. rewrite <- (Rcompare_mult_r (IZR (2 ^ s)) _ (/ 2)) by exact PR.
    unfold Rdiv. rewrite Rmult_assoc, Rinv_l, Rmult_1_r by lra. f_equal. rewrite E2, mult_IZR. lra. }
  assert (Ce : r <> 0 -> Zceil (IZR x / IZR (2 ^ s)) = q + 1).
  { intros Nr. rewrite Zceil_floor_neq; rewrite Fl; [reflexivity|]. intros G. assert (IZR r / IZR (2 ^ s) = 0)%R as Z0 by (rewrite <- Fr, G; ring).
    apply Nr. apply eq_IZR. apply Rmult_eq_reg_r with (/ IZR (2 ^ s))%R; [|apply Rinv_neq_0_compat; lra]. unfold Rdiv in Z0. lra. }
  unfold Znearest. rewrite Fl, Half. destruct (Z.compare_spec r (2 ^ (s - 1))) as [Er|Lr|Gr].
  - rewrite (proj2 (Z.ltb_ge _ _)) by lia. rewrite (proj2 (Z.eqb_eq _ _)) by exact Er. cbn [orb andb]. rewrite <- Z.negb_odd, negb_involutive.
    destruct (Z.odd q); auto. apply Ce. lia.
  - rewrite (proj2 (Z.ltb_ge _ _)) by lia. rewrite (proj2 (Z.eqb_neq _ _)) by lia. reflexivity.
  - rewrite (proj2 (Z.ltb_lt _ _)) by lia. cbn [orb]. apply Ce. lia.
Qed.

Lemma mag_log2 x : 0 < x -> mag_val radix2 (IZR x) (mag radix2 (IZR x)) = Z.log2 x + 1.
Proof.
  intros Hx. apply mag_unique. rewrite Rabs_pos_eq by (apply IZR_le; lia). pose proof (Z.log2_spec x Hx) as [L U]. pose proof (Z.log2_nonneg x).
  replace (Z.log2 x + 1 - 1) with (Z.log2 x) by lia.
  rewrite <- !(IZR_Zpower radix2) by lia. split; [apply IZR_le|apply IZR_lt]; cbn [radix_val radix2]; auto.
Qed.

Lemma round_int x : 0 <= x ->
  round radix2 (FLT_exp (1 - B - m) (m + 1)) ZnearestE (IZR x) = IZR (round_sig (m + 1) x).
Proof.
  intros Hx. pose proof (bias_ge F HF) as Hb. pose proof (m_ge F HF) as Hm.
  assert (Valid_exp (FLT_exp (1 - B - m) (m + 1))) as V by (apply FLT_exp_valid; unfold Prec_gt_0; lia).
  destruct (Z.eq_dec x 0) as [->|Nx].
  { rewrite round_0 by apply valid_rnd_N. unfold round_sig. destruct (Z.log2 0 - (m + 1 - 1) <=? 0) eqn:E; [reflexivity|]. cbn [Z.log2] in E. lia. }
  assert (0 < x) as Px by lia. clear Nx. unfold round, scaled_mantissa, cexp. rewrite mag_log2 by exact Px. unfold FLT_exp. pose proof (Z.log2_nonneg x) as L0.
  replace (Z.log2 x + 1 - (m + 1)) with (Z.log2 x - m) by lia. rewrite Z.max_l by lia.
  unfold round_sig. replace (m + 1 - 1) with m by lia. destruct (Z.leb_spec (Z.log2 x - m) 0) as [L|L].
  - replace (IZR x * bpow radix2 (- (Z.log2 x - m)))%R with (IZR (x * 2 ^ (m - Z.log2 x))).
    2:{ rewrite mult_IZR. f_equal. replace (- (Z.log2 x - m)) with (m - Z.log2 x) by lia. apply (IZR_Zpower radix2). lia. }
    rewrite Znearest_imp with (n := x * 2 ^ (m - Z.log2 x)) by (unfold Rminus; rewrite Rplus_opp_r, Rabs_R0; lra).
    unfold F2R. cbn [Fnum Fexp]. rewrite mult_IZR, Rmult_assoc. replace (IZR (2 ^ (m - Z.log2 x))) with (bpow radix2 (m - Z.log2 x)) by (symmetry; apply (IZR_Zpower radix2); lia).
    rewrite <- bpow_plus. replace (m - Z.log2 x + (Z.log2 x - m)) with 0 by lia. cbn [bpow]. ring.
  - rewrite round_near by lia. cbv zeta. unfold F2R. cbn [Fnum Fexp].
    replace (bpow radix2 (Z.log2 x - m)) with (IZR (2 ^ (Z.log2 x - m))) by (apply (IZR_Zpower radix2); lia).
    rewrite <- mult_IZR. reflexivity.
Qed.

Lemma round_int_neg v : round radix2 (FLT_exp (1 - B - m) (m + 1)) ZnearestE (IZR v) = IZR (Z.sgn v * round_sig (m + 1) (Z.abs v)).
Proof.
  destruct (Z_lt_le_dec v 0) as [H|H].
  - replace v with (- (Z.abs v)) at 1 by lia. rewrite opp_IZR, round_NE_opp, round_int by lia. rewrite Z.sgn_neg by lia. rewrite <- opp_IZR. f_equal.
  - rewrite round_int by lia. rewrite Z.abs_eq by lia. destruct (Z.eq_dec v 0) as [->|N].
    + f_equal. pose proof (m_ge F HF). unfold round_sig. destruct (Z.log2 0 - (m + 1 - 1) <=? 0) eqn:E; [reflexivity|]. cbn [Z.log2] in E. lia.
    + rewrite Z.sgn_pos by lia. f_equal. ring.
Qed.

Lemma round_sig_pos p x : 1 <= p -> 0 < x -> 0 < round_sig p x.
Proof.
  intros Hp Hx. unfold round_sig. cbv zeta. set (s := Z.log2 x - (p - 1)). destruct (Z.leb_spec s 0); auto.
  assert (0 < 2 ^ s) by (apply Z.pow_pos_nonneg; lia).
  assert (1 <= x / 2 ^ s). { apply Z.div_le_lower_bound; [lia|]. rewrite Z.mul_1_r. etransitivity; [apply Z.pow_le_mono_r with (c := Z.log2 x); unfold s; lia|]. apply Z.log2_spec. auto. }
  destruct (_ || _); nia.
Qed.

Section Flocq.
Variables (Hm : 0 < m) (He : 0 < e) (Hmax : m + 1 < 2 ^ (e - 1)).
Notation prec := (m + 1).
Notation emax := (2 ^ (e - 1)).
Notation of_bits := (binary_float_of_bits m e Hm He Hmax).

Lemma tie_decode b : pattern_of F b ->
  match fp_decode F b with
  | DNan => Binary.is_nan prec emax (of_bits b) = true
  | DInf s => of_bits b = B754_infinity prec emax s
  | DFin u => is_finite prec emax (of_bits b) = true /\ Bsign prec emax (of_bits b) = (2 ^ (e + m) <=? b) /\ B2R prec emax (of_bits b) = (IZR u * least)%R
  end.
Proof.
  intros P. pose proof (aux_decode b P) as A. unfold binary_float_of_bits. cbv zeta.
  destruct (fp_decode F b).
  - rewrite is_nan_FF2B. destruct A as (s & p & ->). reflexivity.
  - apply B2FF_inj. rewrite B2FF_FF2B. exact A.
  - rewrite is_finite_FF2B, Bsign_FF2B, B2R_FF2B. exact A.
Qed.

Lemma tie_compare a b : pattern_of F a -> pattern_of F b -> fp_cmp F a b = Bcompare prec emax (of_bits a) (of_bits b).
Proof.
  intros Pa Pb. pose proof (tie_decode a Pa) as A. pose proof (tie_decode b Pb) as C. unfold fp_cmp.
  set (x := of_bits a) in *. set (y := of_bits b) in *. clearbody x y.
  destruct (fp_decode F a) as [|s|u].
  - destruct x; try discriminate A. destruct y; reflexivity.
  - subst x. destruct (fp_decode F b) as [|t|v].
    + destruct y; try discriminate C. destruct s; reflexivity.
    + subst y. destruct s, t; reflexivity.
    + destruct C as [C _]. destruct y; try discriminate C; destruct s; reflexivity.
  - destruct A as (A1 & _ & A2). destruct (fp_decode F b) as [|t|v].
    + destruct y; try discriminate C. destruct x; reflexivity.
    + subst y. destruct x; try discriminate A1; destruct t; reflexivity.
    + destruct C as (C1 & _ & C2). rewrite Bcompare_correct by auto. rewrite A2, C2.
      rewrite Rcompare_mult_r by apply bpow_gt_0. rewrite Rcompare_IZR. reflexivity.
Qed.

Lemma tie_of_int (Hp : Prec_gt_0 prec) (Hl : BinarySingleNaN.Prec_lt_emax prec emax) v :
  fl_of_int F v = bits_of_binary_float m e (binary_normalize prec emax Hp Hl BinarySingleNaN.mode_NE v 0 false).
Proof.
  assert (Pat : pattern_of F (fl_of_int F v)).
  { destruct (Z_lt_le_dec (round_sig (m + 1) (Z.abs v)) (2 ^ (B + 1))); [apply of_int_finite|apply of_int_inf]; auto. }
  rewrite <- (bits_of_binary_float_of_bits m e Hm He Hmax (fl_of_int F v)).
  2:{ replace (m + e + 1) with (1 + e + m) by lia. exact Pat. }
  f_equal. pose proof (tie_decode _ Pat) as T. set (x := of_bits (fl_of_int F v)) in *.
  pose proof (binary_normalize_correct prec emax Hp Hl BinarySingleNaN.mode_NE v 0 false) as C. set (y := binary_normalize _ _ _ _ _ _ _ _) in *.
  replace (F2R (Float radix2 v 0)) with (IZR v) in C by (unfold F2R; cbn [Fnum Fexp bpow]; ring).
  change (SpecFloat.fexp prec emax) with (FLT_exp (3 - emax - prec) prec) in C. rewrite emin_eq in C. cbn [BinarySingleNaN.round_mode] in C.
  rewrite round_int_neg in C. set (r := round_sig (m + 1) (Z.abs v)) in *.
  assert (R0 : 0 <= r) by (destruct (Z.eq_dec v 0) as [->|N]; [unfold r; apply round_nonneg; lia|apply Z.lt_le_incl, round_sig_pos; lia]).
  assert (Eb : bpow radix2 emax = IZR (2 ^ (B + 1))). { unfold bias. rewrite Z.sub_add. symmetry. apply (IZR_Zpower radix2). apply Z.pow_nonneg. lia. }
  rewrite Eb in C. rewrite <- abs_IZR in C.
  destruct (Z_lt_le_dec r (2 ^ (B + 1))) as [L|G].
  - rewrite Rlt_bool_true in C by (apply IZR_lt; destruct (Z.sgn_spec v) as [(? & ->)|[(? & ->)|(? & ->)]]; lia).
    destruct C as (C1 & C2 & C3). destruct (of_int_finite F HF v L) as [_ D]. rewrite D in T. destruct T as (T1 & T2 & T3). fold r in T3.
    assert (EV : B2R prec emax x = B2R prec emax y).
    { rewrite T3, C1. rewrite !mult_IZR. pose proof (bias_ge F HF). replace (IZR (2 ^ (B - 1 + m))) with (bpow radix2 (B - 1 + m)) by (symmetry; apply (IZR_Zpower radix2); lia).
      rewrite Rmult_assoc, <- bpow_plus. replace (B - 1 + m + (1 - B - m)) with 0 by lia. cbn [bpow]. ring. }
    destruct (Z.eq_dec v 0) as [Ev|Nv].
    + apply B2R_Bsign_inj; auto. rewrite T2, C3. rewrite Ev. rewrite Rcompare_Eq by reflexivity.
      unfold fl_of_int. cbn [Z.abs]. replace (round_sig (m + 1) 0) with 0. 2:{ unfold round_sig. destruct (Z.log2 0 - (m + 1 - 1) <=? 0) eqn:Q; [reflexivity|]. cbn [Z.log2] in Q. lia. }
      cbn [Z.eqb]. apply Z.leb_gt. apply Z.pow_pos_nonneg; lia.
    + assert (r <> 0) as Nr by (pose proof (round_sig_pos (m + 1) (Z.abs v) ltac:(lia) ltac:(lia)); unfold r; lia).
      assert (NZ : B2R prec emax y <> 0%R). { rewrite C1. apply not_0_IZR. destruct (Z.sgn_spec v) as [(? & ->)|[(? & ->)|(? & ->)]]; lia. }
      apply B2R_inj; auto.
      * rewrite <- EV in NZ. destruct x; cbn in *; try discriminate; auto; elim NZ; reflexivity.
      * destruct y; cbn in *; try discriminate; auto; elim NZ; reflexivity.
  - assert (v <> 0) as Nv. { intros ->. assert (0 < 2 ^ (B + 1)) by (apply Z.pow_pos_nonneg; [lia|pose proof (bias_ge F HF); lia]). unfold r in G. cbn [Z.abs] in G.
      replace (round_sig (m + 1) 0) with 0 in G; [lia|]. unfold round_sig. destruct (Z.log2 0 - (m + 1 - 1) <=? 0) eqn:Q; [reflexivity|]. cbn [Z.log2] in Q. lia. }
    rewrite Rlt_bool_false in C by (apply IZR_le; destruct (Z.sgn_spec v) as [(? & ->)|[(? & ->)|(? & ->)]]; lia).
    destruct (of_int_inf F HF v G) as [_ D]. rewrite D in T. rewrite T. apply B2FF_inj. rewrite C. cbn [B2FF].
    unfold binary_overflow, BinarySingleNaN.binary_overflow. cbn [BinarySingleNaN.overflow_to_inf SF2FF]. f_equal.
    destruct (Z.ltb_spec v 0); [rewrite Rlt_bool_true|rewrite Rlt_bool_false]; auto; [apply IZR_lt|apply IZR_le]; auto.
Qed.

End Flocq.
End Tie.
