(** C130 and C131: fixed-point numbers over the K-byte unsigned integers, [Fixed<U<K>, N>]. *)
From Coq Require Import ZArith QArith Qround Qabs List Bool Lia.
From Verif Require Import ElementModel Base Words Spec Arith BitSliceModel BitSliceProofs BitwiseProofs UModel UProofs PropBits PropU PropDiv
  RealSpec RealProofs PrimModel PrimProofs PropPrim FixedModel PropReals PropReals2 FixedUModel.
From Verif Require Import Spec.
Import ListNotations.
Local Open Scope Z_scope.

(** The shift amounts that [U<K>] honours: below the width and, in release builds, below the
    largest power of two that does not exceed the width (C10). *)
Definition shiftable (dbg : bool) (K s : nat) : Prop :=
  (s < 8 * K)%nat /\ (dbg = false -> (s < 2 ^ Nat.log2 (8 * K))%nat) /\ Z.of_nat (8 * K) < 2 ^ 64.

(** A [U<K>]. *)
Definition is_u (K : nat) (a : list Z) : Prop := wf 8 a /\ length a = K.

(** Every amount below the width, in either build, when [K] is a power of two. *)
Theorem C130_shiftable_pow2 : forall dbg k s, (s < 8 * 2 ^ k)%nat -> Z.of_nat (8 * 2 ^ k) < 2 ^ 64 ->
  shiftable dbg (2 ^ k) s.
Proof.
  intros dbg k s Hs H64. split; [|split]; auto. intros _.
  replace (8 * 2 ^ k)%nat with (2 ^ (3 + k))%nat in * by (rewrite Nat.pow_add_r; reflexivity).
  rewrite Nat.log2_pow2 by lia. auto.
Qed.
Print Assumptions C130_shiftable_pow2.

Lemma shl_ok dbg K s a : shiftable dbg K s -> is_u K a ->
  exists c, u_shl dbg a s = Ok c /\ is_u K c /\ val 8 c = (val 8 a * 2 ^ Z.of_nat s) mod cap 8 K.
Proof.
  intros (H1 & H2 & H3) [Wa La]. subst K.
  destruct (C30_shl_partial a s Wa ltac:(lia) H3) as (A & _ & B).
  destruct dbg.
  - destruct (A ltac:(lia)) as (c & E & W & L & V). exists c. repeat split; auto.
  - destruct B as (c & E & W & L & V); [|exists c; repeat split; auto].
    specialize (H2 eq_refl). apply Nat2Z.inj_lt in H2. rewrite Nat2Z.inj_pow in H2.
    change (Z.of_nat 2) with 2 in H2.
    rewrite Zlog2_of_nat by lia. auto.
Qed.

Lemma shr_ok dbg K s a : shiftable dbg K s -> is_u K a ->
  exists c, u_shr dbg a s = Ok c /\ is_u K c /\ val 8 c = val 8 a / 2 ^ Z.of_nat s + kept_bits 8 a s.
Proof.
  intros (H1 & H2 & H3) [Wa La]. subst K.
  destruct (C30_shr_partial a s Wa ltac:(lia) H3) as (A & _ & B & _).
  destruct dbg.
  - destruct (A ltac:(lia)) as (c & E & W & L & V). exists c. repeat split; auto.
  - destruct (B (H2 eq_refl)) as (c & E & W & L & V). exists c. repeat split; auto.
Qed.

(** The bits that the right shift leaves behind are those that the left shift drops. *)
Lemma kept_gone a s : wf 8 a -> (s < 8 * length a)%nat ->
  (kept_bits 8 a s * 2 ^ Z.of_nat s) mod cap 8 (length a) = 0.
Proof.
  intros Wa Hs. unfold kept_bits. cbv zeta. set (t := (length a - 1 - s / 8)%nat).
  assert (s = 8 * (s / 8) + s mod 8)%nat as Es by (apply Nat.div_mod; lia).
  assert (s mod 8 < 8)%nat as Hm by (apply Nat.mod_upper_bound; lia).
  assert (length a = t + 1 + s / 8)%nat as El by (unfold t; lia).
  set (X := nth t a 0 / _). 
  replace (X * 2 ^ Z.of_nat (8 - s mod 8) * cap 8 t * 2 ^ Z.of_nat s) with (X * cap 8 (length a)).
  - apply Z_mod_mult.
  - rewrite <- !Z.mul_assoc. f_equal. unfold cap. rewrite <- !Z.pow_add_r by lia. f_equal. lia.
Qed.

Lemma floor_u dbg N K x : shiftable dbg K N -> is_u K x ->
  exists r, fu_floor dbg N x = Ok r /\ is_u K r /\ val 8 r = val 8 x / 2 ^ Z.of_nat N * 2 ^ Z.of_nat N.
Proof.
  intros S U. destruct (shr_ok dbg K N x S U) as (c & E & Uc & V).
  destruct (shl_ok dbg K N c S Uc) as (r & E2 & Ur & V2). exists r.
  unfold fu_floor. rewrite E. cbn [bind]. split; [auto|]. split; [auto|].
  rewrite V2, V. destruct U as [Wx Lx], S as (S1 & _). pose proof (two_pow_pos N).
  rewrite Z.mul_add_distr_r, Z.add_mod, <- Lx, kept_gone, Z.add_0_r, Z.mod_mod by (rewrite ?Lx; auto; unfold cap; lia).
  apply Z.mod_small. pose proof (val_bound 8 x Wx) as R.
  pose proof (Z.mul_div_le (val 8 x) (2 ^ Z.of_nat N) ltac:(lia)).
  pose proof (Z.div_pos (val 8 x) (2 ^ Z.of_nat N) ltac:(lia) ltac:(lia)). nia.
Qed.

(** One, when it is representable. *)
Lemma one_u dbg N K : shiftable dbg K N ->
  exists o, fu_one dbg N K = Ok o /\ is_u K o /\ val 8 o = 2 ^ Z.of_nat N.
Proof.
  intros S. assert (0 < K)%nat as HK by (destruct S; lia).
  destruct (shl_ok dbg K N (u_one K) S) as (o & E & U & V); [split; [apply wf_u_one|apply length_u_one]|].
  exists o. split; [auto|]. split; [auto|]. rewrite V, val_u_one, Z.mul_1_l by auto.
  apply Z.mod_small. split; [lia|]. unfold cap. apply Z.pow_lt_mono_r; destruct S; lia.
Qed.

Lemma mask_u dbg N K : shiftable dbg K N ->
  exists m, fu_mask dbg N K = Ok m /\ is_u K m /\ val 8 m = 2 ^ Z.of_nat N - 1.
Proof.
  intros S. assert (0 < K)%nat as HK by (destruct S; lia). pose proof (two_pow_pos N).
  destruct (one_u dbg N K S) as (o & E & [W L] & V). unfold fu_mask. unfold fu_one in E. rewrite E. cbn [bind].
  destruct (C26_sub dbg o (u_one K) W (wf_u_one K)) as (H1 & _ & _); [rewrite length_u_one; auto|].
  cbv zeta in H1. rewrite V, val_u_one in H1 by auto. destruct (H1 ltac:(lia)) as (c & Ec & _ & _ & Wc & Lc & Vc).
  exists c. split; [auto|]. split; [split; [auto|congruence]|auto].
Qed.

Lemma bitand_val a b : wf 8 a -> wf 8 b -> length b = length a ->
  val 8 (u_bitand a b) = Z.land (val 8 a) (val 8 b).
Proof.
  intros Wa Wb L. apply Z.bits_inj'. intros i Hi. rewrite <- (Z2Nat.id i) by auto.
  destruct (C32_bitops a b (Z.to_nat i) Wa Wb L) as (_ & _ & H & _). rewrite H, Z.land_spec. reflexivity.
Qed.

Lemma whole_u dbg N K x : shiftable dbg K N -> is_u K x ->
  fu_is_whole dbg N x = Ok (val 8 x mod 2 ^ Z.of_nat N =? 0).
Proof.
  intros S [Wx Lx]. pose proof (two_pow_pos N).
  destruct (mask_u dbg N K S) as (m & E & [Wm Lm] & V). unfold fu_is_whole. rewrite Lx, E. cbn [bind].
  pose proof (C32_bitops m m 0 Wm Wm eq_refl) as (_ & _ & _ & _ & _ & _ & _ & _ & _ & Wn & Ln & Vn & _).
  pose proof (C32_bitops x (u_not m) 0 Wx Wn ltac:(congruence)) as (Wb & Lb & _).
  rewrite u_eqb_spec, bitand_val by (auto; congruence). f_equal.
  rewrite Vn, V, Lm. pose proof (val_bound 8 x Wx) as R. rewrite Lx in R.
  assert (cap 8 K = 2 ^ Z.of_nat (8 * K)) as EC by (unfold cap; f_equal; lia).
  assert (Z.land (val 8 x) (cap 8 K - 1 - (2 ^ Z.of_nat N - 1)) = val 8 x / 2 ^ Z.of_nat N * 2 ^ Z.of_nat N) as ->.
  { replace (cap 8 K - 1 - (2 ^ Z.of_nat N - 1)) with (Z.shiftl (Z.ones (Z.of_nat (8 * K - N))) (Z.of_nat N)).
    2:{ rewrite Z.shiftl_mul_pow2, Z.ones_equiv by lia. rewrite EC. unfold Z.pred.
        rewrite Z.mul_add_distr_r, <- Z.pow_add_r by lia.
        replace (Z.of_nat (8 * K - N) + Z.of_nat N) with (Z.of_nat (8 * K)) by (destruct S; lia). lia. }
    rewrite <- Z.shiftl_mul_pow2, <- Z.shiftr_div_pow2 by lia. apply Z.bits_inj'. intros i Hi.
    rewrite Z.land_spec, !Z.shiftl_spec by lia. destruct (Z.ltb_spec i (Z.of_nat N)).
    - rewrite !(Z.testbit_neg_r _ (i - Z.of_nat N)) by lia. apply andb_false_r.
    - rewrite Z.shiftr_spec by lia. replace (i - Z.of_nat N + Z.of_nat N) with i by lia.
      destruct (Z.ltb_spec i (Z.of_nat (8 * K))).
      + rewrite Z.ones_spec_low by lia. apply andb_true_r.
      + assert (Z.testbit (val 8 x) i = false) as ->; [|reflexivity].
        destruct (Z.eq_dec (val 8 x) 0) as [->|]; [apply Z.bits_0|].
        apply Z.bits_above_log2; [lia|]. apply Z.log2_lt_pow2; [lia|].
        apply Z.lt_le_trans with (2 ^ Z.of_nat (8 * K)); [lia|]. apply Z.pow_le_mono_r; lia. }
  pose proof (Z.div_mod (val 8 x) (2 ^ Z.of_nat N) ltac:(lia)).
  destruct (Z.eqb_spec (val 8 x / 2 ^ Z.of_nat N * 2 ^ Z.of_nat N) (val 8 x)),
    (Z.eqb_spec (val 8 x mod 2 ^ Z.of_nat N) 0); auto; exfalso; nia.
Qed.

(** ** C130 *)

(** An operation whose exact result is the number [q]: that value when a [U<K>] with [N] fraction
    bits represents it, else a panic with overflow checks. *)
Definition exact_u (dbg : bool) (K N : nat) (q : Q) (res : res U) : Prop :=
  (forall r, is_u K r -> (fixed_val N (val 8 r) == q)%Q -> res = Ok r) /\
  ((forall r, is_u K r -> ~ (fixed_val N (val 8 r) == q)%Q) -> dbg = true -> res = Panic).

Lemma fixed_eq N a b : (fixed_val N a == fixed_val N b)%Q <-> a = b.
Proof. pose proof (two_pow_pos N). rewrite !fixed_frac, frac_eq by lia. nia. Qed.

Lemma exact_u_intro dbg K N q s res : (fixed_val N s == q)%Q ->
  (0 <= s < cap 8 K -> exists c, res = Ok c /\ is_u K c /\ val 8 c = s) ->
  (s < 0 \/ cap 8 K <= s -> dbg = true -> res = Panic) -> exact_u dbg K N q res.
Proof.
  intros E H1 H2. split.
  - intros r [Wr Lr] Er. rewrite <- E in Er. apply fixed_eq in Er.
    pose proof (val_bound 8 r Wr) as B. rewrite Lr, Er in B. destruct (H1 B) as (c & -> & [Wc Lc] & V).
    f_equal. apply (val_inj 8); auto; congruence.
  - intros H0 D. destruct (Z.ltb_spec s 0); [apply H2; auto|]. destruct (Z.leb_spec (cap 8 K) s); [apply H2; auto|].
    destruct (H1 ltac:(lia)) as (c & _ & Uc & V). exfalso. apply (H0 c Uc). rewrite V. auto.
Qed.

Lemma fixed_add N a b : (fixed_val N (a + b) == fixed_val N a + fixed_val N b)%Q.
Proof.
  unfold fixed_val. rewrite inject_Z_plus. field. apply inj_nz. pose proof (two_pow_pos N). lia.
Qed.

Lemma add_exact dbg K N a b q : is_u K a -> is_u K b -> (fixed_val N (val 8 a + val 8 b) == q)%Q ->
  exact_u dbg K N q (u_add dbg a b).
Proof.
  intros [Wa La] [Wb Lb] E. destruct (C26_add dbg a b Wa Wb ltac:(congruence)) as (H1 & H2 & _).
  cbv zeta in H1, H2. rewrite La in H1, H2. pose proof (val_bound 8 a Wa). pose proof (val_bound 8 b Wb).
  apply exact_u_intro with (s := val 8 a + val 8 b); auto.
  - intros [_ B]. destruct (H1 B) as (c & Ec & _ & _ & Wc & Lc & V). exists c. repeat split; auto.
  - intros [?|B] ->; [lia|]. apply H2; auto.
Qed.

(** Sums and differences are exact; a value that is not representable panics with overflow
    checks and is reduced modulo [2^(8K)] without. *)
Theorem C130_add_sub : forall dbg K N a b, is_u K a -> is_u K b ->
  exact_u dbg K N (fixed_val N (val 8 a) + fixed_val N (val 8 b)) (fu_add dbg a b) /\
  exact_u dbg K N (fixed_val N (val 8 a) - fixed_val N (val 8 b)) (fu_sub dbg a b) /\
  (exists c, fu_add false a b = Ok c /\ is_u K c /\ val 8 c = (val 8 a + val 8 b) mod cap 8 K) /\
  (exists c, fu_sub false a b = Ok c /\ is_u K c /\ val 8 c = (val 8 a - val 8 b) mod cap 8 K).
Proof.
  intros dbg K N a b [Wa La] [Wb Lb]. pose proof (val_bound 8 a Wa) as Ba. pose proof (val_bound 8 b Wb) as Bb.
  rewrite La in Ba. rewrite Lb in Bb. split; [|split; [|split]].
  - apply add_exact; try split; auto. apply fixed_add.
  - destruct (C26_sub dbg a b Wa Wb ltac:(congruence)) as (H1 & H2 & _). cbv zeta in H1, H2. rewrite La in H1, H2.
    apply exact_u_intro with (s := val 8 a - val 8 b); auto.
    + unfold fixed_val, Z.sub. rewrite inject_Z_plus, inject_Z_opp. field. apply inj_nz. pose proof (two_pow_pos N). lia.
    + intros [B _]. destruct (H1 B) as (c & Ec & _ & _ & Wc & Lc & V). exists c. repeat split; auto.
    + intros [B|?] ->; [|lia]. apply H2; auto.
  - destruct (C26_add false a b Wa Wb ltac:(congruence)) as (H1 & H2 & _). cbv zeta in H1, H2. rewrite La in H1, H2.
    destruct (Z.ltb_spec (val 8 a + val 8 b) (cap 8 K)) as [B|B].
    + destruct (H1 B) as (c & Ec & _ & _ & Wc & Lc & V). exists c. rewrite Z.mod_small by lia. repeat split; auto.
    + destruct (H2 B) as (_ & _ & _ & c & Ec & Wc & Lc & V). exists c. repeat split; auto.
  - destruct (C26_sub false a b Wa Wb ltac:(congruence)) as (H1 & H2 & _). cbv zeta in H1, H2. rewrite La in H1, H2.
    destruct (Z.leb_spec 0 (val 8 a - val 8 b)) as [B|B].
    + destruct (H1 B) as (c & Ec & _ & _ & Wc & Lc & V). exists c. rewrite Z.mod_small by lia. repeat split; auto.
    + destruct (H2 B) as (_ & _ & _ & c & Ec & Wc & Lc & V). exists c. repeat split; auto.
Qed.
Print Assumptions C130_add_sub.

(** Two values are equal exactly when they denote the same number. *)
Theorem C130_eq : forall K N a b, is_u K a -> is_u K b ->
  fu_eq a b = true <-> (fixed_val N (val 8 a) == fixed_val N (val 8 b))%Q.
Proof.
  intros K N a b [Wa La] [Wb Lb]. rewrite fixed_eq. unfold fu_eq. rewrite u_eqb_spec by (auto; congruence). apply Z.eqb_eq.
Qed.
Print Assumptions C130_eq.

(** [from_val v] denotes [v] when [v * 2^N] fits; otherwise the high bits are lost, in either
    build.  [one] denotes 1 and [zero] denotes 0. *)
Theorem C130_from_val : forall dbg K N v, shiftable dbg K N -> is_u K v ->
  exists r o, fu_from_val dbg N v = Ok r /\ is_u K r /\ val 8 r = (val 8 v * 2 ^ Z.of_nat N) mod cap 8 K /\
    (val 8 v * 2 ^ Z.of_nat N < cap 8 K -> (fixed_val N (val 8 r) == inject_Z (val 8 v))%Q) /\
    fu_one dbg N K = Ok o /\ is_u K o /\ (fixed_val N (val 8 o) == 1)%Q /\
    is_u K (fu_zero K) /\ (fixed_val N (val 8 (fu_zero K)) == 0)%Q.
Proof.
  intros dbg K N v S U. destruct (shl_ok dbg K N v S U) as (r & E & Ur & V).
  destruct (one_u dbg N K S) as (o & Eo & Uo & Vo). exists r, o. pose proof (two_pow_pos N).
  split; [auto|]. split; [auto|]. split; [auto|]. split.
  { intros B. rewrite V, Z.mod_small by (split; [destruct U as [W _]; pose proof (val_bound 8 v W); nia|auto]).
    apply val_mul. }
  split; [auto|]. split; [auto|]. split.
  { rewrite Vo, <- (Z.mul_1_l (2 ^ Z.of_nat N)). apply val_mul. }
  unfold fu_zero, u_zero. split; [split; [apply wf_zeros|apply repeat_length]|]. rewrite val_zeros. reflexivity.
Qed.
Print Assumptions C130_from_val.

(** [is_zero] and [is_one] recognise 0 and 1; [min_value] and [max_value] are values and bound all values. *)
Theorem C130_constants : forall dbg K N x, shiftable dbg K N -> is_u K x ->
  (fu_is_zero x = true <-> (fixed_val N (val 8 x) == 0)%Q) /\
  (exists b, fu_is_one dbg N x = Ok b /\ (b = true <-> (fixed_val N (val 8 x) == 1)%Q)) /\
  is_u K (fu_min_value K) /\ is_u K (fu_max_value K) /\
  (fixed_val N (val 8 (fu_min_value K)) == 0)%Q /\ (fixed_val N (val 8 (fu_min_value K)) <= fixed_val N (val 8 x))%Q /\
  (fixed_val N (val 8 x) <= fixed_val N (val 8 (fu_max_value K)))%Q.
Proof.
  intros dbg K N x S [Wx Lx]. pose proof (two_pow_pos N) as P2. pose proof (val_bound 8 x Wx) as B. rewrite Lx in B.
  destruct (one_u dbg N K S) as (o & Eo & [Wo Lo] & Vo).
  assert (Q0 : (fixed_val N 0 == 0)%Q) by reflexivity.
  assert (Q1 : (fixed_val N (2 ^ Z.of_nat N) == 1)%Q) by (rewrite <- (Z.mul_1_l (2 ^ Z.of_nat N)); apply val_mul).
  assert (Mono : forall a b, a <= b -> (fixed_val N a <= fixed_val N b)%Q).
  { intros a b H. unfold fixed_val. apply Qmult_le_compat_r; [rewrite <- Zle_Qle; exact H|]. apply Qinv_le_0_compat.
    change 0%Q with (inject_Z 0). rewrite <- Zle_Qle. lia. }
  split; [|split; [|split; [|split; [|split; [|split]]]]].
  - unfold fu_is_zero. rewrite u_is_zero_spec by auto. rewrite Z.eqb_eq, <- Q0, fixed_eq. reflexivity.
  - exists (u_eqb x o). unfold fu_is_one. rewrite Lx, Eo. cbn [bind]. split; [reflexivity|].
    rewrite u_eqb_spec by (auto; congruence). rewrite Z.eqb_eq, <- Q1, fixed_eq, Vo. reflexivity.
  - split; [apply wf_zeros|apply repeat_length].
  - split; [|apply repeat_length]. unfold fu_max_value, u_max. apply Forall_forall. intros b Hb. apply repeat_spec in Hb. subst b. unfold base. cbn. lia.
  - unfold fu_min_value, u_zero. rewrite val_zeros. exact Q0.
  - apply Mono. unfold fu_min_value, u_zero. rewrite val_zeros. lia.
  - apply Mono. unfold fu_max_value. rewrite val_u_max. lia.
Qed.
Print Assumptions C130_constants.

Example C130_constants_demo : shiftable true 2 4 /\ is_u 2 [16; 0] /\ fu_is_one true 4 [16; 0] = Ok true /\ fu_is_one true 4 [1; 0] = Ok false /\
  fu_is_zero [0; 1] = false /\ fu_max_value 2 = [255; 255].
Proof. split; [split; [lia|split; [discriminate|reflexivity]]|]. split; [split; [repeat constructor; cbn; lia|reflexivity]|]. repeat split; vm_compute; reflexivity. Qed.

(** Rounding down and up, and recognising whole numbers, are exact. *)
Theorem C130_floor_ceil : forall dbg K N x, shiftable dbg K N -> is_u K x ->
  (exists r, fu_floor dbg N x = Ok r /\ is_u K r /\
     (fixed_val N (val 8 r) == inject_Z (Qfloor (fixed_val N (val 8 x))))%Q) /\
  exact_u dbg K N (inject_Z (Qceiling (fixed_val N (val 8 x)))) (fu_ceil dbg N x) /\
  (exists b, fu_is_whole dbg N x = Ok b /\ (b = true <-> exists k, (fixed_val N (val 8 x) == inject_Z k)%Q)).
Proof.
  intros dbg K N x S U. pose proof (two_pow_pos N) as HP.
  destruct (floor_u dbg N K x S U) as (r & E & Ur & V). destruct (one_u dbg N K S) as (o & Eo & Uo & Vo).
  pose proof (whole_u dbg N K x S U) as EW. split; [|split].
  - exists r. split; [auto|]. split; [auto|]. rewrite V, val_mul, fixed_frac, frac_floor. reflexivity.
  - unfold fu_ceil. rewrite EW, E. cbn [bind]. replace (length x) with K by (destruct U; auto). rewrite Eo. cbn [bind].
    assert (inject_Z (Qceiling (fixed_val N (val 8 x))) == fixed_val N (- (- val 8 x / 2 ^ Z.of_nat N) * 2 ^ Z.of_nat N))%Q as EQ.
    { rewrite val_mul, fixed_frac, frac_ceil. reflexivity. }
    pose proof (Z.div_mod (val 8 x) (2 ^ Z.of_nat N) ltac:(lia)) as D.
    pose proof (Z.mod_pos_bound (val 8 x) (2 ^ Z.of_nat N) ltac:(lia)) as R.
    destruct (Z.eqb_spec (val 8 x mod 2 ^ Z.of_nat N) 0) as [E0|N0].
    + apply exact_u_intro with (s := val 8 r).
      * rewrite EQ. apply fixed_eq. rewrite V. rewrite Z.div_opp_l_z by lia. lia.
      * intros _. exists r. auto.
      * intros B. destruct Ur as [Wr Lr]. pose proof (val_bound 8 r Wr) as Br. rewrite Lr in Br. lia.
    + apply add_exact; auto. rewrite EQ. apply fixed_eq. rewrite V, Vo, Z.div_opp_l_nz by lia. lia.
  - eexists. split; [apply EW|]. rewrite Z.eqb_eq. split.
    + intros E0. exists (val 8 x / 2 ^ Z.of_nat N). rewrite <- val_mul. apply fixed_eq.
      pose proof (Z.div_mod (val 8 x) (2 ^ Z.of_nat N)). lia.
    + intros [k Ek]. rewrite <- val_mul in Ek. apply fixed_eq in Ek. rewrite Ek. apply Z.mod_mul. lia.
Qed.
Print Assumptions C130_floor_ceil.

(** With overflow checks, as many fraction bits as there are bits, or more: [floor] panics. *)
Theorem C130_too_many_bits : forall K N x, is_u K x -> (0 < K)%nat -> Z.of_nat (8 * K) < 2 ^ 64 ->
  (8 * K <= N)%nat -> fu_floor true N x = Panic.
Proof.
  intros K N x [W L] HK H64 HN. unfold fu_floor.
  destruct (C30_shr_partial x N W ltac:(lia) ltac:(rewrite L; auto)) as (_ & H & _).
  rewrite H by lia. reflexivity.
Qed.
Print Assumptions C130_too_many_bits.

(** 2.5 and 254.5 with 9 and 8 fraction bits in two bytes: floor, ceil and overflow. *)
Example C130_example :
  shiftable false 2 9 /\ shiftable true 3 20 /\ is_u 2 [0; 5] /\ (fixed_val 9 (val 8 [0; 5]%Z) == 5 # 2)%Q /\
  fu_floor false 9 [0; 5] = Ok [0; 4] /\ fu_ceil false 9 [0; 5] = Ok [0; 6] /\ fu_is_whole false 9 [0; 5] = Ok false /\
  fu_ceil true 8 [128; 255] = Panic /\ fu_ceil false 8 [128; 255] = Ok [0; 0] /\
  fu_one true 16 2 = Ok [0; 0] /\ fu_floor true 16 [1; 1] = Panic.
Proof.
  split; [split; [lia|]; split; [intros _; vm_compute; lia|lia]|]. split; [split; [lia|]; split; [discriminate|lia]|].
  split; [split; [wf_tac|reflexivity]|]. repeat split; reflexivity.
Qed.

(** ** C131 *)

(** With at most seven fraction bits the fractional part and the truncation are right. *)
Theorem C131_fract_trunc_partial : forall dbg K N x, shiftable dbg K N -> is_u K x -> (N <= 7)%nat ->
  exists f w, fu_fract dbg N x = Ok f /\ fu_trunc dbg N x = Ok w /\ is_u K f /\ is_u K w /\
    (fixed_val N (val 8 w) == inject_Z (Qfloor (fixed_val N (val 8 x))))%Q /\
    (fixed_val N (val 8 x) == fixed_val N (val 8 w) + fixed_val N (val 8 f))%Q /\
    (fixed_val N (val 8 f) < 1)%Q.
Proof.
  intros dbg K N x S U HN. destruct (one_u dbg N K S) as (o & Eo & [Wo Lo] & Vo). destruct U as [Wx Lx].
  pose proof (two_pow_pos N) as HP.
  assert (2 ^ Z.of_nat N <= 2 ^ 7) as H7 by (apply Z.pow_le_mono_r; lia). change (2 ^ 7) with 128 in H7.
  assert (0 < K)%nat as HK by (destruct S; lia). assert (Z.of_nat (8 * K) < 2 ^ 64) as H64 by (destruct S; tauto).
  destruct (C29_div_partial dbg x o Wx Wo ltac:(congruence) ltac:(lia) ltac:(rewrite Lx; auto) ltac:(lia) ltac:(lia))
    as (q & f & _ & _ & Ef & _ & Lf & _ & Wf & D & R).
  rewrite Vo in D, R. rewrite Lx in Lf.
  assert (val 8 q = val 8 x / 2 ^ Z.of_nat N) as Eq by (apply Z.div_unique with (val 8 f); lia).
  pose proof (val_bound 8 x Wx). pose proof (val_bound 8 f Wf).
  assert (0 <= val 8 q) by (rewrite Eq; apply Z.div_pos; lia).
  destruct (C26_sub dbg x f Wx Wf ltac:(congruence)) as (HS & _). cbv zeta in HS.
  destruct (HS ltac:(nia)) as (w & Ew & _ & _ & Ww & Lw & Vw).
  exists f, w. unfold fu_trunc, fu_fract. rewrite Lx, Eo. cbn [bind]. unfold fu_rem at 2. rewrite Ef. cbn [bind].
  split; [auto|]. split; [auto|]. split; [split; auto|]. split; [split; congruence|]. split; [|split].
  - rewrite fixed_frac, fixed_frac, frac_floor, <- fixed_frac, <- val_mul. apply fixed_eq. lia.
  - rewrite <- fixed_add. apply fixed_eq. lia.
  - rewrite <- (val_mul N 1). apply fixed_val_lt. lia.
Qed.
Print Assumptions C131_fract_trunc_partial.

(** Whatever the number of fraction bits: the value and its "fractional part" differ by a whole
    number, and [trunc] subtracts it, panicking (or wrapping) when it exceeds the value. *)
Theorem C131_fract_congruence_partial : forall dbg K N x, shiftable dbg K N -> is_u K x ->
  exists f, fu_fract dbg N x = Ok f /\ is_u K f /\
    val 8 f mod 2 ^ Z.of_nat N = val 8 x mod 2 ^ Z.of_nat N /\
    (val 8 f <= val 8 x -> exists w, fu_trunc dbg N x = Ok w /\ is_u K w /\ val 8 w = val 8 x - val 8 f) /\
    (val 8 x < val 8 f -> if dbg then fu_trunc dbg N x = Panic
       else exists w, fu_trunc dbg N x = Ok w /\ is_u K w /\ val 8 w = val 8 x - val 8 f + cap 8 K).
Proof.
  intros dbg K N x S U. destruct (one_u dbg N K S) as (o & Eo & [Wo Lo] & Vo). destruct U as [Wx Lx].
  assert (0 < K)%nat as HK by (destruct S; lia). assert (Z.of_nat (8 * K) < 2 ^ 64) as H64 by (destruct S; tauto).
  destruct (C29_congruence_partial dbg x o Wx Wo ltac:(congruence) ltac:(lia) ltac:(rewrite Lx; auto))
    as (q & f & _ & _ & Ef & _ & Lf & _ & Wf & D).
  exists f. rewrite Vo, Lx in D. unfold fu_trunc.
  assert (fu_fract dbg N x = Ok f) as EF by (unfold fu_fract; rewrite Lx, Eo; cbn [bind]; auto).
  rewrite EF. cbn [bind]. split; [auto|]. split; [split; congruence|]. pose proof (two_pow_pos N) as HP. split.
  { assert (cap 8 K = 2 ^ Z.of_nat (8 * K - N) * 2 ^ Z.of_nat N) as EC.
    { unfold cap. rewrite <- Z.pow_add_r by lia. f_equal. destruct S; lia. }
    pose proof (two_pow_pos (8 * K - N)) as HQ.
    rewrite Z.mod_eq in D by lia. rewrite <- D, EC.
    replace (val 8 q * 2 ^ Z.of_nat N + val 8 f - _) with
      (val 8 f + (val 8 q - 2 ^ Z.of_nat (8 * K - N) * ((val 8 q * 2 ^ Z.of_nat N + val 8 f) / (2 ^ Z.of_nat (8 * K - N) * 2 ^ Z.of_nat N))) * 2 ^ Z.of_nat N) by ring.
    rewrite Z_mod_plus_full. reflexivity. }
  destruct (C26_sub dbg x f Wx Wf ltac:(congruence)) as (H1 & H2 & _). cbv zeta in H1, H2. split.
  - intros B. destruct (H1 ltac:(lia)) as (w & Ew & _ & _ & Ww & Lw & Vw). exists w. repeat split; auto; congruence.
  - intros B. destruct (H2 ltac:(lia)) as (E1 & _ & _ & w & E2 & Ww & Lw & Vw). destruct dbg; [auto|].
    exists w. split; [auto|]. split; [split; congruence|]. rewrite Vw, Lx.
    pose proof (val_bound 8 x Wx). pose proof (val_bound 8 f Wf). rewrite Lf, Lx in *.
    symmetry. apply Z.mod_unique with (-1); lia.
Qed.
Print Assumptions C131_fract_congruence_partial.

(** With at most six fraction bits [round] is [ceil]: the half it compares with is zero. *)
Theorem C131_round_partial : forall dbg K N x, shiftable dbg K N -> is_u K x -> (N <= 6)%nat ->
  exact_u dbg K N (inject_Z (Qceiling (fixed_val N (val 8 x)))) (fu_round dbg N x).
Proof.
  intros dbg K N x S U HN.
  destruct (C130_floor_ceil dbg K N x S U) as (_ & HC & _).
  enough (fu_round dbg N x = fu_ceil dbg N x) as -> by auto.
  destruct (one_u dbg N K S) as (o & Eo & [Wo Lo] & Vo). destruct U as [Wx Lx].
  pose proof (two_pow_pos N) as HP.
  assert (2 ^ Z.of_nat N <= 2 ^ 6) as H7 by (apply Z.pow_le_mono_r; lia). change (2 ^ 6) with 64 in H7.
  assert (0 < K)%nat as HK by (destruct S; lia). assert (Z.of_nat (8 * K) < 2 ^ 64) as H64 by (destruct S; tauto).
  assert (256 <= cap 8 K) as HC256.
  { unfold cap. change 256 with (2 ^ 8). apply Z.pow_le_mono_r; lia. }
  destruct (C26_add dbg o o Wo Wo eq_refl) as (H1 & _). cbv zeta in H1. rewrite Lo, Vo in H1.
  destruct (H1 ltac:(lia)) as (two & Et & _ & _ & Wt & Lt & Vt).
  destruct (C29_div_partial dbg o two Wo Wt ltac:(congruence) ltac:(lia) ltac:(rewrite Lo; auto) ltac:(lia) ltac:(lia))
    as (half & r & Eh & _ & _ & Lh & _ & Wh & _ & Dh & Rh).
  assert (val 8 half = 0) as Vh by (pose proof (val_bound 8 half Wh); nia).
  destruct (C131_fract_trunc_partial dbg K N x S (conj Wx Lx) ltac:(lia)) as (f & w & Ef & _ & [Wf Lf] & [Ww Lw] & F1 & F2 & _).
  rewrite fixed_frac, fixed_frac, frac_floor, <- fixed_frac, <- val_mul in F1. apply fixed_eq in F1.
  rewrite <- fixed_add in F2. apply fixed_eq in F2.
  unfold fu_round, fu_add, fu_div, fu_cmp, fu_zero. rewrite Lx, Eo. cbn [bind]. rewrite Et. cbn [bind].
  rewrite Eh. cbn [bind]. rewrite Ef. cbn [bind].
  assert (half = u_zero K) as Ehz.
  { apply (val_inj 8); auto; [apply wf_zeros|rewrite Lh, Lo; symmetry; apply repeat_length|].
    rewrite Vh. symmetry. apply val_zeros. }
  rewrite Ehz in *.
  assert (wf 8 (u_zero K) /\ length (u_zero K) = K) as [Wz Lz] by (split; [apply wf_zeros|apply repeat_length]).
  destruct (C31_total_order_bounds f (u_zero K) f Wf Wz Wf ltac:(congruence) eq_refl) as (HE & _ & HO & _ & V0 & _ & HG & _).
  rewrite Lf in HG. rewrite HO in HG.
  destruct (u_cmp f (u_zero K)) eqn:EC; cbn [bind]; try rewrite EC.
  - unfold fu_ceil. rewrite (whole_u dbg N K x S (conj Wx Lx)). cbn [bind].
    replace (val 8 x mod 2 ^ Z.of_nat N =? 0) with true; auto. symmetry. apply Z.eqb_eq.
    pose proof (proj1 HE eq_refl). rewrite Z.mod_eq by lia. lia.
  - exfalso. apply HG. reflexivity.
  - reflexivity.
Qed.
Print Assumptions C131_round_partial.

(** A product is too large by the factor [2^N]. *)
Theorem C131_mul_partial : forall dbg K N a b, is_u K a -> is_u K b -> val 8 a * val 8 b < cap 8 K ->
  exists r, fu_mul dbg a b = Ok r /\ is_u K r /\
    (fixed_val N (val 8 r) == fixed_val N (val 8 a) * fixed_val N (val 8 b) * inject_Z (2 ^ Z.of_nat N))%Q.
Proof.
  intros dbg K N a b [Wa La] [Wb Lb] B. rewrite <- La in B.
  destruct (C27_mul a b Wa Wb ltac:(congruence)) as (_ & H). destruct (H B) as (c & E & _ & _ & Wc & Lc & V).
  exists c. split; [apply E|]. split; [split; congruence|]. rewrite V. unfold fixed_val. rewrite inject_Z_mult.
  field. apply inj_nz. pose proof (two_pow_pos N). lia.
Qed.
Print Assumptions C131_mul_partial.

(** Without overflow checks the raw product wraps; with them it is that or a panic, and a panic only if it does not fit. *)
Theorem C131_mul_wraps_partial : forall K a b, is_u K a -> is_u K b ->
  exists r, fu_mul false a b = Ok r /\ is_u K r /\ val 8 r = (val 8 a * val 8 b) mod cap 8 K /\
    (fu_mul true a b = Ok r \/ fu_mul true a b = Panic /\ cap 8 K <= val 8 a * val 8 b).
Proof.
  intros K a b [Wa La] [Wb Lb]. destruct (C27_mul a b Wa Wb ltac:(congruence)) as ((c & E & Wc & Lc & V) & H). rewrite La in *.
  exists c. split; auto. split; [split; auto|]. split; auto.
  destruct (Z.lt_ge_cases (val 8 a * val 8 b) (cap 8 K)) as [B|B].
  - destruct (H B) as (c' & E' & _). left. unfold fu_mul in *. rewrite E'. rewrite E' in E. auto.
  - unfold fu_mul, u_mul, elem_mul_checked, elem_mul_wrapping in *. destruct (elem_mul_overflowing 8 a b) as [o [|]]; cbn in *; auto.
Qed.
Print Assumptions C131_mul_wraps_partial.
Example C131_mul_wraps_demo : fu_mul false [0; 2] [0; 1] = Ok [0; 0] /\ fu_mul true [0; 2] [0; 1] = Ok [0; 0] /\
  fu_mul false [255; 255] [255; 255] = Ok [1; 0] /\ fu_mul true [255; 255] [255; 255] = Panic.
Proof. repeat split; reflexivity. Qed.

(** With eight fraction bits in two bytes: the fractional part of 2.0 is 3.0, [trunc] of it
    panics; the order looks at the low byte first, so that 1/256 is greater than 1.0; 1.0 times 1.5 is 3.0 with one
    fraction bit; with two fraction bits, 0.25 rounds to 1. *)
Theorem C131_refuted :
  (exists f, fu_fract true 8 [0; 2] = Ok f /\ (fixed_val 8 (val 8 [0; 2]%Z) == 2)%Q /\ (fixed_val 8 (val 8 f) == 3)%Q) /\
  fu_trunc true 8 [0; 2] = Panic /\
  ((fixed_val 8 (val 8 [1; 0]%Z) == 1 # 256)%Q /\ (fixed_val 8 (val 8 [0; 1]%Z) == 1)%Q /\ fu_cmp [1; 0] [0; 1] = Gt) /\
  (exists o r, fu_one true 1 2 = Ok o /\ fu_mul true o [3; 0] = Ok r /\ (fixed_val 1 (val 8 o) == 1)%Q /\
     (fixed_val 1 (val 8 [3; 0]%Z) == 3 # 2)%Q /\ (fixed_val 1 (val 8 r) == 3)%Q) /\
  (exists r, fu_round true 2 [1; 0] = Ok r /\ (fixed_val 2 (val 8 [1; 0]%Z) == 1 # 4)%Q /\ (fixed_val 2 (val 8 r) == 1)%Q /\
     ~ nearest (fixed_val 2 (val 8 [1; 0]%Z)) 1).
Proof.
  split; [|split; [|split; [|split]]].
  - exists [0; 3]. repeat split; reflexivity.
  - reflexivity.
  - repeat split; reflexivity.
  - exists [2; 0], [6; 0]. repeat split; reflexivity.
  - exists [4; 0]. repeat split; try reflexivity. intros H. specialize (H 0). revert H. vm_compute. auto.
Qed.
Print Assumptions C131_refuted.

Example C131_example : shiftable true 3 4 /\ is_u 3 [24; 1; 2] /\
  fu_fract true 4 [24; 1; 2] = Ok [8; 0; 0] /\ fu_trunc true 4 [24; 1; 2] = Ok [16; 1; 2] /\
  fu_round true 4 [24; 1; 2] = Ok [32; 1; 2].
Proof.
  split; [split; [lia|]; split; [discriminate|lia]|].
  split; [split; [wf_tac|reflexivity]|]. repeat split; reflexivity.
Qed.
