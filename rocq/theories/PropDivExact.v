(** C16, C29, C40, C46 continued: exactly when the bitwise long division of slices, [U<N>], non-negative [I<N>] and [BigInt] is right
    (specification: DivSpec.v).  The quotient is right if and only if at every step the comparison by the lowest differing limb agrees
    with the order of the numbers; the remainder then is, too. *)
From Coq Require Import ZArith List Bool Lia.
From Verif Require Import Base Words Spec TextSpec Arith BitSliceModel BitSliceProofs ElementModel
  BitwiseModel BitwiseProofs BitDivMod PropBits ElemDivMod UModel UProofs IModel IProofs
  InternModel BigIntModel BigIntSpec BigIntProofs BigIntOps BigIntConv BigIntText BigIntMore BigIntRun BigIntHist PropBigInt
  BigIntOrder PropBigInt3 PropDiv DivSpec DivExact.
Import ListNotations.
Local Open Scope Z_scope.

(** ** C16 *)

Theorem C16_exact_partial : forall dbg w n d, (2 <= w)%nat -> wf w n -> wf w d ->
  (0 < length n)%nat -> (length d <= length n)%nat -> Z.of_nat (w * length n) < 2 ^ 64 -> 0 < val w d ->
  exists q r, bit_div_long dbg w n d = Ok (q, r) /\
    bit_div_overflowing dbg w n d (zeros (length n)) = Ok (q, r, false) /\
    bit_rem_overflowing dbg w n d (zeros (length n)) = Ok (r, false) /\
    (val w q = val w n / val w d <-> agreeing w (w * length n) (val w n) (val w d)) /\
    (val w q = val w n / val w d -> val w r = val w n mod val w d).
Proof.
  intros dbg w n d Hw Hn Hd Hlen Hld H64 HD.
  destruct (C16_congruence_partial dbg w n d Hw Hn Hd Hlen Hld H64) as (q & r & E & W1 & W2 & L1 & L2 & V & E2 & _ & _ & E3 & _).
  exists q, r. repeat (split; [assumption|]). split.
  - apply (bit_div_exact dbg w n d q r); auto. unfold bit_len. rewrite Nat.mul_comm. auto.
  - intros Q. pose proof (val_bound w n Hn) as Bn. pose proof (val_bound w r W2) as Br. rewrite L2 in Br.
    pose proof (cap_pos w (length n)) as HC. rewrite Q in V.
    pose proof (Z.div_mod (val w n) (val w d) ltac:(lia)) as DM. pose proof (Z.mod_pos_bound (val w n) (val w d) HD) as BM.
    pose proof (Z.mod_le (val w n) (val w d) ltac:(lia) HD).
    pose proof (Z.div_mod (val w n / val w d * val w d + val w r) (cap w (length n)) ltac:(lia)) as D2. rewrite V in D2.
    set (h := (val w n / val w d * val w d + val w r) / cap w (length n)) in *.
    assert (val w r - val w n mod val w d = cap w (length n) * h) as F by lia.
    assert (h = 0) by (clear - F Br BM H Bn HC; nia). rewrite H0 in F. lia.
Qed.
Print Assumptions C16_exact_partial.

(** Divisors below 2^w: right exactly when no partial dividend reaches 2^w. *)
Theorem C16_one_limb_partial : forall w n d bits, (0 < w)%nat -> 0 <= n -> 0 < d < 2 ^ Z.of_nat w ->
  (agreeing w bits n d <-> forall k, (k < bits)%nat -> partial_dividend n d k < 2 ^ Z.of_nat w).
Proof.
  intros w n d bits Hw Hn Hd. unfold agreeing.
  assert (forall k, 0 <= partial_dividend n d k < 2 * d) as B.
  { intros k. unfold partial_dividend. pose proof (Z.mod_pos_bound (n / 2 ^ (Z.of_nat k + 1)) d ltac:(lia)).
    pose proof (Z.mod_pos_bound (n / 2 ^ Z.of_nat k) 2 ltac:(lia)). lia. }
  assert (forall x, 0 <= x -> digit w x 0 = x mod 2 ^ Z.of_nat w) as D0.
  { intros x Hx. unfold digit. rewrite Z.mul_0_r. change (2 ^ 0) with 1. rewrite Z.div_1_r. reflexivity. }
  assert (forall x i, 0 <= x < 2 ^ Z.of_nat w -> (0 < i)%nat -> digit w x i = 0) as DS.
  { intros x i Hx Hi. unfold digit. rewrite Z.div_small; [apply Z.mod_0_l; lia|]. split; [lia|].
    apply Z.lt_le_trans with (2 ^ Z.of_nat w); [lia|]. apply Z.pow_le_mono_r; nia. }
  assert (forall k, (lowest_first_lt w (partial_dividend n d k) d <-> partial_dividend n d k < d) <-> partial_dividend n d k < 2 ^ Z.of_nat w) as K.
  { intros k. specialize (B k). set (t := partial_dividend n d k) in *. split.
    - intros A. destruct (Z.lt_ge_cases t (2 ^ Z.of_nat w)) as [|G]; auto. exfalso.
      assert (lowest_first_lt w t d) as L; [|apply A in L; lia].
      exists 0%nat. split; [|intros; lia]. rewrite !D0 by lia. rewrite (Z.mod_small d) by lia.
      rewrite <- (Z.mod_unique_pos t (2 ^ Z.of_nat w) 1 (t - 2 ^ Z.of_nat w)) by lia. lia.
    - intros L. split.
      + intros (i & H1 & H2). destruct i as [|i].
        * rewrite !D0, !Z.mod_small in H1 by lia. auto.
        * rewrite !DS in H1 by lia. lia.
      + intros Lt. exists 0%nat. split; [|intros; lia]. rewrite !D0, !Z.mod_small by lia. auto. }
  split; intros A k Hk; [apply K; auto|apply K; auto].
Qed.
Print Assumptions C16_one_limb_partial.

(** 1000 / 200 in bytes is right although the divisor exceeds 128: no partial dividend reaches 256.  300 / 200 is not. *)
Example C16_exact_demo : bit_div_long true 8 [232; 3] [200] = Ok ([5; 0], [0; 0]) /\ partial_dividend 1000 200 2 = 250 /\
  bit_div_long true 8 [44; 2] [250] = Ok ([0; 0], [44; 2]) /\ partial_dividend 556 250 1 = 278 /\ partial_dividend 556 250 0 = 56.
Proof. vm_compute. repeat split. Qed.

(** ** C29 *)

Theorem C29_exact_partial : forall dbg a b, wf 8 a -> wf 8 b -> length b = length a ->
  (0 < length a)%nat -> Z.of_nat (8 * length a) < 2 ^ 64 -> 0 < val 8 b ->
  exists q r, u_div dbg a b = Ok q /\ u_rem dbg a b = Ok r /\
    (val 8 q = val 8 a / val 8 b <-> agreeing 8 (8 * length a) (val 8 a) (val 8 b)) /\
    (val 8 q = val 8 a / val 8 b -> val 8 r = val 8 a mod val 8 b).
Proof.
  intros dbg a b Ha Hb Hl Hp H64 HD.
  destruct (C16_exact_partial dbg 8 a b) as (q & r & _ & E1 & E2 & H1 & H2); auto; try lia.
  exists q, r. unfold u_div, u_rem. unfold bit_div_checked, bit_div_wrapping, bit_rem_checked, bit_rem_wrapping. rewrite E1, E2.
  split; [destruct dbg; reflexivity|]. split; [destruct dbg; reflexivity|]. auto.
Qed.
Print Assumptions C29_exact_partial.

(** ** C40 *)

Theorem C40_exact_partial : forall dbg a b, wf 8 a -> wf 8 b -> length b = length a ->
  (0 < length a)%nat -> Z.of_nat (8 * length a) < 2 ^ 64 -> 0 <= sval a -> 0 < sval b ->
  exists q r, i_div dbg a b = Ok q /\ i_rem dbg a b = Ok r /\
    (sval q = Z.quot (sval a) (sval b) <-> agreeing 8 (8 * length a) (sval a) (sval b)) /\
    (sval q = Z.quot (sval a) (sval b) -> sval r = Z.rem (sval a) (sval b)).
Proof.
  intros dbg a b Ha Hb Hl Hpos H64 Sa Sb. unfold i_div, i_rem.
  rewrite (proj1 (sign_spec a Ha Hpos)), (proj1 (sign_spec b Hb ltac:(lia))). cbn [bind].
  destruct (i_abs_spec a Ha Hpos) as (x & Ex & Wx & Lx & _ & Bx & Vx).
  destruct (i_abs_spec b Hb ltac:(lia)) as (y & Ey & Wy & Ly & _ & By & Vy).
  rewrite Ex, Ey. cbn [bind]. rewrite <- Lx.
  rewrite (proj2 (Z.ltb_ge _ _) Sa) in *. rewrite (proj2 (Z.ltb_ge (sval b) 0)) in * by lia. cbn [xorb].
  assert (val 8 x = sval a) as Xa by lia. assert (val 8 y = sval b) as Yb by lia.
  destruct (C16_congruence_partial dbg 8 x y) as (q & r & E0 & W1 & W2 & L1 & L2 & V & _ & _ & E2 & _ & _ & E4); auto; try lia.
  destruct (C16_exact_partial dbg 8 x y) as (q' & r' & E' & _ & _ & H1 & H2); auto; try lia.
  assert (q' = q /\ r' = r) as [-> ->] by (split; congruence). rewrite E2, E4. cbn [bind].
  exists q, r. split; auto. split; auto. rewrite Xa, Yb in *.
  rewrite Z.quot_div_nonneg, Z.rem_mod_nonneg by lia.
  pose proof (Z.div_le_upper_bound (sval a) (sval b) (sval a) ltac:(lia) ltac:(nia)) as HQ. pose proof (Z.div_pos (sval a) (sval b) Sa Sb) as HP.
  pose proof (val_bound 8 q W1) as Bq. pose proof (val_bound 8 r W2) as Br.
  pose proof (Z.mod_le (sval a) (sval b) Sa Sb).
  assert (sval q = sval a / sval b <-> val 8 q = sval a / sval b) as SQ.
  { unfold sval at 1. rewrite L1, Lx. destruct (Z.ltb_spec (2 * val 8 q) (cap 8 (length a))); [tauto|]. rewrite L1, Lx in Bq. lia. }
  rewrite SQ, Lx in *. split; [exact H1|]. intros Q. specialize (H2 Q).
  unfold sval at 1. rewrite L2. rewrite (proj2 (Z.ltb_lt _ _)) by lia. exact H2.
Qed.
Print Assumptions C40_exact_partial.

Example C40_exact_demo : sval [232; 3] = 1000 /\ sval [200; 0] = 200 /\ i_div true [232; 3] [200; 0] = Ok [5; 0] /\
  i_rem true [232; 3] [200; 0] = Ok [0; 0] /\ u_div true [232; 3] [200; 0] = Ok [5; 0].
Proof. vm_compute. repeat split. Qed.

(** ** C46 *)

Theorem C46_exact_partial : forall dbg P st hs a b x y,
  consistent P st hs -> room P hs 0 -> is_int st hs a x -> is_int st hs b y -> addressable x ->
  Z.log2 (Z.abs y) / 64 <= Z.log2 (Z.abs x) / 64 -> y <> 0 ->
  exists q r, yields P hs (bi_div dbg a b) st q /\ yields P hs (bi_rem dbg a b) st r /\
    (q = Z.quot x y <-> agreeing 64 (Z.to_nat (64 * (Z.log2 (Z.abs x) / 64 + 1))) (Z.abs x) (Z.abs y)) /\
    (q = Z.quot x y -> Z.abs r = Z.abs (Z.rem x y)).
Proof.
  intros dbg P st hs a b x y Hc Hr (Ha & Hx) (Hb & Hy) Hax Hle Ny.
  destruct (info _ _ _ _ _ Hc Ha Hx) as (la & Sa & Wa & Ca & La & Va & _).
  destruct (info _ _ _ _ _ Hc Hb Hy) as (lb & Sb & Wb & Cb & Lb & Vb & _).
  pose proof (denotes_sign _ _ _ _ _ _ Hc Ha Sa Hx) as Ex.
  pose proof (denotes_sign _ _ _ _ _ _ Hc Hb Sb Hy) as Ey.
  pose proof (canonical_len la Wa Ca) as E1. pose proof (canonical_len lb Wb Cb) as E2. rewrite Va in E1. rewrite Vb in E2.
  pose proof (addressable_len _ _ Wa Ca Va Hax) as H64.
  destruct (C16_exact_partial dbg 64 la lb) as (q & r & E & _ & _ & H1 & H2); auto; try lia.
  { rewrite Nat.mul_comm. exact H64. }
  destruct (bit_div_all dbg 64 la lb ltac:(lia) Wa Wb La ltac:(lia) H64) as (q' & r' & L1 & L2 & W1 & W2 & _ & E' & _).
  assert (q' = q /\ r' = r) as [-> ->] by (split; congruence).
  set (s := if negb (Bool.eqb (is_negative a) (is_negative b)) then -1 else 1).
  exists (s * val 64 q), (s * val 64 r).
  pose proof (val_nonneg 64 q W1) as Bq. pose proof (val_nonneg 64 r W2) as Br.
  rewrite Va, Vb in *.
  replace (64 * length la)%nat with (Z.to_nat (64 * (Z.log2 (Z.abs x) / 64 + 1))) in H1 by lia.
  assert (s = 1 \/ s = -1) as Hs by (unfold s; destruct (negb _); auto).
  assert (x <> 0 -> 0 < s * (x * y)) as Hp.
  { intros Nx. unfold s. rewrite !is_negative_odd. pose proof (Z.abs_nonneg x). pose proof (Z.abs_nonneg y).
    destruct (Z.odd a), (Z.odd b); cbn [Bool.eqb negb]; nia. }
  assert (s * val 64 q = Z.quot x y <-> val 64 q = Z.abs x / Z.abs y) as SQ.
  { assert (Z.quot x y = s * (Z.abs x / Z.abs y)) as ->.
    { rewrite Z.quot_div by auto. destruct (Z.eq_dec x 0) as [->|Nx]; [cbn [Z.abs Z.sgn]; rewrite Z.div_0_l by lia; lia|].
      f_equal. rewrite <- Z.sgn_mul. specialize (Hp Nx). clear - Hp Hs.
      destruct Hs as [-> | ->]; [rewrite Z.sgn_pos by lia|rewrite Z.sgn_neg by lia]; reflexivity. }
    split; [|intros ->; auto]. intros H. destruct Hs as [Hs|Hs]; rewrite Hs in H; lia. }
  split; [|split; [|split]].
  - unfold yields, bi_div. rewrite (mbind_ok _ _ st q st).
    + apply new_slice_spec; auto. intros ->. clear - L1 La. cbn [length] in L1. lia.
    + rewrite (with_slices_ok _ _ _ _ _ _ Sa Sb). rewrite (mbind_ok _ _ _ _ _ (lift_ok _ _ _ E)). auto.
  - unfold yields, bi_rem. rewrite (mbind_ok _ _ st r st).
    + apply new_slice_spec; auto. intros ->. clear - L2 La. cbn [length] in L2. lia.
    + rewrite (with_slices_ok _ _ _ _ _ _ Sa Sb). rewrite (mbind_ok _ _ _ _ _ (lift_ok _ _ _ E)). auto.
  - rewrite SQ. exact H1.
  - rewrite SQ. intros Q. specialize (H2 Q). rewrite <- Z.rem_abs by exact Ny. rewrite Z.rem_mod_nonneg by (clear - Ny; lia). rewrite <- H2.
    rewrite Z.abs_mul, (Z.abs_eq (val 64 r)) by exact Br. clear - Hs. destruct Hs as [-> | ->]; cbn [Z.abs]; lia.
Qed.
Print Assumptions C46_exact_partial.

(** The hypotheses are met by the two-limb values of the demo store: (2 * 2^64 + 3) / (2^64 + 5) has a quotient and a remainder,
    and the quotient is the right one exactly when the comparisons agree. *)
Example C46_exact_demo : exists q r, yields 11 ord_hs (bi_div true 4 0) ord_st q /\ yields 11 ord_hs (bi_rem true 4 0) ord_st r /\
  (q = 1 <-> agreeing 64 128 (2 * 2 ^ 64 + 3) (2 ^ 64 + 5)).
Proof.
  destruct ord_a as (A1 & A2 & _). destruct ord_b as (B1 & B2 & _).
  destruct (C46_exact_partial true 11 ord_st ord_hs 4 0 _ _ ord_consistent ltac:(vm_compute; discriminate)
    (conj B1 B2) (conj A1 A2)) as (q & r & Y1 & Y2 & V & _); [vm_compute; reflexivity|vm_compute; discriminate|discriminate|].
  exists q, r. auto.
Qed.
