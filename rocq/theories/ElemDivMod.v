(** Proofs: element-wise long division over all operands. When its inner loops end, the answer is
    right modulo the width of the dividend and the remainder compares below the divisor. *)
From Coq Require Import ZArith List Bool Lia.
From Verif Require Import Base Words Spec Arith BitSliceModel BitSliceProofs ElementModel
  BitwiseModel ElemAddSub ElemShift BitwiseProofs BitDivMod PropBits.
Import ListNotations.
Local Open Scope Z_scope.

Lemma elem_add_wrapping_mod w l r : (0 < w)%nat -> wf w l -> wf w r -> (length r <= length l)%nat ->
  length (elem_add_wrapping w l r) = length l /\ wf w (elem_add_wrapping w l r) /\
  val w (elem_add_wrapping w l r) = (val w l + val w r) mod cap w (length l).
Proof.
  intros Hw Hl Hr Hlen. unfold elem_add_wrapping.
  pose proof (elem_add_overflowing_spec w l r Hw Hl Hr Hlen) as H.
  destruct (elem_add_overflowing w l r) as [o c]. cbn [fst]. tauto.
Qed.

Lemma elem_div_while_mod w dv one len : (0 < w)%nat -> wf w dv -> wf w one ->
  (length dv <= len)%nat -> length one = len -> let C := cap w len in
  forall fuel q r, wf w q -> wf w r -> length q = len -> length r = len ->
  elem_div_while fuel w dv one q r = Timeout \/
  exists q' r' m u v, elem_div_while fuel w dv one q r = Ok (q', r') /\
    wf w q' /\ wf w r' /\ length q' = len /\ length r' = len /\ is_ge (elem_cmp r' dv) = false /\
    val w q' = val w q + m * val w one + u * C /\ val w r' = val w r - m * val w dv + v * C.
Proof.
  intros Hw Hdv Hone Ld Lo C. assert (0 < C) as HC by apply cap_pos.
  induction fuel as [|fuel IH]; intros q r Hq Hr Lq Lr; cbn [elem_div_while];
    destruct (is_ge (elem_cmp r dv)) eqn:Eg; auto.
  - right. exists q, r, 0, 0, 0. repeat (split; [assumption || reflexivity|]). lia.
  - destruct (elem_add_wrapping_mod w q one Hw Hq Hone ltac:(lia)) as (A1 & A2 & A3).
    destruct (elem_sub_wrapping_mod w r dv Hw Hr Hdv ltac:(lia)) as (S1 & S2 & S3).
    rewrite Lq in A3. rewrite Lr in S3. fold C in A3, S3.
    pose proof (Z.div_mod (val w q + val w one) C ltac:(lia)) as D1. rewrite <- A3 in D1.
    pose proof (Z.div_mod (val w r - val w dv) C ltac:(lia)) as D2. rewrite <- S3 in D2.
    destruct (IH _ _ A2 S2 ltac:(lia) ltac:(lia)) as [E|(q' & r' & m & u & v & E & W1 & W2 & L1 & L2 & G & V1 & V2)].
    + left. exact E.
    + right. exists q', r', (m + 1), (u - (val w q + val w one) / C), (v - (val w r - val w dv) / C).
      repeat (split; [assumption|]). split; lia.
  - right. exists q, r, 0, 0, 0. repeat (split; [assumption || reflexivity|]). lia.
Qed.

Lemma shift_by_limb w len : (2 <= w)%nat -> (2 <= len)%nat -> Nat.modulo w (2 ^ Nat.log2 (w * len)) = w.
Proof.
  intros Hw Hlen. apply Nat.mod_small.
  pose proof (Nat.log2_spec w ltac:(lia)) as [_ H].
  pose proof (Nat.log2_le_mono (2 * w) (w * len) ltac:(nia)) as H2. rewrite Nat.log2_double in H2 by lia.
  pose proof (Nat.pow_le_mono_r 2 _ _ ltac:(lia) H2). lia.
Qed.

Lemma div_cap_S w l k : wf w l -> (k < length l)%nat ->
  val w l / cap w k = base w * (val w l / cap w (S k)) + zget l k.
Proof.
  intros Hl Hk. rewrite <- !val_skipn by (auto; lia).
  assert (skipn k l = zget l k :: skipn (S k) l) as ->.
  { revert k Hk. clear Hl. induction l as [|x l IH]; intros k Hk; [cbn in Hk; lia|].
    destruct k as [|k]; [reflexivity|]. cbn [skipn]. rewrite (IH k) by (cbn in Hk; lia). reflexivity. }
  rewrite val_cons. ring.
Qed.

(** Shifting the next limb into the remainder. *)
Lemma div_shift_limb dbg w r x : (2 <= w)%nat -> wf w r -> (0 < length r)%nat ->
  Z.of_nat (bit_len w r) < 2 ^ 64 -> 0 <= x < base w -> (2 <= length r)%nat \/ val w r = 0 ->
  exists r1, elem_shl_wrapping dbg w r w = Ok r1 /\ length r1 = length r /\ wf w (upd r1 0 x) /\
    val w (upd r1 0 x) = (base w * val w r + x) mod cap w (length r).
Proof.
  intros Hw Hr Hl H64 Hx Hc.
  destruct (elem_shl_wrapping_spec dbg w r w ltac:(lia) Hr) as (r1 & E & L & W & V).
  { unfold bit_len. nia. } { auto. }
  exists r1. split; auto. split; auto. split; [apply wf_upd; auto|].
  rewrite val_upd by lia. rewrite cap_0, (zget_0_mod w) by auto. rewrite V.
  pose proof (base_pos w) as HB. destruct Hc as [H2|H0].
  - unfold bit_len. rewrite (Nat.mul_comm (length r)), shift_by_limb by auto.
    change (2 ^ Z.of_nat w) with (base w).
    destruct (length r) as [|[|n]] eqn:En; [lia|lia|]. rewrite cap_S.
    pose proof (cap_pos w (S n)) as HCp. set (M := cap w (S n)) in *.
    rewrite (Z.mul_comm (val w r)), Z.mul_mod_distr_l by lia.
    rewrite (Z.mul_comm (base w) (_ mod M)), Z.mod_mul by lia.
    pose proof (Z.mod_pos_bound (val w r) M ltac:(lia)).
    pose proof (Z.div_mod (val w r) M ltac:(lia)) as D.
    apply (Z.mod_unique_pos _ _ (val w r / M)); [nia|]. rewrite D at 1. ring.
  - rewrite H0, Z.mul_0_l, Z.mul_0_r, Z.mod_0_l by (pose proof (cap_pos w (length r)); lia).
    rewrite Z.mod_0_l by lia. rewrite Z.mod_small; [lia|].
    destruct (length r); [lia|]. rewrite cap_S. pose proof (cap_pos w n). nia.
Qed.

Lemma elem_div_walk dbg fuel w num dv : (2 <= w)%nat -> wf w num -> wf w dv ->
  (0 < length num)%nat -> (length dv <= length num)%nat -> Z.of_nat (bit_len w num) < 2 ^ 64 ->
  let N := val w num in let C := cap w (length num) in
  forall k q r one Q u z, (k <= length num)%nat ->
  length q = length num -> length r = length num -> length one = length num ->
  wf w q -> wf w r -> wf w one -> ((0 < k)%nat -> val w one = cap w (k - 1)) ->
  ((2 <= length num)%nat \/ k = 0%nat \/ val w r = 0) ->
  val w q = Q * cap w k + u * C -> N / cap w k = Q * val w dv + val w r + z * C ->
  foldR (elem_div_step dbg fuel w num dv) (rev (seq 0 k)) (q, r, one) = Timeout \/
  exists q' r' one' z', foldR (elem_div_step dbg fuel w num dv) (rev (seq 0 k)) (q, r, one) = Ok (q', r', one') /\
    length q' = length num /\ length r' = length num /\ wf w q' /\ wf w r' /\
    ((k = 0%nat /\ r' = r) \/ is_ge (elem_cmp r' dv) = false) /\
    N = val w q' * val w dv + val w r' + z' * C.
Proof.
  intros Hw Hnum Hdv Hlen Hld H64 N C. assert (0 < C) as HC by apply cap_pos.
  induction k as [|k IH]; intros q r one Q u z Hk L1 L2 L3 W1 W2 W3 Hone H2 V1 HN.
  - right. exists q, r, one, (z - u * val w dv). cbn [seq rev foldR].
    rewrite cap_0, Z.div_1_r in HN. rewrite cap_0 in V1.
    repeat (split; [assumption || reflexivity || auto|]). rewrite V1, HN. ring.
  - rewrite rev_seq_S. cbn [foldR]. unfold elem_div_step at 1 3.
    assert (bit_len w r = bit_len w num) as Eb by (unfold bit_len; rewrite L2; auto).
    assert ((2 <= length r)%nat \/ val w r = 0) as H2r by (destruct H2 as [|[|]]; [lia|lia|auto]).
    destruct (div_shift_limb dbg w r (zget num k) Hw W2 ltac:(lia) ltac:(lia) (wf_zget w num k Hnum) H2r) as (r1 & E1 & L & W & V).
    rewrite E1. cbn [bind]. rewrite get_in by lia. cbn [bind]. rewrite set_in by lia. cbn [bind].
    assert (length (upd r1 0 (zget num k)) = length num) as Lr by (rewrite length_upd; lia).
    destruct (elem_div_while_mod w dv one (length num) ltac:(lia) Hdv W3 Hld L3 fuel q _ W1 W L1 Lr)
      as [E|(q' & r' & m & u' & v' & E & X1 & X2 & X3 & X4 & G & Y1 & Y2)].
    { left. rewrite E. reflexivity. }
    rewrite E. cbn [bind]. fold C in Y1, Y2. rewrite L2 in V. fold C in V.
    assert (w * length num = bit_len w num)%nat as Ebl by (unfold bit_len; lia).
    destruct (C12_shr_wrapping_partial dbg w one w ltac:(lia) W3) as (one' & E2 & L4 & W4 & V4);
      [rewrite L3; nia|rewrite L3, Ebl; auto|]. cbv zeta in V4.
    rewrite E2. cbn [bind].
    pose proof (Z.div_mod (base w * val w r + zget num k) C ltac:(lia)) as D1. rewrite <- V in D1.
    set (h := (base w * val w r + zget num k) / C) in *. clearbody h.
    specialize (Hone ltac:(lia)). replace (S k - 1)%nat with k in Hone by lia.
    destruct (IH q' r' one' (base w * Q + m) (u + u') (base w * z + h - v')) as [F|F]; auto; try lia.
    + intros Hk0. rewrite V4, L3. destruct (Nat.eq_dec (length num) 1) as [El|El]; [lia|].
      rewrite shift_by_limb by lia.
      rewrite (proj2 (C12_kept_bits_zero w one w ltac:(lia) W3)).
      * rewrite Hone. destruct k; [lia|]. rewrite cap_S. change (2 ^ Z.of_nat w) with (base w).
        rewrite Z.mul_comm, Z.div_mul by (pose proof (base_pos w); lia). replace (S k - 1)%nat with k by lia. lia.
      * rewrite Nat.mod_same, Nat.sub_0_r by lia.
        apply (wf_zget w one (length one - 1 - w / w)); auto.
    + rewrite Y1, Hone, V1, cap_S. ring.
    + unfold N in HN |- *. rewrite div_cap_S by (auto; lia). rewrite HN. rewrite Y2. lia.
    + right. destruct F as (q2 & r2 & one2 & z2 & F & F1 & F2 & F3 & F4 & F5 & F6).
      exists q2, r2, one2, z2. repeat (split; [assumption|]). split; auto.
      right. destruct F5 as [[-> ->]|F5]; auto.
Qed.

Lemma elem_cmp_ext w l m r : wf w l -> wf w m -> wf w r -> val w l = val w m -> elem_cmp l r = elem_cmp m r.
Proof.
  intros Hl Hm Hr Hv. destruct (C15_cmp_total_order w l m r Hl Hm Hr) as (H1 & _ & _ & H2).
  apply H2, H1, Hv.
Qed.

Lemma elem_div_all dbg fuel w num dv : (2 <= w)%nat -> wf w num -> wf w dv ->
  (0 < length num)%nat -> (length dv <= length num)%nat -> Z.of_nat (bit_len w num) < 2 ^ 64 ->
  elem_div_long dbg fuel w num dv = Timeout \/
  exists q r, elem_div_long dbg fuel w num dv = Ok (q, r) /\ wf w q /\ wf w r /\
    canonical q /\ canonical r /\ elem_cmp r dv = Lt /\
    (val w q * val w dv + val w r) mod cap w (length num) = val w num.
Proof.
  intros Hw Hnum Hdv Hlen Hld H64. unfold elem_div_long.
  replace (Nat.max (length num) (length dv)) with (length num) by lia.
  destruct (length num) as [|n] eqn:En; [lia|]. rewrite <- En in *.
  pose proof (val_bound w num Hnum) as HNb.
  destruct (elem_div_walk dbg fuel w num dv Hw Hnum Hdv Hlen Hld H64 (length num)
              (zeros (length num)) (zeros (length num)) (upd (zeros (length num)) n 1) 0 0 0)
    as [E|(q & r & one & z & E & L1 & L2 & W1 & W2 & G & V)];
    rewrite ?length_upd, ?length_zeros; auto using wf_zeros.
  - apply wf_upd; [apply wf_zeros|]. pose proof (base_pos w).
    unfold base. change 1 with (2 ^ 0). split; [lia|]. apply Z.pow_lt_mono_r; lia.
  - intros _. rewrite val_upd by (rewrite length_zeros; lia). rewrite val_zeros, zget_zeros.
    replace (length num - 1)%nat with n by lia. lia.
  - right. right. apply val_zeros.
  - rewrite val_zeros. lia.
  - rewrite val_zeros, Z.div_small by lia. lia.
  - left. rewrite E. reflexivity.
  - right. rewrite E. cbn [bind].
    destruct (shrink_ok w q W1 ltac:(lia)) as (q' & Eq & A1 & A2 & A3).
    destruct (shrink_ok w r W2 ltac:(lia)) as (r' & Er & B1 & B2 & B3).
    rewrite Eq, Er. cbn [bind]. exists q', r'. repeat (split; [assumption || reflexivity|]).
    split.
    + rewrite (elem_cmp_ext w r' r dv) by auto.
      destruct G as [[G _]|G]; [lia|]. destruct (elem_cmp r dv); auto; discriminate.
    + rewrite A3, B3. symmetry. apply (Z.mod_unique_pos _ _ (- z)); [lia|]. rewrite V. ring.
Qed.

Lemma elem_div_longer dbg fuel w num dv : (2 <= w)%nat -> (length num < length dv)%nat ->
  Z.of_nat (bit_len w dv) < 2 ^ 64 -> elem_div_long dbg fuel w num dv = Panic.
Proof.
  intros Hw Hl H64. unfold elem_div_long.
  replace (Nat.max (length num) (length dv)) with (length dv) by lia.
  destruct (length dv) as [|n] eqn:En; [lia|]. rewrite rev_seq_S. cbn [foldR].
  unfold elem_div_step at 1.
  destruct (elem_shl_wrapping_spec dbg w (zeros (S n)) w ltac:(lia) (wf_zeros _ _)) as (r1 & E & _).
  - unfold bit_len. rewrite length_zeros. nia.
  - unfold bit_len in *. rewrite length_zeros. rewrite En in H64. auto.
  - rewrite E. cbn [bind]. rewrite get_out by lia. reflexivity.
Qed.
