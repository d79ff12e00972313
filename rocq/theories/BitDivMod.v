(** Proofs: bitwise long division over all operands. Whatever the comparisons decide, the three
    variants walk through the same remainders and the answer is right modulo the width of the
    dividend. *)
From Coq Require Import ZArith List Bool Lia.
From Verif Require Import Base Words Spec Arith BitSliceModel BitSliceProofs ElementModel
  BitwiseModel ElemAddSub ElemShift BitwiseProofs.
Import ListNotations.
Local Open Scope Z_scope.

Lemma div_shift_in_mod dbg w num dv rm k : (2 <= w)%nat -> wf w num -> wf w rm ->
  (0 < length rm)%nat -> Z.of_nat (bit_len w rm) < 2 ^ 64 -> (k < bit_len w num)%nat ->
  exists rm', div_shift_in dbg w num dv rm k = Ok (rm', is_ge (elem_cmp rm' dv)) /\
    length rm' = length rm /\ wf w rm' /\
    val w rm' = (2 * val w rm + Z.b2z (Z.testbit (val w num) (Z.of_nat k))) mod cap w (length rm).
Proof.
  intros Hw Hnum Hrm Hlen H64 Hk. unfold div_shift_in.
  assert (2 <= bit_len w rm)%nat as Hbl by (unfold bit_len; nia).
  assert (exists r1, elem_shl_wrapping dbg w rm 1 = Ok r1 /\ length r1 = length rm /\ wf w r1 /\
    val w r1 = (2 * val w rm) mod cap w (length rm)) as (r1 & E1 & L1 & W1 & V1).
  { unfold elem_shl_wrapping. rewrite masked_amount_one by auto. cbn [bind].
    pose proof (inner_shl_spec w 1 ltac:(lia) rm Hrm) as HS.
    rewrite (Nat.div_small 1 w) in HS by lia. cbn [Nat.leb] in HS.
    destruct HS as (out & E & L & W & V). exists out. split; auto. split; auto. split; auto.
    rewrite V. change (2 ^ Z.of_nat 1) with 2. f_equal. ring. }
  rewrite E1. cbn [bind]. rewrite get_bit_in by (auto; lia). cbn [bind].
  assert (0 < bit_len w r1)%nat by (unfold bit_len; rewrite L1; nia).
  rewrite set_bit_in by (auto; lia). cbn [bind]. eexists. split; [reflexivity|]. cbv beta iota.
  rewrite length_bset. split; auto. split; [apply wf_bset; auto; lia|].
  rewrite val_bset by (auto; lia). rewrite V1.
  assert (cap w (length rm) = 2 * 2 ^ Z.of_nat (bit_len w rm - 1)) as Ec.
  { rewrite cap_bits, <- pow_S_nat. f_equal. unfold bit_len in *. lia. }
  set (M := 2 ^ Z.of_nat (bit_len w rm - 1)) in *.
  assert (0 < M) by apply pow2_pos.
  rewrite Ec. rewrite Z.mul_mod_distr_l by lia.
  change (Z.of_nat 0) with 0. rewrite Z.testbit_even_0.
  change (2 ^ 0) with 1. change (Z.b2z false) with 0.
  set (b := Z.b2z _). pose proof (b2z_range (Z.testbit (val w num) (Z.of_nat k))) as Hb. fold b in Hb.
  pose proof (Z.mod_pos_bound (val w rm) M ltac:(lia)).
  pose proof (Z.div_mod (val w rm) M ltac:(lia)).
  apply (Z.mod_unique_pos _ _ (val w rm / M)); lia.
Qed.

Lemma elem_sub_wrapping_mod w l r : (0 < w)%nat -> wf w l -> wf w r ->
  (length r <= length l)%nat ->
  length (elem_sub_wrapping w l r) = length l /\ wf w (elem_sub_wrapping w l r) /\
  val w (elem_sub_wrapping w l r) = (val w l - val w r) mod cap w (length l).
Proof.
  intros Hw Hl Hr Hlen. unfold elem_sub_wrapping.
  pose proof (elem_sub_overflowing_spec w l r Hw Hl Hr Hlen) as H.
  destruct (elem_sub_overflowing w l r) as [o c]. cbn [fst]. tauto.
Qed.

Lemma bit_div_walk dbg w num dv : (2 <= w)%nat -> wf w num -> wf w dv ->
  (0 < length num)%nat -> (length dv <= length num)%nat -> Z.of_nat (bit_len w num) < 2 ^ 64 ->
  let N := val w num in let C := cap w (length num) in
  forall k n1 q1 r Q z, (k <= bit_len w num)%nat ->
  length n1 = length num -> length q1 = length num -> length r = length num ->
  wf w n1 -> wf w q1 -> wf w r -> 0 <= Q ->
  val w q1 = Q * 2 ^ Z.of_nat k -> val w n1 = N mod 2 ^ Z.of_nat k + Q * 2 ^ Z.of_nat k ->
  N / 2 ^ Z.of_nat k = Q * val w dv + val w r + z * C ->
  exists q r', length q = length num /\ length r' = length num /\ wf w q /\ wf w r' /\
    (exists z', N = val w q * val w dv + val w r' + z' * C) /\
    foldR (fun '(quotient, remainder) idx =>
      do p <- div_shift_in dbg w num dv remainder idx ;;
      let '(remainder, ge) := p in
      if (ge : bool) then
        do quotient <- set_bit w quotient idx true ;;
        Ok (quotient, elem_sub_wrapping w remainder dv)
      else Ok (quotient, remainder)) (rev (seq 0 k)) (q1, r) = Ok (q, r') /\
    foldR (fun '(num, remainder) idx =>
      do p <- div_shift_in dbg w num dv remainder idx ;;
      let '(remainder, ge) := p in
      if (ge : bool) then
        do num <- set_bit w num idx true ;;
        Ok (num, elem_sub_wrapping w remainder dv)
      else
        do num <- set_bit w num idx false ;;
        Ok (num, remainder)) (rev (seq 0 k)) (n1, r) = Ok (q, r') /\
    foldR (fun remainder idx =>
      do p <- div_shift_in dbg w num dv remainder idx ;;
      let '(remainder, ge) := p in
      Ok (if (ge : bool) then elem_sub_wrapping w remainder dv else remainder))
      (rev (seq 0 k)) r = Ok r'.
Proof.
  intros Hw Hnum Hdv Hlen Hld H64 N C.
  induction k as [|k IH]; intros n1 q1 r Q z Hk L1 L2 L3 W1 W2 W3 HQ V1 V2 HC.
  - exists q1, r. cbn [seq rev foldR].
    change (2 ^ Z.of_nat 0) with 1 in *. rewrite Z.mod_1_r in V2. rewrite Z.div_1_r in HC.
    assert (n1 = q1) as -> by (apply (val_inj w); auto; [congruence|lia]).
    split; auto. split; auto. split; auto. split; auto. split; [|auto]. exists z. rewrite V1, Z.mul_1_r. auto.
  - rewrite rev_seq_S. cbn [foldR].
    assert (bit_len w r = bit_len w num) as Eb by (unfold bit_len; rewrite L3; auto).
    assert (bit_len w q1 = bit_len w num) as Eb1 by (unfold bit_len; rewrite L2; auto).
    assert (bit_len w n1 = bit_len w num) as Eb2 by (unfold bit_len; rewrite L1; auto).
    assert (Z.testbit (val w n1) (Z.of_nat k) = Z.testbit N (Z.of_nat k)) as Hbit.
    { rewrite V2. rewrite <- (Z.mod_pow2_bits_low _ (Z.of_nat (S k)) (Z.of_nat k)) by lia.
      rewrite Z_mod_plus_full, Z.mod_mod by (pose proof (pow2_pos (S k)); lia).
      apply Z.mod_pow2_bits_low. lia. }
    destruct (div_shift_in_mod dbg w num dv r k Hw Hnum W3 ltac:(lia) ltac:(lia) ltac:(lia))
      as (r' & E & L & W & V).
    assert (div_shift_in dbg w n1 dv r k = div_shift_in dbg w num dv r k) as E'.
    { unfold div_shift_in. rewrite !get_bit_in by (auto; lia). rewrite Hbit. reflexivity. }
    rewrite E', E. cbn [bind].
    assert (0 < C) as HCp by apply cap_pos. rewrite L3 in V. fold C in V. fold N in V.
    set (b := Z.b2z (Z.testbit N (Z.of_nat k))) in *.
    rewrite mod_pow_S in V2. fold b in V2. rewrite pow_S_nat in V1, V2.
    pose proof (div_pow_S N k) as DP. fold b in DP. rewrite HC in DP.
    pose proof (Z.div_mod (2 * val w r + b) C ltac:(lia)) as D1. rewrite <- V in D1.
    set (h := (2 * val w r + b) / C) in *.
    destruct (is_ge (elem_cmp r' dv)).
    + rewrite !set_bit_in by (auto; lia). cbn [bind].
      destruct (elem_sub_wrapping_mod w r' dv ltac:(lia) W Hdv ltac:(lia)) as (S1 & S2 & S3).
      rewrite L, L3 in S3. fold C in S3.
      pose proof (Z.div_mod (val w r' - val w dv) C ltac:(lia)) as D2. rewrite <- S3 in D2.
      set (h2 := (val w r' - val w dv) / C) in *.
      apply (IH _ _ _ (2 * Q + 1) (2 * z + h + h2)); rewrite ?length_bset; auto; try lia;
        try (apply wf_bset; auto; lia).
      * rewrite val_bset by (auto; lia). rewrite V1.
        replace (Q * (2 * 2 ^ Z.of_nat k)) with (Q * 2 ^ Z.of_nat (S k)) by (rewrite pow_S_nat; ring).
        rewrite bits_gap by auto. rewrite pow_S_nat.
        change (Z.b2z false) with 0. change (Z.b2z true) with 1. ring.
      * rewrite val_bset by (auto; lia). rewrite Hbit, V2. fold b. change (Z.b2z true) with 1. ring.
    + rewrite !set_bit_in by (auto; lia). cbn [bind].
      apply (IH _ _ _ (2 * Q) (2 * z + h)); rewrite ?length_bset; auto; try lia;
        try (apply wf_bset; auto; lia).
      rewrite val_bset by (auto; lia). rewrite Hbit, V2. fold b. change (Z.b2z false) with 0. ring.
Qed.

Lemma bit_div_all dbg w num dv : (2 <= w)%nat -> wf w num -> wf w dv ->
  (0 < length num)%nat -> (length dv <= length num)%nat -> Z.of_nat (bit_len w num) < 2 ^ 64 ->
  exists q r, length q = length num /\ length r = length num /\ wf w q /\ wf w r /\
    (exists z, val w num = val w q * val w dv + val w r + z * cap w (length num)) /\
    bit_div_long dbg w num dv = Ok (q, r) /\
    bit_div_overflowing dbg w num dv (zeros (length num)) = Ok (q, r, false) /\
    bit_rem_overflowing dbg w num dv (zeros (length num)) = Ok (r, false).
Proof.
  intros Hw Hnum Hdv Hlen Hld H64.
  pose proof (val_cap_bits w num Hnum) as HB.
  destruct (bit_div_walk dbg w num dv Hw Hnum Hdv Hlen Hld H64 (bit_len w num) num
    (zeros (length num)) (zeros (length num)) 0 0) as (q & r & L1 & L2 & W1 & W2 & Hz & E1 & E2 & E3);
    rewrite ?length_zeros, ?val_zeros; auto using wf_zeros; try lia.
  - rewrite (mod_pow_small _ _ (bit_len w num)) by auto. lia.
  - rewrite (div_pow_small _ _ (bit_len w num)) by auto. lia.
  - exists q, r. split; auto. split; auto. split; auto. split; auto. split; auto.
    unfold bit_div_long, bit_div_overflowing, bit_rem_overflowing.
    rewrite (Nat.max_l (length num) (length dv)) by lia. rewrite bit_len_max, Nat.max_l by lia.
    fold (bit_len w num). split; auto. rewrite E2, E3. split; auto. cbn [bind].
    unfold copy_from_slice. rewrite L2, Nat.eqb_refl. reflexivity.
Qed.
