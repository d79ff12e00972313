(** Proofs: exactly when the bitwise long division is right.  It is when, at every step of the division, the comparison of the partial
    dividend with the divisor that the crate makes (lowest limb first) agrees with the order of the numbers. *)
From Coq Require Import ZArith List Bool Lia.
From Verif Require Import Base Words Spec Arith BitSliceModel BitSliceProofs ElementModel
  BitwiseModel ElemAddSub ElemShift BitwiseProofs BitDivMod ElemDivMod DivSpec.
Import ListNotations.
Local Open Scope Z_scope.

Lemma digit_zget w l i : wf w l -> digit w (val w l) i = zget l i.
Proof.
  intros H. unfold digit. change (2 ^ Z.of_nat w) with (base w).
  replace (2 ^ (Z.of_nat w * Z.of_nat i)) with (cap w i) by (rewrite cap_bits; f_equal; lia).
  pose proof (wf_zget w l i H) as B.
  destruct (Nat.lt_ge_cases i (length l)) as [L|L].
  - rewrite div_cap_S by auto. rewrite Z.mul_comm, Z.add_comm, Z_mod_plus_full. apply Z.mod_small. auto.
  - rewrite zget_oob by auto. pose proof (val_bound w l H) as Bv.
    rewrite Z.div_small; [apply Z.mod_0_l; pose proof (base_pos w); lia|].
    split; [lia|]. apply Z.lt_le_trans with (cap w (length l)); [lia|].
    replace i with (length l + (i - length l))%nat by lia. rewrite cap_add. pose proof (cap_pos w (length l)). pose proof (cap_pos w (i - length l)). nia.
Qed.

Lemma cmp_digits w l r : wf w l -> wf w r -> (elem_cmp l r = Lt <-> lowest_first_lt w (val w l) (val w r)).
Proof.
  intros Hl Hr. rewrite elem_cmp_lt_iff. unfold low_first_lt, lowest_first_lt.
  split; intros (i & H1 & H2); exists i; [rewrite !digit_zget by auto|rewrite !digit_zget in H1 by auto]; (split; [exact H1|]);
    intros j Hj; specialize (H2 j Hj); rewrite !digit_zget in * by auto; auto.
Qed.

Lemma partial_step n d k : 0 < d -> partial_dividend n d k = 2 * ((n / 2 ^ Z.of_nat (S k)) mod d) + Z.b2z (Z.testbit n (Z.of_nat k)).
Proof.
  intros Hd. unfold partial_dividend. rewrite <- Z.testbit_spec' by lia. do 4 f_equal. f_equal. lia.
Qed.

Section Walk.
Variables (dbg : bool) (w : nat) (num dv : list Z).
Hypotheses (Hw : (2 <= w)%nat) (Hnum : wf w num) (Hdv : wf w dv) (Hlen : (0 < length num)%nat) (Hld : (length dv <= length num)%nat)
  (H64 : Z.of_nat (bit_len w num) < 2 ^ 64).
Let step := fun '(quotient, remainder) idx =>
      do p <- div_shift_in dbg w num dv remainder idx ;;
      let '(remainder, ge) := p in
      if (ge : bool) then
        do quotient <- set_bit w quotient idx true ;;
        Ok (quotient, elem_sub_wrapping w remainder dv)
      else Ok (quotient, remainder).
Let N := val w num. Let D := val w dv.

(** The bits above stay as they are. *)
Lemma high_bits : forall k q1 r Q, (k <= bit_len w num)%nat -> length q1 = length num -> length r = length num ->
  wf w q1 -> wf w r -> 0 <= Q -> val w q1 = Q * 2 ^ Z.of_nat k ->
  exists q r', foldR step (rev (seq 0 k)) (q1, r) = Ok (q, r') /\ val w q / 2 ^ Z.of_nat k = Q.
Proof.
  induction k as [|k IH]; intros q1 r Q Hk L2 L3 W2 W3 HQ V1.
  - exists q1, r. split; [reflexivity|]. rewrite V1. change (2 ^ Z.of_nat 0) with 1. rewrite Z.mul_1_r. apply Z.div_1_r.
  - rewrite rev_seq_S. cbn [foldR].
    assert (bit_len w r = bit_len w num) as Eb by (unfold bit_len; rewrite L3; auto).
    assert (bit_len w q1 = bit_len w num) as Eb1 by (unfold bit_len; rewrite L2; auto).
    destruct (div_shift_in_mod dbg w num dv r k Hw Hnum W3 ltac:(lia) ltac:(lia) ltac:(lia)) as (r' & E & L & W & V).
    unfold step at 1. rewrite E. cbn [bind].
    assert (forall q b, val w q / 2 ^ Z.of_nat k = 2 * Q + b -> 0 <= b <= 1 -> val w q / 2 ^ Z.of_nat (S k) = Q) as Up.
    { intros q b Hq Hb. rewrite pow_S_nat, Z.mul_comm, <- Z.div_div, Hq by (pose proof (pow2_pos k); lia).
      symmetry. apply (Z.div_unique_pos _ _ _ b); lia. }
    destruct (is_ge (elem_cmp r' dv)).
    + rewrite !set_bit_in by (auto; lia). cbn [bind].
      destruct (elem_sub_wrapping_mod w r' dv ltac:(lia) W Hdv ltac:(lia)) as (S1 & S2 & _).
      destruct (IH (bset w q1 k true) (elem_sub_wrapping w r' dv) (2 * Q + 1)) as (q & r2 & F & Vq); rewrite ?length_bset; auto; try lia;
        try (apply wf_bset; auto; lia).
      * rewrite val_bset by (auto; lia). rewrite V1. rewrite bits_gap by auto. rewrite pow_S_nat.
        change (Z.b2z false) with 0. change (Z.b2z true) with 1. ring.
      * exists q, r2. split; [exact F|]. apply (Up _ 1); [exact Vq|lia].
    + destruct (IH q1 r' (2 * Q)) as (q & r2 & F & Vq); auto; try lia.
      * rewrite V1, pow_S_nat. ring.
      * exists q, r2. split; [exact F|]. apply (Up _ 0); [lia|lia].
Qed.

Lemma exact_walk : 0 < D -> forall k q1 r, (k <= bit_len w num)%nat -> length q1 = length num -> length r = length num ->
  wf w q1 -> wf w r -> val w q1 = N / 2 ^ Z.of_nat k / D * 2 ^ Z.of_nat k -> val w r = (N / 2 ^ Z.of_nat k) mod D ->
  exists q r', foldR step (rev (seq 0 k)) (q1, r) = Ok (q, r') /\
    (val w q = N / D <-> (forall j, (j < k)%nat -> (lowest_first_lt w (partial_dividend N D j) D <-> partial_dividend N D j < D))).
Proof.
  intros HD. induction k as [|k IH]; intros q1 r Hk L2 L3 W2 W3 V1 V2.
  - exists q1, r. split; [reflexivity|]. change (2 ^ Z.of_nat 0) with 1 in *. rewrite Z.mul_1_r, Z.div_1_r in *. split; [intros _ j; lia|auto].
  - rewrite rev_seq_S. cbn [foldR].
    assert (bit_len w r = bit_len w num) as Eb by (unfold bit_len; rewrite L3; auto).
    assert (bit_len w q1 = bit_len w num) as Eb1 by (unfold bit_len; rewrite L2; auto).
    destruct (div_shift_in_mod dbg w num dv r k Hw Hnum W3 ltac:(lia) ltac:(lia) ltac:(lia)) as (r' & E & L & W & V).
    unfold step at 1. rewrite E. cbn [bind].
    pose proof (val_nonneg w num Hnum) as NN. fold N in NN.
    assert (0 <= N / 2 ^ Z.of_nat (S k)) as NS by (apply Z.div_pos; [lia|apply pow2_pos]).
    assert (val w r' = partial_dividend N D k) as Vt.
    { rewrite V, V2. fold N. rewrite partial_step by auto. apply Z.mod_small.
      pose proof (b2z_range (Z.testbit N (Z.of_nat k))). pose proof (Z.mod_pos_bound (N / 2 ^ Z.of_nat (S k)) D HD).
      pose proof (Z.mod_le (N / 2 ^ Z.of_nat (S k)) D NS HD). pose proof (div_pow_S N k) as DP.
      pose proof (val_bound w num Hnum) as B. fold N in B. rewrite L3.
      assert (N / 2 ^ Z.of_nat k <= N) by (apply Z.div_le_upper_bound; [apply pow2_pos|]; pose proof (pow2_pos k); nia). lia. }
    set (t := partial_dividend N D k) in *.
    assert (t = 2 * ((N / 2 ^ Z.of_nat (S k)) mod D) + Z.b2z (Z.testbit N (Z.of_nat k))) as Et by (apply partial_step; auto).
    pose proof (Z.mod_pos_bound (N / 2 ^ Z.of_nat (S k)) D HD) as BR. pose proof (b2z_range (Z.testbit N (Z.of_nat k))) as Bb.
    pose proof (div_pow_S N k) as DP. set (M := N / 2 ^ Z.of_nat (S k)) in *. set (M' := N / 2 ^ Z.of_nat k) in *.
    set (b := Z.b2z (Z.testbit N (Z.of_nat k))) in *.
    pose proof (Z.div_mod M D ltac:(lia)) as DM.
    assert (0 <= M / D) as NQ by (apply Z.div_pos; lia).
    assert (is_ge (elem_cmp r' dv) = false <-> lowest_first_lt w t D) as Gt.
    { rewrite <- Vt. unfold D. rewrite <- (cmp_digits w) by auto. destruct (elem_cmp r' dv); cbn; split; congruence. }
    assert (forall q (bit : Z), 0 <= bit <= 1 -> val w q / 2 ^ Z.of_nat k = 2 * (M / D) + bit -> 2 * (M / D) + bit <> M' / D -> val w q <> N / D) as Wrong.
    { intros q bit Hb Hq Hne Heq. apply Hne. rewrite <- Hq, Heq. unfold M'. rewrite !Z.div_div by (pose proof (pow2_pos k); lia). f_equal. ring. }
    destruct (is_ge (elem_cmp r' dv)) eqn:G.
    + assert (~ lowest_first_lt w t D) as NL by (intros H; apply Gt in H; discriminate).
      rewrite !set_bit_in by (auto; lia). cbn [bind].
      destruct (elem_sub_wrapping_mod w r' dv ltac:(lia) W Hdv ltac:(lia)) as (S1 & S2 & S3).
      assert (val w (bset w q1 k true) = (2 * (M / D) + 1) * 2 ^ Z.of_nat k) as Vb.
      { rewrite val_bset by (auto; lia). rewrite V1. rewrite bits_gap by auto. rewrite pow_S_nat.
        change (Z.b2z false) with 0. change (Z.b2z true) with 1. ring. }
      destruct (Z.lt_ge_cases t D) as [Lt|Ge].
      * destruct (high_bits k (bset w q1 k true) (elem_sub_wrapping w r' dv) (2 * (M / D) + 1)) as (q & r2 & F & Vq);
          rewrite ?length_bset; auto; try lia; try (apply wf_bset; auto; lia).
        exists q, r2. split; [exact F|]. split.
        -- intros Heq. exfalso. revert Heq. apply (Wrong q 1); [lia|exact Vq|].
           rewrite <- (Z.div_unique_pos M' D (2 * (M / D)) t) by lia. lia.
        -- intros A. exfalso. apply NL, A; [lia|]. exact Lt.
      * assert (M' / D = 2 * (M / D) + 1) as EQ by (symmetry; apply (Z.div_unique_pos _ _ _ (t - D)); lia).
        assert (M' mod D = t - D) as ER by (symmetry; apply (Z.mod_unique_pos _ _ (2 * (M / D) + 1)); lia).
        destruct (IH (bset w q1 k true) (elem_sub_wrapping w r' dv)) as (q & r2 & F & H); rewrite ?length_bset; auto; try lia;
          try (apply wf_bset; auto; lia).
        { rewrite ER, S3, Vt. apply Z.mod_small. pose proof (val_bound w r' W). rewrite Vt in *. fold D. lia. }
        exists q, r2. split; [exact F|]. rewrite H. split.
        -- intros A j Hj. destruct (Nat.eq_dec j k) as [->|]; [|apply A; lia]. fold t. split; [intros C; contradiction|lia].
        -- intros A j Hj. apply A. lia.
    + assert (lowest_first_lt w t D) as HL by (apply Gt; auto).
      destruct (Z.lt_ge_cases t D) as [Lt|Ge].
      * assert (M' / D = 2 * (M / D)) as EQ by (symmetry; apply (Z.div_unique_pos _ _ _ t); lia).
        assert (M' mod D = t) as ER by (symmetry; apply (Z.mod_unique_pos _ _ (2 * (M / D))); lia).
        destruct (IH q1 r') as (q & r2 & F & H); auto; try lia.
        { rewrite EQ, V1, pow_S_nat. ring. }
        exists q, r2. split; [exact F|]. rewrite H. split.
        -- intros A j Hj. destruct (Nat.eq_dec j k) as [->|]; [|apply A; lia]. fold t. tauto.
        -- intros A j Hj. apply A. lia.
      * destruct (high_bits k q1 r' (2 * (M / D))) as (q & r2 & F & Vq); auto; try lia.
        { rewrite V1, pow_S_nat. ring. }
        exists q, r2. split; [exact F|]. split.
        -- intros Heq. exfalso. revert Heq. apply (Wrong q 0); [lia|lia|].
           rewrite <- (Z.div_unique_pos M' D (2 * (M / D) + 1) (t - D)) by lia. lia.
        -- intros A. exfalso. apply (A k) in HL; [|lia]. fold t in HL. lia.
Qed.
End Walk.

Lemma bit_div_exact dbg w num dv q r : (2 <= w)%nat -> wf w num -> wf w dv ->
  (0 < length num)%nat -> (length dv <= length num)%nat -> Z.of_nat (bit_len w num) < 2 ^ 64 -> 0 < val w dv ->
  bit_div_long dbg w num dv = Ok (q, r) ->
  (val w q = val w num / val w dv <-> agreeing w (w * length num) (val w num) (val w dv)).
Proof.
  intros Hw Hnum Hdv Hlen Hld H64 HD E. unfold bit_div_long in E.
  rewrite (Nat.max_l (length num) (length dv)) in E by lia. rewrite bit_len_max, Nat.max_l in E by lia.
  pose proof (val_cap_bits w num Hnum) as HB.
  destruct (exact_walk dbg w num dv Hw Hnum Hdv Hlen Hld H64 HD (bit_len w num) (zeros (length num)) (zeros (length num))) as (q' & r' & F & H);
    rewrite ?length_zeros, ?val_zeros; auto using wf_zeros.
  - rewrite (div_pow_small _ _ (bit_len w num)) by auto. rewrite Z.div_0_l by lia. lia.
  - rewrite (div_pow_small _ _ (bit_len w num)) by auto. rewrite Z.mod_0_l by lia. lia.
  - fold (bit_len w num) in E. rewrite F in E. assert (q' = q) as <- by congruence. rewrite H. unfold agreeing.
    unfold bit_len. rewrite (Nat.mul_comm w). reflexivity.
Qed.
