(** Property C115: bitwise operators of [I<N>]. *)
From Coq Require Import ZArith List Bool Lia.
From Verif Require Import Base Words Spec Arith ElementModel BitSliceModel UModel UProofs IModel IProofs PropBits PropU PropI.
Import ListNotations.
Local Open Scope Z_scope.

(** [sval] is the number congruent to the unsigned value in the signed range. *)
Lemma sval_range a : wf 8 a -> (0 < length a)%nat ->
  - cap 8 (length a) <= 2 * sval a < cap 8 (length a) /\ sval a mod cap 8 (length a) = val 8 a.
Proof.
  intros Ha Hl. pose proof (val_bound 8 a Ha) as HB. unfold sval.
  destruct (Z.ltb_spec (2 * val 8 a) (cap 8 (length a))).
  - split; [lia|]. apply Z.mod_small. lia.
  - split; [lia|]. replace (val 8 a - cap 8 (length a)) with (val 8 a + (-1) * cap 8 (length a)) by lia.
    rewrite Z.mod_add by lia. apply Z.mod_small. lia.
Qed.

Lemma sval_unique a s : wf 8 a -> (0 < length a)%nat ->
  - cap 8 (length a) <= 2 * s < cap 8 (length a) -> s mod cap 8 (length a) = val 8 a -> sval a = s.
Proof.
  intros Ha Hl Hs Hm. destruct (sval_range a Ha Hl) as [R E]. rewrite <- E in Hm.
  pose proof (cap_pos 8 (length a)) as Hc. remember (cap 8 (length a)) as C.
  pose proof (Z.div_mod s C ltac:(lia)). pose proof (Z.div_mod (sval a) C ltac:(lia)).
  assert (s - sval a = (s / C - sval a / C) * C) as E1 by lia.
  remember (s / C - sval a / C) as d. assert (d = 0) by nia. lia.
Qed.

Lemma cap8 n : cap 8 n = 2 ^ (8 * Z.of_nat n).
Proof. unfold cap. f_equal. Qed.

Lemma signed_shift n x : (0 < n)%nat -> - cap 8 n <= 2 * x < cap 8 n <->
  (Z.shiftr x (8 * Z.of_nat n - 1) = 0 \/ Z.shiftr x (8 * Z.of_nat n - 1) = -1).
Proof.
  intros Hn. rewrite cap8, Z.shiftr_div_pow2 by lia.
  assert (2 ^ (8 * Z.of_nat n) = 2 * 2 ^ (8 * Z.of_nat n - 1)) as -> by (rewrite <- Z.pow_succ_r by lia; f_equal; lia).
  assert (0 < 2 ^ (8 * Z.of_nat n - 1)) as Hp by (apply Z.pow_pos_nonneg; lia).
  remember (2 ^ (8 * Z.of_nat n - 1)) as H. pose proof (Z.div_mod x H ltac:(lia)). pose proof (Z.mod_pos_bound x H Hp).
  split; [|intros [E|E]; rewrite E in *; lia]. intros. assert (-2 < x / H < 1) by nia. lia.
Qed.

(** [&], [|], [^] and [!] act on the two's complement bits of the number, all of them: the sign
    bit repeats forever. *)
Theorem C115_bitops : forall a b, wf 8 a -> wf 8 b -> length b = length a -> (0 < length a)%nat ->
  sval (i_bitand a b) = Z.land (sval a) (sval b) /\
  sval (i_bitor a b) = Z.lor (sval a) (sval b) /\
  sval (i_bitxor a b) = Z.lxor (sval a) (sval b) /\
  sval (i_not a) = - sval a - 1.
Proof.
  intros a b Ha Hb Hl Hn.
  destruct (sval_range a Ha Hn) as [Ra Ea]. rewrite <- Hl in Hn. destruct (sval_range b Hb Hn) as [Rb Eb].
  rewrite Hl in Hn, Rb, Eb.
  apply (proj1 (signed_shift _ _ Hn)) in Ra. apply (proj1 (signed_shift _ _ Hn)) in Rb.
  pose proof (fun i => C32_bitops a b i Ha Hb Hl) as HB. cbn zeta in HB.
  destruct (HB 0%nat) as (W1 & L1 & _ & W2 & L2 & _ & W3 & L3 & _ & W4 & L4 & V4 & _).
  assert (forall op bop c, wf 8 c -> length c = length a ->
    (forall x y i, Z.testbit (op x y) i = bop (Z.testbit x i) (Z.testbit y i)) ->
    bop false false = false ->
    (forall x y n, Z.shiftr (op x y) n = op (Z.shiftr x n) (Z.shiftr y n)) ->
    (forall x y, x = 0 \/ x = -1 -> y = 0 \/ y = -1 -> op x y = 0 \/ op x y = -1) ->
    (forall i, Z.testbit (val 8 c) (Z.of_nat i) = bop (Z.testbit (val 8 a) (Z.of_nat i)) (Z.testbit (val 8 b) (Z.of_nat i))) ->
    sval c = op (sval a) (sval b)) as K.
  { intros op bop c Wc Lc Hop H0 Hsh Hcl Hc. apply sval_unique; auto; try lia; rewrite Lc.
    - apply (proj2 (signed_shift _ _ Hn)). rewrite Hsh. apply Hcl; auto.
    - apply Z.bits_inj'. intros i Hi. rewrite <- (Z2Nat.id i), Hc by auto. rewrite Z2Nat.id by auto.
      rewrite cap8 in *. destruct (Z.lt_ge_cases i (8 * Z.of_nat (length a))).
      + rewrite Z.mod_pow2_bits_low, Hop by lia. rewrite <- Ea, <- Eb, !Z.mod_pow2_bits_low by lia. auto.
      + rewrite Z.mod_pow2_bits_high by lia. rewrite <- Ea, <- Eb, !Z.mod_pow2_bits_high by lia. auto. }
  split; [|split; [|split]].
  - apply (K Z.land andb); auto using Z.land_spec, Z.shiftr_land.
    + intros x y [-> | ->] [-> | ->]; auto.
    + intros i. destruct (HB i) as (_ & _ & H & _). exact H.
  - apply (K Z.lor orb); auto using Z.lor_spec, Z.shiftr_lor.
    + intros x y [-> | ->] [-> | ->]; auto.
    + intros i. destruct (HB i) as (_ & _ & _ & _ & _ & H & _). exact H.
  - apply (K Z.lxor xorb); auto using Z.lxor_spec, Z.shiftr_lxor.
    + intros x y [-> | ->] [-> | ->]; auto.
    + intros i. destruct (HB i) as (_ & _ & _ & _ & _ & _ & _ & _ & H & _). exact H.
  - change (i_not a) with (u_not a). apply sval_unique; auto; try lia; rewrite L4.
    + apply (proj2 (signed_shift _ _ Hn)) in Ra.
      assert (cap 8 (length a) = 2 * 2 ^ (8 * Z.of_nat (length a) - 1)) by (rewrite cap8, <- Z.pow_succ_r by lia; f_equal; lia).
      lia.
    + rewrite V4, <- Ea. pose proof (cap_pos 8 (length a)). remember (cap 8 (length a)) as C.
      symmetry. apply (Z.mod_unique_pos _ _ (- (sval a / C) - 1)).
      * pose proof (Z.mod_pos_bound (sval a) C ltac:(lia)). lia.
      * pose proof (Z.div_mod (sval a) C ltac:(lia)). lia.
Qed.
Print Assumptions C115_bitops.

Example C115_demo : wf 8 [254; 255] /\ wf 8 [7; 1] /\ sval [254; 255] = -2 /\ sval [7; 1] = 263 /\
  i_bitand [254; 255] [7; 1] = [6; 1] /\ Z.land (-2) 263 = 262 /\
  i_bitxor [254; 255] [7; 1] = [249; 254] /\ sval [249; 254] = -263 /\ i_not [254; 255] = [1; 0].
Proof. split; [wf_tac|]. split; [wf_tac|]. repeat split; reflexivity. Qed.
