(** C16, C29, C46, C131 continued: divisors of more than one limb (specification: DivSpec.v).  The first comparison that has seen as many
    bits of the dividend as a limb has, compares them with the lowest limb of the divisor, so that most quotients are wrong. *)
From Coq Require Import ZArith QArith List Bool Lia.
From Verif Require Import Base Words Spec Arith BitSliceModel BitSliceProofs ElementModel
  BitwiseModel ElemAddSub ElemShift BitwiseProofs BitDivMod ElemDivMod PropBits UModel UProofs
  InternModel BigIntModel BigIntSpec BigIntProofs BigIntRun PropBigInt PropBigInt3 PropDiv DivSpec DivExact PropDivExact PropDivisors
  RealSpec RealProofs FixedUModel PropFixedU.
From Verif Require Import Spec.
Import ListNotations.
Local Open Scope Z_scope.

(** The [w] leading bits of [n]; all of [n] if it has fewer. *)
Definition dropped (w : nat) (n : Z) : Z := Z.max 0 (Z.log2 n + 1 - Z.of_nat w).
Definition leading (w : nat) (n : Z) : Z := n / 2 ^ dropped w n.

Section pure.
Context (w : nat) (Hw : (2 <= w)%nat).
Local Notation B := (2 ^ Z.of_nat w).

Lemma leading_bounds n : 0 < n -> 0 < leading w n < B.
Proof.
  intros Hn. unfold leading. pose proof (Z.log2_spec n Hn) as [L1 L2]. pose proof (Z.log2_nonneg n) as L0.
  assert (0 <= dropped w n) as D0 by (unfold dropped; lia). pose proof (Z.pow_pos_nonneg 2 (dropped w n) ltac:(lia) D0) as P. split.
  - apply Z.div_str_pos. split; [lia|]. apply Z.le_trans with (2 ^ Z.log2 n); [|lia]. apply Z.pow_le_mono_r; [lia|]. unfold dropped. lia.
  - apply Z.div_lt_upper_bound; [lia|]. rewrite <- Z.pow_add_r by lia. apply Z.lt_le_trans with (2 ^ Z.succ (Z.log2 n)); [lia|].
    apply Z.pow_le_mono_r; [lia|]. unfold dropped. lia.
Qed.

Lemma partial_small n d k : 0 <= n -> n / 2 ^ (Z.of_nat k + 1) < d -> partial_dividend n d k = n / 2 ^ Z.of_nat k.
Proof.
  intros Hn Hd. unfold partial_dividend. pose proof (Z.pow_pos_nonneg 2 (Z.of_nat k) ltac:(lia) ltac:(lia)).
  rewrite Z.pow_add_r in * by lia. change (2 ^ 1) with 2 in *. rewrite <- Z.div_div in * by lia.
  pose proof (Z.div_pos n (2 ^ Z.of_nat k) Hn ltac:(lia)) as P. pose proof (Z.div_pos (n / 2 ^ Z.of_nat k) 2 P ltac:(lia)).
  rewrite (Z.mod_small (_ / 2)) by lia. pose proof (Z.div_mod (n / 2 ^ Z.of_nat k) 2 ltac:(lia)). lia.
Qed.

Lemma leading_disagrees n d bits : 0 < n -> B <= d -> d mod B < leading w n -> dropped w n < Z.of_nat bits -> ~ agreeing w bits n d.
Proof.
  intros Hn Hd HL Hb A. pose proof (leading_bounds n Hn) as LB. pose proof (Z.log2_nonneg n).
  assert (0 <= dropped w n) as D0 by (unfold dropped; lia).
  specialize (A (Z.to_nat (dropped w n)) ltac:(lia)).
  assert (partial_dividend n d (Z.to_nat (dropped w n)) = leading w n) as E.
  { rewrite partial_small; [unfold leading; rewrite Z2Nat.id by lia; reflexivity|lia|]. rewrite Z2Nat.id by lia.
    apply Z.le_lt_trans with (leading w n); [|lia]. unfold leading. apply Z.div_le_compat_l; [lia|].
    split; [apply Z.pow_pos_nonneg; lia|apply Z.pow_le_mono_r; lia]. }
  rewrite E in A. rewrite PropDivisors.decided, !PropDivisors.digit_0, (Z.mod_small (leading w n)) in A by (rewrite ?PropDivisors.digit_0, ?(Z.mod_small (leading w n)); lia). lia.
Qed.

(** Dividends of one limb. *)
Lemma small_agrees n d bits : 0 <= n < B -> B <= d -> (0 < bits)%nat -> (agreeing w bits n d <-> n <= d mod B).
Proof.
  intros Hn Hd Hb. pose proof (Z.mod_pos_bound d B ltac:(lia)) as M. split.
  - intros A. destruct (Z.le_gt_cases n (d mod B)) as [|G]; auto. exfalso. revert A. apply leading_disagrees; try lia.
    + unfold leading, dropped. assert (Z.log2 n < Z.of_nat w) by (apply Z.log2_lt_pow2; lia). rewrite Z.max_l by lia. change (2 ^ 0) with 1. rewrite Z.div_1_r. exact G.
    + unfold dropped. assert (Z.log2 n < Z.of_nat w) by (apply Z.log2_lt_pow2; lia). lia.
  - intros L k Hk. assert (0 < 2 ^ Z.of_nat k) as P by (apply Z.pow_pos_nonneg; lia).
    assert (0 <= n / 2 ^ Z.of_nat k <= n) as T by (split; [apply Z.div_pos; lia|apply Z.div_le_upper_bound; nia]).
    rewrite partial_small; [|lia|].
    2: { apply Z.le_lt_trans with n; [|lia]. apply Z.div_le_upper_bound; [apply Z.pow_pos_nonneg; lia|].
         assert (0 < 2 ^ (Z.of_nat k + 1)) by (apply Z.pow_pos_nonneg; lia). nia. }
    set (t := n / 2 ^ Z.of_nat k) in *. split; [intros _; lia|intros _].
    assert (forall i, (0 < i)%nat -> digit w t i = 0) as Z0.
    { intros i Hi. unfold digit. rewrite Z.div_small; [apply Z.mod_0_l; lia|]. split; [lia|]. apply Z.lt_le_trans with B; [lia|]. apply Z.pow_le_mono_r; nia. }
    destruct (Z.lt_ge_cases t (d mod B)) as [C|C].
    { exists 0%nat. rewrite !PropDivisors.digit_0, (Z.mod_small t) by lia. split; [exact C|]. intros j Hj. lia. }
    assert (exists N, d < 2 ^ (Z.of_nat w * Z.of_nat N)) as (N & HN).
    { exists (Z.to_nat (Z.log2 d + 1)). pose proof (Z.log2_nonneg d). rewrite Z2Nat.id by lia.
      apply Z.lt_le_trans with (2 ^ Z.succ (Z.log2 d)); [apply Z.log2_spec; lia|]. apply Z.pow_le_mono_r; nia. }
    destruct (PropDivisors.first_difference w Hw t d N) as [S|(i & H1 & H2 & H3)].
    + exfalso. assert (t = d); [|lia]. apply (PropDivisors.digits_equal w Hw N); try lia; auto.
    + exists i. split; [|exact H3]. destruct i as [|i].
      * rewrite !PropDivisors.digit_0, (Z.mod_small t) in * by lia. lia.
      * rewrite Z0 in * by lia. assert (0 <= digit w d (S i)) by (unfold digit; apply Z.mod_pos_bound; lia). lia.
Qed.
End pure.

(** ** C16 *)

(** The quotient by a divisor of more than one limb is wrong if the leading bits of the dividend, as many as a limb has, exceed the lowest
    limb of the divisor; a dividend of one limb is divided rightly exactly if it does not exceed that limb. *)
Theorem C16_leading_partial : forall dbg w n d, (2 <= w)%nat -> wf w n -> wf w d ->
  (0 < length n)%nat -> (length d <= length n)%nat -> Z.of_nat (w * length n) < 2 ^ 64 -> 2 ^ Z.of_nat w <= val w d ->
  exists q r, bit_div_long dbg w n d = Ok (q, r) /\
    (0 < val w n -> val w d mod 2 ^ Z.of_nat w < leading w (val w n) -> val w q <> val w n / val w d) /\
    (val w n < 2 ^ Z.of_nat w -> (val w q = 0 <-> val w n <= val w d mod 2 ^ Z.of_nat w)).
Proof.
  intros dbg w n d Hw Wn Wd Hn Hld H64 HD. pose proof (Z.pow_pos_nonneg 2 (Z.of_nat w) ltac:(lia) ltac:(lia)).
  destruct (C16_exact_partial dbg w n d Hw Wn Wd Hn Hld H64 ltac:(lia)) as (q & r & E & _ & _ & X & _).
  pose proof (val_bound w n Wn) as Bn. exists q, r. split; [exact E|]. split.
  - intros Np HL Q. apply X in Q. revert Q. apply leading_disagrees; auto.
    unfold dropped. assert (Z.log2 (val w n) < Z.of_nat (length n * w)); [|nia].
    apply Z.log2_lt_pow2; [lia|]. rewrite <- cap_bits. lia.
  - intros Ns. rewrite <- (small_agrees w Hw (val w n) (val w d) (w * length n)) by (try lia; nia).
    rewrite <- X, Z.div_small by lia. reflexivity.
Qed.
Print Assumptions C16_leading_partial.

(** ** C29 *)

Theorem C29_leading_partial : forall dbg a b, wf 8 a -> wf 8 b -> length b = length a ->
  (0 < length a)%nat -> Z.of_nat (8 * length a) < 2 ^ 64 -> 256 <= val 8 b ->
  exists q, u_div dbg a b = Ok q /\
    (0 < val 8 a -> val 8 b mod 256 < leading 8 (val 8 a) -> val 8 q <> val 8 a / val 8 b) /\
    (0 < val 8 a -> val 8 b mod 256 = 0 -> val 8 q <> val 8 a / val 8 b) /\
    (val 8 a < 256 -> (val 8 q = 0 <-> val 8 a <= val 8 b mod 256)).
Proof.
  intros dbg a b Wa Wb Hl Hp H64 Hb.
  destruct (C16_congruence_partial dbg 8 a b ltac:(lia) Wa Wb Hp ltac:(lia) H64) as (q & r & E & _ & _ & _ & _ & _ & _ & E1 & E2 & _).
  destruct (C16_leading_partial dbg 8 a b ltac:(lia) Wa Wb Hp ltac:(lia) H64 Hb) as (q' & r' & E' & X1 & X2).
  rewrite E in E'. injection E' as <- <-. exists q. split; [unfold u_div; rewrite E1, E2; destruct dbg; reflexivity|].
  change (2 ^ Z.of_nat 8) with 256 in *. split; [exact X1|]. split; [|exact X2].
  intros Na Z0. apply X1; auto. rewrite Z0. pose proof (leading_bounds 8 ltac:(lia) (val 8 a) Na). lia.
Qed.
Print Assumptions C29_leading_partial.

(** 5 / 256 is not 0, in two bytes. *)
Example C29_leading_demo : u_div true [5; 0] [0; 1] = Ok [7; 0] /\ u_div true [5; 0] [5; 1] = Ok [0; 0] /\
  leading 8 1000 = 250 /\ u_div false [232; 3] [200; 1] = Ok [5; 0].
Proof. vm_compute. repeat split. Qed.

(** ** C46 *)

(** The same for BigInts with divisors of more than 64 bits (and dividends of at least as many limbs): in particular no nonzero number
    is divided rightly by a multiple of 2^64. *)
Theorem C46_leading_partial : forall dbg P st hs a b x y,
  consistent P st hs -> room P hs 0 -> is_int st hs a x -> is_int st hs b y -> addressable x ->
  Z.log2 (Z.abs y) / 64 <= Z.log2 (Z.abs x) / 64 -> 2 ^ 64 <= Z.abs y ->
  Z.abs y mod 2 ^ 64 < leading 64 (Z.abs x) \/ (x <> 0 /\ y mod 2 ^ 64 = 0) ->
  exists q, yields P hs (bi_div dbg a b) st q /\ q <> Z.quot x y.
Proof.
  intros dbg P st hs a b x y Hc Hr Ia Ib Ax Hle Hy H.
  destruct (C46_exact_partial dbg P st hs a b x y Hc Hr Ia Ib Ax Hle ltac:(lia)) as (q & r & Y & _ & X & _).
  exists q. split; [exact Y|]. rewrite X. clear X Y.
  assert (x <> 0) as Nx.
  { intros ->. destruct H as [H|[H _]]; [|congruence]. change (leading 64 (Z.abs 0)) with 0 in H.
    pose proof (Z.mod_pos_bound (Z.abs y) (2 ^ 64) ltac:(lia)). lia. }
  apply leading_disagrees; [lia|lia|exact Hy| |].
  - destruct H as [H|[_ H]]; [exact H|]. change (2 ^ Z.of_nat 64) with (2 ^ 64).
    assert (Z.abs y mod 2 ^ 64 = 0) as ->.
    { apply Z.mod_divide; [lia|]. apply Z.divide_abs_r. apply Z.mod_divide; [lia|exact H]. }
    apply leading_bounds; lia.
  - unfold dropped. clear H. pose proof (Z.log2_nonneg (Z.abs x)). pose proof (Z.div_mod (Z.log2 (Z.abs x)) 64 ltac:(lia)).
    pose proof (Z.mod_pos_bound (Z.log2 (Z.abs x)) 64 ltac:(lia)). lia.
Qed.
Print Assumptions C46_leading_partial.

(** 3 * 2^64 divided by 2^64. *)
Example C46_leading_demo : exists e st p q,
  run false [From U128 (3 * 2 ^ 64); From U128 (2 ^ 64); RefRef ODiv 0 1] [] interner_new 0 = Ok (e, st, p) /\
  nth_error e 2 = Some (Some q) /\ denotes st q (3 * 2 ^ 64 + 2 ^ 64 - 1).
Proof. do 4 eexists. split; [vm_compute; reflexivity|]. split; [reflexivity|]. unfold denotes. cbn. vm_compute. eauto. Qed.

(** ** C131 *)

(** A divisor whose [m] lowest limbs are zero: bit [k] of the quotient is set whenever the dividend, shifted right by [k], does not end in [m]
    zero limbs. *)
Lemma low_digits w x : forall m, (forall j, (j < m)%nat -> digit w x j = 0) -> x mod 2 ^ (Z.of_nat w * Z.of_nat m) = 0.
Proof.
  induction m as [|m IH]; intros H.
  - rewrite Z.mul_0_r. apply Z.mod_1_r.
  - replace (Z.of_nat w * Z.of_nat (S m)) with (Z.of_nat w * Z.of_nat m + Z.of_nat w) by lia. rewrite Z.pow_add_r by lia.
    rewrite Z.rem_mul_r by (try apply Z.pow_nonzero; try apply Z.pow_pos_nonneg; lia). rewrite IH by (intros; apply H; lia).
    specialize (H m ltac:(lia)). unfold digit in H. rewrite H. lia.
Qed.
Lemma digit_low w x m j : (j < m)%nat -> x mod 2 ^ (Z.of_nat w * Z.of_nat m) = 0 -> digit w x j = 0.
Proof.
  intros Hj H. unfold digit. apply Z.mod_divide in H; [|apply Z.pow_nonzero; lia]. destruct H as [c ->].
  replace (Z.of_nat w * Z.of_nat m) with (Z.of_nat w * Z.of_nat (m - S j) + Z.of_nat w + Z.of_nat w * Z.of_nat j) by nia.
  rewrite !Z.pow_add_r by nia. rewrite !Z.mul_assoc. rewrite Z.div_mul by (apply Z.pow_nonzero; lia). apply Z.mod_mul. apply Z.pow_nonzero; lia.
Qed.

Section Low.
Variables (dbg : bool) (w : nat) (num dv : list Z) (m : nat).
Hypotheses (Hw : (2 <= w)%nat) (Hnum : wf w num) (Hdv : wf w dv) (Hlen : (0 < length num)%nat) (Hld : (length dv <= length num)%nat)
  (H64 : Z.of_nat (bit_len w num) < 2 ^ 64) (Hm : (m <= length num)%nat).
Let step := fun '(quotient, remainder) idx =>
      do p <- div_shift_in dbg w num dv remainder idx ;;
      let '(remainder, ge) := p in
      if (ge : bool) then
        do quotient <- set_bit w quotient idx true ;;
        Ok (quotient, elem_sub_wrapping w remainder dv)
      else Ok (quotient, remainder).
Let N := val w num.

(** [M x] is [x] modulo the base of the limbs to the power [m]. *)
Lemma low_walk (M : Z -> Z) : (forall x, M (x mod cap w (length num)) = M x) -> (forall x y b, M x = M y -> M (2 * x + b) = M (2 * y + b)) ->
  (forall x, M (x - val w dv) = M x) -> (forall x, (forall j, (j < m)%nat -> digit w x j = 0) -> M x = 0) ->
  (forall j, (j < m)%nat -> digit w (val w dv) j = 0) ->
  forall k q1 r Q, (k <= bit_len w num)%nat -> length q1 = length num -> length r = length num ->
  wf w q1 -> wf w r -> 0 <= Q -> val w q1 = Q * 2 ^ Z.of_nat k -> M (val w r) = M (N / 2 ^ Z.of_nat k) ->
  exists q r', foldR step (rev (seq 0 k)) (q1, r) = Ok (q, r') /\
    forall j, (j < k)%nat -> M (N / 2 ^ Z.of_nat j) <> 0 -> Z.testbit (val w q) (Z.of_nat j) = true.
Proof.
  intros MC MD MS LD DL. induction k as [|k IH]; intros q1 r Q Hk L2 L3 W2 W3 HQ V1 V2.
  - exists q1, r. split; [reflexivity|]. intros j Hj. lia.
  - rewrite rev_seq_S. cbn [foldR].
    assert (bit_len w r = bit_len w num) as Eb by (unfold bit_len; rewrite L3; auto).
    assert (bit_len w q1 = bit_len w num) as Eb1 by (unfold bit_len; rewrite L2; auto).
    destruct (div_shift_in_mod dbg w num dv r k Hw Hnum W3 ltac:(lia) ltac:(lia) ltac:(lia)) as (r' & E & L & Wr & V).
    unfold step at 1. rewrite E. cbn [bind].
    assert (M (val w r') = M (N / 2 ^ Z.of_nat k)) as Vr.
    { rewrite V, L3, MC. fold N. rewrite (div_pow_S N k). apply MD. exact V2. }
    clear V.
    destruct (is_ge (elem_cmp r' dv)) eqn:G.
    + rewrite !set_bit_in by (auto; lia). cbn [bind].
      destruct (elem_sub_wrapping_mod w r' dv ltac:(lia) Wr Hdv ltac:(lia)) as (S1 & S2 & S3).
      assert (M (val w (elem_sub_wrapping w r' dv)) = M (N / 2 ^ Z.of_nat k)) as S4 by (rewrite S3, L, L3, MC, MS; exact Vr). clear S3.
      assert (val w (bset w q1 k true) = (2 * Q + 1) * 2 ^ Z.of_nat k) as Vb.
      { rewrite val_bset by (auto; lia). rewrite V1. rewrite bits_gap by auto. rewrite pow_S_nat.
        change (Z.b2z false) with 0. change (Z.b2z true) with 1. ring. }
      destruct (IH (bset w q1 k true) (elem_sub_wrapping w r' dv) (2 * Q + 1)) as (q & r2 & F & H); rewrite ?length_bset; auto; try lia;
        try (apply wf_bset; auto; lia).
      destruct (high_bits dbg w num dv Hw Hnum Hdv Hlen Hld H64 k (bset w q1 k true) (elem_sub_wrapping w r' dv) (2 * Q + 1)) as (q' & r3 & F' & H');
        rewrite ?length_bset; auto; try lia; try (apply wf_bset; auto; lia).
      fold step in F'. rewrite F in F'. injection F' as <- <-. exists q, r2. split; [exact F|].
      intros j Hj Hn. destruct (Nat.eq_dec j k) as [->|]; [|apply H; auto; lia].
      apply Z.b2z_inj. rewrite Z.testbit_spec', H' by lia. change (Z.b2z true) with 1. rewrite Z.add_comm, Z.mul_comm, Z_mod_plus_full. reflexivity.
    + destruct (IH q1 r' (2 * Q)) as (q & r2 & F & H); auto; try lia.
      { rewrite V1, pow_S_nat. ring. }
      exists q, r2. split; [exact F|]. intros j Hj Hn. destruct (Nat.eq_dec j k) as [->|]; [|apply H; auto; lia]. exfalso.
      assert (lowest_first_lt w (val w r') (val w dv)) as (i & H1 & H2).
      { apply cmp_digits; auto. destruct (elem_cmp r' dv); cbn in G; congruence. }
      rewrite <- Vr in Hn. apply Hn. apply LD. intros j Hj'.
      destruct (Nat.lt_ge_cases i m) as [Im|Im].
      * rewrite (DL i) in H1 by auto.
        pose proof (Z.mod_pos_bound (val w r' / 2 ^ (Z.of_nat w * Z.of_nat i)) (2 ^ Z.of_nat w) ltac:(apply Z.pow_pos_nonneg; lia)). unfold digit in H1. lia.
      * rewrite H2 by lia. apply DL; auto.
Qed.
End Low.

Lemma mod_facts W D C c : 0 < W -> C = c * W -> 0 < C -> D mod W = 0 ->
  (forall x, (x mod C) mod W = x mod W) /\ (forall x y b, x mod W = y mod W -> (2 * x + b) mod W = (2 * y + b) mod W) /\
  (forall x, (x - D) mod W = x mod W).
Proof.
  intros WP HC CP HD. split; [|split].
  - intros x. rewrite (Z.div_mod x C) at 2 by lia. rewrite HC.
    replace (c * W * (x / (c * W)) + x mod (c * W)) with (x mod (c * W) + c * (x / (c * W)) * W) by ring. rewrite Z_mod_plus_full. reflexivity.
  - intros x y b E. rewrite Z.add_mod, Z.mul_mod, E, <- Z.mul_mod, <- Z.add_mod by lia. reflexivity.
  - intros x. rewrite Zminus_mod, HD, Z.sub_0_r, Z.mod_mod by lia. reflexivity.
Qed.

Lemma low_div dbg w num dv m q r : (2 <= w)%nat -> wf w num -> wf w dv ->
  (0 < length num)%nat -> (length dv <= length num)%nat -> Z.of_nat (bit_len w num) < 2 ^ 64 -> (m <= length num)%nat ->
  val w dv mod 2 ^ (Z.of_nat w * Z.of_nat m) = 0 -> bit_div_long dbg w num dv = Ok (q, r) ->
  forall j, (j < bit_len w num)%nat -> (val w num / 2 ^ Z.of_nat j) mod 2 ^ (Z.of_nat w * Z.of_nat m) <> 0 -> Z.testbit (val w q) (Z.of_nat j) = true.
Proof.
  intros Hw Hnum Hdv Hlen Hld H64 Hm HD E. unfold bit_div_long in E.
  rewrite (Nat.max_l (length num) (length dv)) in E by lia. rewrite bit_len_max, Nat.max_l in E by lia.
  pose proof (val_cap_bits w num Hnum) as HB.
  assert (0 < 2 ^ (Z.of_nat w * Z.of_nat m)) as WP by (apply Z.pow_pos_nonneg; lia).
  destruct (mod_facts (2 ^ (Z.of_nat w * Z.of_nat m)) (val w dv) (cap w (length num)) (cap w (length num - m))) as (M1 & M2 & M3); auto using cap_pos.
  { change (2 ^ (Z.of_nat w * Z.of_nat m)) with (cap w m). rewrite Z.mul_comm, <- cap_add. f_equal. lia. }
  destruct (low_walk dbg w num dv m Hw Hnum Hdv Hlen Hld H64 Hm (fun x => x mod 2 ^ (Z.of_nat w * Z.of_nat m)) M1 M2 M3 (fun x => low_digits w x m)
    (fun j Hj => digit_low w (val w dv) m j Hj HD) (bit_len w num) (zeros (length num)) (zeros (length num)) 0) as (q' & r' & F & H);
    rewrite ?length_zeros, ?val_zeros; auto using wf_zeros; try lia.
  - rewrite (div_pow_small _ _ (bit_len w num)) by auto. reflexivity.
  - fold (bit_len w num) in E. rewrite F in E. assert (q' = q) as <- by congruence. exact H.
Qed.

(** With eight or more fraction bits, [fract] of every nonzero number but those in the highest part of the range is 1 or more. *)
Theorem C131_fract_wrong_partial : forall dbg K N x, shiftable dbg K N -> is_u K x -> (8 <= N)%nat ->
  0 < val 8 x < 2 ^ (8 * Z.of_nat K - 1 - Z.of_nat N mod 8) ->
  exists f, fu_fract dbg N x = Ok f /\ is_u K f /\ (1 <= fixed_val N (val 8 f))%Q.
Proof.
  intros dbg K N x S U HN Hx. destruct (one_u dbg N K S) as (o & Eo & [Wo Lo] & Vo). destruct U as [Wx Lx].
  assert (0 < K)%nat as HK by (destruct S; lia). assert (Z.of_nat (8 * K) < 2 ^ 64) as H64 by (destruct S; tauto).
  assert (N < 8 * K)%nat as HNK by (destruct S; tauto).
  destruct (C16_congruence_partial dbg 8 x o ltac:(lia) Wx Wo ltac:(lia) ltac:(lia) ltac:(rewrite Lx; auto))
    as (q & r & E & Wq & Wr & Lq & Lr & V & _ & _ & _ & _ & E1 & E2). rewrite Lx in *.
  exists r. split; [|split; [split; auto|]].
  { unfold fu_fract, fu_rem, u_rem. rewrite Lx, Eo. cbn [bind]. rewrite ?Lx. destruct dbg; rewrite ?E1, ?E2; reflexivity. }
  pose proof (Z.pow_pos_nonneg 2 (Z.of_nat N) ltac:(lia) ltac:(lia)) as P.
  enough (2 ^ Z.of_nat N <= val 8 r) as G.
  { unfold fixed_val. apply Qle_shift_div_l; [change 0%Q with (inject_Z 0); rewrite <- Zlt_Qlt; lia|].
    rewrite Qmult_1_l, <- Zle_Qle. exact G. }
  destruct (Z.lt_ge_cases (val 8 r) (2 ^ Z.of_nat N)) as [L|]; auto. exfalso.
  set (p := Z.log2 (val 8 x)). pose proof (Z.log2_spec (val 8 x) ltac:(lia)) as [P1 P2]. fold p in P1, P2.
  assert (0 <= p) as P0 by apply Z.log2_nonneg.
  pose proof (Z.div_mod (Z.of_nat N) 8 ltac:(lia)) as DN. pose proof (Z.mod_pos_bound (Z.of_nat N) 8 ltac:(lia)) as BN.
  set (mz := Z.of_nat N / 8) in *. assert (1 <= mz) as M1 by lia.
  assert (p < 8 * Z.of_nat K - 1 - Z.of_nat N mod 8) as PB.
  { apply (Z.pow_lt_mono_r_iff 2); lia. }
  set (k := Z.max 0 (p - 8 * mz + 1)).
  assert (Z.testbit (val 8 q) k = true) as T.
  { clear V L E1 E2 Eo. replace k with (Z.of_nat (Z.to_nat k)) by lia. apply (low_div dbg 8 x o (Z.to_nat mz) q r); auto; try lia.
    - unfold bit_len. lia.
    - rewrite Vo. rewrite Z2Nat.id by lia. apply Z.mod_divide; [apply Z.pow_nonzero; lia|].
      exists (2 ^ (Z.of_nat N mod 8)). rewrite <- Z.pow_add_r by lia. f_equal. lia.
    - unfold bit_len. lia.
    - rewrite !Z2Nat.id by lia. assert (0 < 2 ^ k) by (apply Z.pow_pos_nonneg; lia).
      assert (0 < val 8 x / 2 ^ k) as D1.
      { apply Z.div_str_pos. split; [lia|]. apply Z.le_trans with (2 ^ p); [|lia]. apply Z.pow_le_mono_r; lia. }
      rewrite Z.mod_small; [lia|]. split; [lia|]. apply Z.div_lt_upper_bound; [lia|]. rewrite <- Z.pow_add_r by lia.
      apply Z.lt_le_trans with (2 ^ Z.succ p); [lia|]. apply Z.pow_le_mono_r; lia. }
  (* the quotient is right modulo 2^(8K - N) *)
  pose proof (val_nonneg 8 r Wr) as Rn. pose proof (val_nonneg 8 q Wq) as Qn. rewrite Vo in V.
  set (e := 8 * Z.of_nat K - Z.of_nat N).
  assert (cap 8 K = 2 ^ Z.of_nat N * 2 ^ e) as EC by (unfold cap, e; rewrite <- Z.pow_add_r by lia; f_equal; lia).
  assert (0 < 2 ^ e) as PE by (apply Z.pow_pos_nonneg; unfold e; lia).
  pose proof (Z.div_mod (val 8 q * 2 ^ Z.of_nat N + val 8 r) (cap 8 K) ltac:(nia)) as DV. rewrite V, EC in DV.
  set (h := (val 8 q * 2 ^ Z.of_nat N + val 8 r) / (2 ^ Z.of_nat N * 2 ^ e)) in *.
  assert (val 8 x / 2 ^ Z.of_nat N = val 8 q - 2 ^ e * h) as XD.
  { symmetry. apply (Z.div_unique_pos _ _ _ (val 8 r)); [lia|]. rewrite <- Z.mul_comm in *. lia. }
  assert (Z.testbit (val 8 q) k = Z.testbit (val 8 x / 2 ^ Z.of_nat N) k) as TT.
  { rewrite <- (Z.mod_pow2_bits_low (val 8 q) e k) by (unfold e; lia). rewrite <- (Z.mod_pow2_bits_low (val 8 x / _) e k) by (unfold e; lia).
    f_equal. rewrite XD. replace (val 8 q - 2 ^ e * h) with (val 8 q + (- h) * 2 ^ e) by ring. rewrite Z_mod_plus_full. reflexivity. }
  rewrite T in TT. clear V DV XD EC. rewrite Z.div_pow2_bits in TT by lia. rewrite Z.bits_above_log2 in TT; [discriminate|lia|fold p; lia].
Qed.
Print Assumptions C131_fract_wrong_partial.

(** Three bytes, nine fraction bits: fract of 1/512 and of 2.5 exceeds 1. *)
Example C131_fract_wrong_demo : shiftable true 3 9 /\ is_u 3 [1; 0; 0] /\ is_u 3 [0; 5; 0] /\ 8 * Z.of_nat 3 - 1 - Z.of_nat 9 mod 8 = 22 /\
  (exists f, fu_fract true 9 [1; 0; 0] = Ok f /\ (1 < fixed_val 9 (val 8 f))%Q) /\ fu_fract true 9 [0; 5; 0] = Ok [0; 7; 240].
Proof.
  split. { split; [lia|]. split; [discriminate|reflexivity]. }
  split; [split; [wf_tac|reflexivity]|]. split; [split; [wf_tac|reflexivity]|]. split; [reflexivity|]. split.
  - exists [1; 254; 255]. split; vm_compute; reflexivity.
  - vm_compute. reflexivity.
Qed.
