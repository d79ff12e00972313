(** C17, C40 continued (specification: DivSpec.v): what the element-wise long division returns for divisors of any number of limbs - each limb
    of the dividend is divided by the lowest limb of the divisor -, and when `/` of I<N> is wrong for divisors of more than one byte. *)
From Coq Require Import ZArith List Bool Lia.
From Verif Require Import Base Words Spec Arith BitSliceModel BitSliceProofs ElementModel
  BitwiseModel ElemAddSub ElemShift BitwiseProofs BitDivMod ElemDivMod ElemDivLow PropBits UModel UProofs IModel IProofs
  PropDiv DivSpec DivExact PropDivExact PropDivisors PropIDiv PropDivLeading.
From Verif Require Import Spec.
Import ListNotations.
Local Open Scope Z_scope.

(** Digit [m] of the quotient: the limb [x] of the dividend divided by the lowest limb of the divisor [d]; one less if that division leaves no
    remainder and the last subtraction is not made, because what is left of the partial dividend [r] comes before [d] in the order of the
    lowest differing digit. *)
Definition one_less (w : nat) (C d r x : Z) : Prop :=
  let d0 := d mod 2 ^ Z.of_nat w in
  0 < x /\ x mod d0 = 0 /\ lowest_first_lt w ((r - (x / d0 - 1) * d) mod C) d.
Definition limb_quotient (w : nat) (C d r x m : Z) : Prop :=
  let d0 := d mod 2 ^ Z.of_nat w in
  (one_less w C d r x /\ m = x / d0 - 1) \/ (~ one_less w C d r x /\ m = x / d0).

Lemma limb_quotient_bounds w C d r x m : 0 < d mod 2 ^ Z.of_nat w -> 0 <= x -> limb_quotient w C d r x m ->
  0 <= m <= x / (d mod 2 ^ Z.of_nat w) /\ (d mod 2 ^ Z.of_nat w < x -> 0 < m).
Proof.
  intros Hd Hx H. unfold limb_quotient, one_less in H. cbv zeta in H. set (d0 := d mod 2 ^ Z.of_nat w) in *. clearbody d0.
  pose proof (Z.div_pos x d0 Hx Hd) as P. pose proof (Z.div_mod x d0 ltac:(lia)) as D. pose proof (Z.mod_pos_bound x d0 Hd).
  destruct H as [[(X & M & _) ->]|[_ ->]]; [|split; [lia|]; intros G; nia].
  rewrite M in D. split; [|intros G]; nia.
Qed.

Lemma quotient_small x d0 m B : 0 < d0 -> 0 <= x < B -> 0 <= m <= x / d0 -> 0 <= m < B.
Proof. intros Hd Hx Hm. assert (x / d0 <= x) by (apply Z.div_le_upper_bound; nia). lia. Qed.

(** Keeps an equation out of sight of the arithmetic tactics. *)
Inductive kept (P : Prop) : Prop := Kept (p : P).
Local Ltac keep H := apply Kept in H.
Local Ltac show H := destruct H as [H].

Section Walk.
Variables (dbg : bool) (fuel w : nat) (num dv : list Z).
Hypotheses (Hw : (2 <= w)%nat) (Hnum : wf w num) (Hdv : wf w dv) (Hlen : (0 < length num)%nat) (Hld : (length dv <= length num)%nat)
  (H64 : Z.of_nat (bit_len w num) < 2 ^ 64) (Hpos : 0 < val w dv mod 2 ^ Z.of_nat w) (Hf : 2 ^ Z.of_nat w <= Z.of_nat fuel).
Let C := cap w (length num).
Let d := val w dv.
Let d0 := d mod 2 ^ Z.of_nat w.

Lemma low_zget : zget dv 0 = d0.
Proof. apply (zget_0_mod w dv Hdv). Qed.

Lemma while_digit one : wf w one -> length one = length num ->
  forall fl q r, wf w q -> wf w r -> length q = length num -> length r = length num -> zget r 0 / d0 <= Z.of_nat fl ->
  val w q + zget r 0 / d0 * val w one < C ->
  exists q' r' m, elem_div_while fl w dv one q r = Ok (q', r') /\
    wf w q' /\ wf w r' /\ length q' = length num /\ length r' = length num /\
    limb_quotient w C d (val w r) (zget r 0) m /\ val w q' = val w q + m * val w one /\ val w r' = (val w r - m * d) mod C.
Proof.
  intros Hone Lo. pose proof low_zget as Z0. clear Hf. assert (0 < d0) as D0 by exact Hpos. pose proof (cap_pos w (length num)) as CP. fold C in CP.
  assert (forall fl q r, wf w q -> wf w r -> length q = length num -> length r = length num -> is_ge (elem_cmp r dv) = false ->
    exists q' r' m, elem_div_while fl w dv one q r = Ok (q', r') /\
    wf w q' /\ wf w r' /\ length q' = length num /\ length r' = length num /\
    limb_quotient w C d (val w r) (zget r 0) m /\ val w q' = val w q + m * val w one /\ val w r' = (val w r - m * d) mod C) as Stop.
  { intros fl q r Hq Hr Lq Lr G. exists q, r, 0.
    split; [destruct fl; cbn [elem_div_while]; rewrite G; reflexivity|]. repeat (split; [assumption|]).
    pose proof (val_bound w r Hr) as Br. rewrite Lr in Br. fold C in Br.
    rewrite !Z.mul_0_l, Z.add_0_r, Z.sub_0_r, (Z.mod_small (val w r)) by lia. split; [|split; reflexivity].
    assert (elem_cmp r dv = Lt) as E by (destruct (elem_cmp r dv); cbn in G; congruence).
    pose proof (proj1 (cmp_digits w r dv Hr Hdv) E) as LF. apply elem_cmp_lt_iff in E. destruct E as (i & L1 & L2).
    pose proof (wf_zget w r 0 Hr) as B0. unfold limb_quotient. cbv zeta. fold d0. destruct i as [|i].
    - right. rewrite Z.div_small by lia. split; [|reflexivity]. intros (P & M & _). fold d0 in M. rewrite Z.mod_small in M by lia. lia.
    - specialize (L2 0%nat ltac:(lia)). left. unfold one_less. cbv zeta. fold d0. rewrite L2, Z0, Z.div_same, Z.mod_same by lia.
      change (1 - 1) with 0. rewrite Z.mul_0_l, Z.sub_0_r, Z.mod_small by lia. repeat split; auto; lia. }
  induction fl as [|fl IH]; intros q r Hq Hr Lq Lr Hfl Hc; destruct (is_ge (elem_cmp r dv)) eqn:G; auto;
    pose proof (cmp_ge_low w r dv Hr Hdv G) as L; rewrite Z0 in L.
  - pose proof (Z.div_le_lower_bound (zget r 0) d0 1 ltac:(lia) ltac:(lia)). cbn in Hfl. lia.
  - cbn [elem_div_while]. rewrite G.
    assert (zget r 0 / d0 = 1 + (zget r 0 - d0) / d0) as Ed.
    { replace (zget r 0) with ((zget r 0 - d0) + 1 * d0) at 1 by ring. rewrite Z.div_add by lia. ring. }
    assert (zget r 0 mod d0 = (zget r 0 - d0) mod d0) as Em.
    { replace (zget r 0) with ((zget r 0 - d0) + 1 * d0) at 1 by ring. apply Z_mod_plus_full. }
    pose proof (Z.div_pos (zget r 0 - d0) d0 ltac:(lia) ltac:(lia)) as P1. pose proof (val_nonneg w one Hone) as P2.
    destruct (elem_add_wrapping_small w q one ltac:(lia) Hq Hone ltac:(lia)) as (A1 & A2 & A3); [rewrite Lq; fold C; nia|].
    destruct (elem_sub_wrapping_mod w r dv ltac:(lia) Hr Hdv ltac:(lia)) as (S1 & S2 & S3). rewrite Lr in S3. fold C d in S3.
    pose proof (sub_low w r dv ltac:(lia) Hr Hdv ltac:(lia) ltac:(lia) ltac:(lia)) as S4. rewrite Z0 in S4.
    destruct (IH (elem_add_wrapping w q one) (elem_sub_wrapping w r dv) A2 S2) as (q' & r' & m & E & W1 & W2 & L1 & L2 & LQ & V1 & V2);
      try lia; rewrite ?S4; try lia.
    assert (forall k, ((val w r - d) mod C - k * d) mod C = (val w r - (k + 1) * d) mod C) as MC.
    { intros k. rewrite Zminus_mod_idemp_l. f_equal. ring. }
    exists q', r', (m + 1). split; [exact E|]. repeat (split; [assumption|]).
    split; [|split; [rewrite V1, A3; ring|rewrite V2, S3, MC; reflexivity]].
    rewrite S3, S4 in LQ. unfold limb_quotient, one_less in LQ |- *. cbv zeta in *. fold d0 in LQ |- *. rewrite MC in LQ.
    replace ((zget r 0 - d0) / d0 - 1 + 1) with (zget r 0 / d0 - 1) in LQ by lia. rewrite <- Em in LQ.
    destruct LQ as [[(X1 & X2 & X3) ->]|[X ->]].
    + left. split; [|lia]. repeat split; auto; lia.
    + right. split; [|lia]. intros (Y1 & Y2 & Y3). destruct (Z.eq_dec (zget r 0) d0) as [Eq|Ne].
      * rewrite Eq, Z.div_same in Y3 by lia. change (1 - 1) with 0 in Y3. rewrite Z.mul_0_l, Z.sub_0_r in Y3.
        pose proof (val_bound w r Hr) as Br. rewrite Lr in Br. fold C in Br. rewrite Z.mod_small in Y3 by lia.
        apply (cmp_digits w r dv Hr Hdv) in Y3. rewrite Y3 in G. discriminate.
      * apply X. repeat split; auto; lia.
Qed.

(** Digits from [k] upwards, and the remainder they leave. *)
Definition digits_from (k : nat) (ms : list Z) : Prop :=
  length ms = (length num - k)%nat /\ forall i, (k <= i < length num)%nat ->
    limb_quotient w C d ((val w num / cap w i - val w (skipn (S i - k) ms) * base w * d) mod C) (nth i num 0) (nth (i - k) ms 0).

Lemma digits_wf k ms : digits_from k ms -> wf w ms.
Proof.
  intros [L H]. apply Forall_forall. intros x Hx. destruct (In_nth ms x 0 Hx) as (i & Hi & <-).
  assert (k <= k + i < length num)%nat as Hk by (clear - L Hi; lia).
  specialize (H (k + i)%nat Hk). rewrite (Nat.add_comm k i), Nat.add_sub in H.
  pose proof (wf_zget w num (i + k) Hnum) as Bx.
  destruct (limb_quotient_bounds w C d _ _ _ Hpos (proj1 Bx) H) as [B _].
  exact (quotient_small _ _ _ _ Hpos Bx B).
Qed.

Lemma walk_digits : forall k q r one ms, (k <= length num)%nat ->
  length q = length num -> length r = length num -> length one = length num ->
  wf w q -> wf w r -> wf w one -> ((0 < k)%nat -> val w one = cap w (k - 1)) ->
  digits_from k ms -> val w q = cap w k * val w ms -> val w r = (val w num / cap w k - val w ms * d) mod C ->
  exists q' r' one' ms', foldR (elem_div_step dbg fuel w num dv) (rev (seq 0 k)) (q, r, one) = Ok (q', r', one') /\
    length q' = length num /\ length r' = length num /\ wf w q' /\ wf w r' /\
    digits_from 0 ms' /\ val w q' = val w ms' /\ val w r' = (val w num - val w ms' * d) mod C.
Proof.
  pose proof (base_pos w) as HB. pose proof (cap_pos w (length num)) as CP. fold C in CP. assert (0 < d0) as D0 by exact Hpos.
  pose proof while_digit as WD. pose proof digits_wf as DW. unfold digits_from in *. assert (C = cap w (length num)) as EC by reflexivity.
  assert (kept (base w <= Z.of_nat fuel)) as Hf' by (constructor; exact Hf). clear Hf Hpos. clearbody d0 C. clearbody d.
  induction k as [|k IH]; intros q r one ms Hk L1 L2 L3 W1 W2 W3 Hone DG V1 V2.
  - exists q, r, one, ms. cbn [seq rev foldR] in *. rewrite cap_0, Z.mul_1_l in V1. rewrite cap_0, Z.div_1_r in V2. auto 10.
  - rewrite rev_seq_S. cbn [foldR]. unfold elem_div_step at 1.
    keep V1. keep V2. specialize (Hone (Nat.lt_0_succ k)). rewrite Nat.sub_succ, Nat.sub_0_r in Hone. keep Hone. keep EC.
    assert (bit_len w r = bit_len w num) as Eb by (unfold bit_len; rewrite L2; auto).
    pose proof (DW (S k) ms DG) as Wms. destruct DG as [Lms DG]. assert (length ms + S k = length num)%nat as Lm by (clear - Lms Hk; lia). keep Lms. keep DG.
    assert ((2 <= length r)%nat \/ val w r = 0) as H2r.
    { destruct (Nat.le_gt_cases 2 (length r)); auto. right. assert (ms = []) as -> by (apply length_zero_iff_nil; clear - Lm L2 H; lia). show V2. rewrite V2.
      rewrite val_nil, Z.mul_0_l, Z.sub_0_r. assert (S k = length num) as -> by (clear - Lm; cbn [length] in Lm; lia). pose proof (val_bound w num Hnum).
      rewrite Z.div_small by auto. apply Z.mod_0_l. clear - CP; lia. }
    destruct (div_shift_limb dbg w r (zget num k) Hw W2 ltac:(lia) ltac:(lia) (wf_zget w num k Hnum) H2r) as (r1 & E1 & L & W & V). keep V. clear H2r.
    rewrite E1. cbn [bind]. rewrite get_in by lia. cbn [bind]. rewrite set_in by lia. cbn [bind].
    assert (length (upd r1 0 (zget num k)) = length num) as Lr by (rewrite length_upd; lia).
    assert (zget (upd r1 0 (zget num k)) 0 = zget num k) as Z0.
    { destruct r1 as [|y r1]; [cbn in L; lia|]. reflexivity. }
    show EC. show Hone.
    assert (C = cap w k * (base w * cap w (length num - S k))) as Ec.
    { rewrite EC, <- cap_S, <- cap_add. f_equal. lia. }
    pose proof (cap_pos w k) as HCk. pose proof (cap_pos w (length num - S k)) as HCr.
    pose proof (val_bound w ms Wms) as BQ. show Lms. rewrite Lms in BQ. keep Lms.
    pose proof (wf_zget w num k Hnum) as Bx.
    assert (0 <= zget num k / d0 <= zget num k) as Bq.
    { split; [apply Z.div_pos; lia|]. apply Z.div_le_upper_bound; nia. }
    destruct (WD one W3 L3 fuel q _ W1 W L1 Lr) as (q' & r' & m & E & X1 & X2 & X3 & X4 & LQ & Y1 & Y2).
    { rewrite Z0. show Hf'. apply Z.le_trans with (zget num k); [apply Bq|]. apply Z.lt_le_incl, Z.lt_le_trans with (base w); [apply Bx|exact Hf']. }
    { show V1. rewrite Z0, V1, Hone, Ec. clear V1. rewrite cap_S.
      set (Q := val w ms) in *. set (x := zget num k / d0) in *.
      assert (base w * (Q + 1) <= base w * cap w (length num - S k)) by (apply Z.mul_le_mono_nonneg_l; lia).
      assert (cap w k * (base w * Q + x) < cap w k * (base w * cap w (length num - S k))) by (apply Z.mul_lt_mono_pos_l; lia).
      lia. }
    rewrite Z0 in LQ. rewrite E. cbn [bind]. keep Y1. keep Y2. clear Ec BQ HCr Bq Bx.
    assert (w * length num = bit_len w num)%nat as Ebl by (unfold bit_len; lia).
    destruct (C12_shr_wrapping_partial dbg w one w ltac:(lia) W3) as (one' & E2 & L4 & W4 & V4);
      [rewrite L3; nia|rewrite L3, Ebl; auto|]. cbv zeta in V4. keep V4.
    assert (kept (val w (upd r1 0 (zget num k)) = (val w num / cap w k - val w ms * base w * d) mod C)) as Vr.
    { show V. show V2. constructor. rewrite V, L2, <- EC, V2. rewrite (div_cap_S w num k) by (auto; lia).
      rewrite Z.add_mod, Z.mul_mod_idemp_r, <- Z.add_mod by lia. f_equal. ring. }
    rewrite E2. cbn [bind]. apply (IH q' r' one' (m :: ms)); auto; try (clear - Hk L4 L3 Hlen; lia).
    + intros Hk0. show V4. rewrite V4, L3. clear V4. destruct (Nat.eq_dec (length num) 1) as [El|El]; [clear - El Hk Hk0; lia|].
      rewrite shift_by_limb by (clear - El Hlen Hw; lia).
      rewrite (proj2 (C12_kept_bits_zero w one w ltac:(lia) W3)).
      * rewrite Hone. destruct k; [lia|]. rewrite cap_S. change (2 ^ Z.of_nat w) with (base w).
        rewrite Z.mul_comm, Z.div_mul by lia. replace (S k - 1)%nat with k by lia. lia.
      * rewrite Nat.mod_same, Nat.sub_0_r by lia.
        apply (wf_zget w one (length one - 1 - w / w)); auto.
    + split; [cbn [length]; clear - Lm; lia|]. intros i Hi. destruct (Nat.eq_dec i k) as [->|Ne].
      * replace (S k - k)%nat with 1%nat by (clear; lia). replace (k - k)%nat with 0%nat by (clear; lia). cbn [skipn nth]. show Vr. rewrite <- Vr. exact LQ.
      * show DG. specialize (DG i ltac:(clear - Hi Ne; lia)). replace (S i - k)%nat with (S (S i - S k)) by (clear - Hi Ne; lia). replace (i - k)%nat with (S (i - S k)) by (clear - Hi Ne; lia).
        cbn [skipn nth]. exact DG.
    + show Y1. show V1. rewrite Y1, V1, Hone. rewrite val_cons, cap_S. ring.
    + show Y2. show Vr. rewrite Y2, Vr, Zminus_mod_idemp_l, val_cons. f_equal. ring.
Qed.
End Walk.

(** ** C17 *)

(** Divisors whose lowest limb is not zero (for others see C17_terminates_partial), with any number of limbs: each digit of the quotient is the
    limb of the dividend divided by the lowest limb of the divisor, or one less in the case described by [one_less]; the remainder is what makes
    the sum right modulo the width. *)
Theorem C17_digits_partial : forall dbg fuel w n d, (2 <= w)%nat -> wf w n -> wf w d ->
  (0 < length n)%nat -> (length d <= length n)%nat -> Z.of_nat (w * length n) < 2 ^ 64 ->
  val w d mod 2 ^ Z.of_nat w <> 0 -> 2 ^ Z.of_nat w <= Z.of_nat fuel ->
  let W := 2 ^ (Z.of_nat w * Z.of_nat (length n)) in
  exists q r ms, elem_div_long dbg fuel w n d = Ok (q, r) /\ canonical q /\ canonical r /\
    val w q = val w ms /\ val w r = (val w n - val w q * val w d) mod W /\ length ms = length n /\
    forall i, (i < length n)%nat ->
      limb_quotient w W (val w d) ((val w n / 2 ^ (Z.of_nat w * Z.of_nat i) - val w (skipn (S i) ms) * 2 ^ Z.of_nat w * val w d) mod W)
        (nth i n 0) (nth i ms 0).
Proof.
  intros dbg fuel w num dv Hw Hnum Hdv Hlen Hld H64 Hd Hf.
  assert (0 < val w dv mod 2 ^ Z.of_nat w) as Hpos by (pose proof (Z.mod_pos_bound (val w dv) (2 ^ Z.of_nat w) ltac:(apply Z.pow_pos_nonneg; lia)); lia).
  assert (Z.of_nat (bit_len w num) < 2 ^ 64) as H64' by (unfold bit_len; rewrite Nat.mul_comm; auto).
  unfold elem_div_long. replace (Nat.max (length num) (length dv)) with (length num) by lia.
  destruct (length num) as [|n] eqn:En; [lia|]. rewrite <- En in *.
  pose proof (val_bound w num Hnum) as HNb.
  destruct (walk_digits dbg fuel w num dv Hw Hnum Hdv Hlen Hld H64' Hpos Hf (length num)
              (zeros (length num)) (zeros (length num)) (upd (zeros (length num)) n 1) [])
    as (q & r & one & ms & E & L1 & L2 & W1 & W2 & DG & V1 & V2);
    rewrite ?length_upd, ?length_zeros; auto using wf_zeros.
  - apply wf_upd; [apply wf_zeros|]. pose proof (base_pos w).
    unfold base. change 1 with (2 ^ 0). split; [lia|]. apply Z.pow_lt_mono_r; lia.
  - intros _. rewrite val_upd by (rewrite length_zeros; lia). rewrite val_zeros, zget_zeros.
    replace (length num - 1)%nat with n by lia. lia.
  - split; [cbn; lia|]. intros i Hi. lia.
  - rewrite val_zeros, val_nil. lia.
  - rewrite val_zeros, val_nil, Z.div_small by lia. symmetry. apply Z.mod_0_l. pose proof (cap_pos w (length num)). lia.
  - rewrite E. cbn [bind].
    destruct (shrink_ok w q W1 ltac:(lia)) as (q' & Eq & A1 & A2 & A3).
    destruct (shrink_ok w r W2 ltac:(lia)) as (r' & Er & B1 & B2 & B3).
    rewrite Eq, Er. cbn [bind]. exists q', r', ms. destruct DG as [Lm DG].
    split; [reflexivity|]. split; [assumption|]. split; [assumption|]. split; [lia|]. split; [rewrite B3, V2, A3, V1; reflexivity|].
    split; [lia|]. intros i Hi. specialize (DG i ltac:(lia)). rewrite !Nat.sub_0_r in DG. exact DG.
Qed.
Print Assumptions C17_digits_partial.

(** 0x0309 / 0x0103: the limbs 9 and 3 divided by 3, the upper one less one; 0x0509 / 0x0107 = 4 is missed altogether. *)
Example C17_digits_demo : elem_div_long true 300 8 [9; 3] [3; 1] = Ok ([3], [0]) /\ 0x0309 / 0x0103 = 3 /\
  elem_div_long true 300 8 [6; 5] [7; 1] = Ok ([0], [6; 5]) /\ 0x0506 / 0x0107 = 4 /\
  elem_div_long true 300 8 [9; 9] [2; 1] = Ok ([4; 4], [1; 253]).
Proof. vm_compute. repeat split. Qed.

Lemma val_ge_digit w ms i : wf w ms -> (i < length ms)%nat -> nth i ms 0 * cap w i <= val w ms.
Proof.
  revert i. induction ms as [|m ms IH]; intros i W Hi; [cbn in Hi; lia|]. apply wf_cons in W. destruct W as [Wm W]. rewrite val_cons.
  pose proof (val_nonneg w ms W). pose proof (base_pos w). destruct i as [|i].
  - rewrite cap_0. cbn [nth]. nia.
  - cbn [nth]. rewrite cap_S. specialize (IH i W ltac:(cbn in Hi; lia)). nia.
Qed.

(** So the quotient by a divisor of [j + 1] or more limbs is wrong if one of the [j] highest limbs of the dividend exceeds the lowest limb of
    the divisor; and it is zero, right or wrong, if all limbs of the dividend are below that limb. *)
Theorem C17_wrong_partial : forall dbg fuel w n d, (2 <= w)%nat -> wf w n -> wf w d ->
  (0 < length n)%nat -> (length d <= length n)%nat -> Z.of_nat (w * length n) < 2 ^ 64 ->
  val w d mod 2 ^ Z.of_nat w <> 0 -> 2 ^ Z.of_nat w <= Z.of_nat fuel ->
  exists q r, elem_div_long dbg fuel w n d = Ok (q, r) /\
    (forall j i, (0 < j)%nat -> 2 ^ (Z.of_nat w * Z.of_nat j) <= val w d -> (length n <= i + j)%nat -> (i < length n)%nat ->
       val w d mod 2 ^ Z.of_nat w < nth i n 0 -> val w q <> val w n / val w d) /\
    ((forall i, (i < length n)%nat -> nth i n 0 < val w d mod 2 ^ Z.of_nat w) -> val w q = 0 /\ val w r = val w n).
Proof.
  intros dbg fuel w n d Hw Hn Hd Hlen Hld H64 H0 Hf.
  destruct (C17_digits_partial dbg fuel w n d Hw Hn Hd Hlen Hld H64 H0 Hf) as (q & r & ms & E & _ & _ & Vq & Vr & Lm & DG).
  exists q, r. split; [exact E|]. clear E Hf.
  assert (0 < 2 ^ Z.of_nat w) as BP by (apply Z.pow_pos_nonneg; lia). pose proof (Z.mod_pos_bound (val w d) _ BP) as MB.
  assert (0 < val w d mod 2 ^ Z.of_nat w) as Hpos by (clear - MB H0; lia).
  assert (forall i, (i < length n)%nat -> 0 <= nth i n 0 < 2 ^ Z.of_nat w) as Bn by (intros i _; exact (wf_zget w n i Hn)).
  assert (wf w ms) as Wm.
  { apply Forall_forall. intros x Hx. destruct (In_nth ms x 0 Hx) as (i & Hi & <-). rewrite Lm in Hi. specialize (DG i Hi).
    destruct (limb_quotient_bounds _ _ _ _ _ _ Hpos (proj1 (Bn i Hi)) DG) as [B _]. exact (quotient_small _ _ _ _ Hpos (Bn i Hi) B). }
  split.
  - intros j i Hj Hdj Hij Hi Hx Q. specialize (DG i Hi). destruct (limb_quotient_bounds _ _ _ _ _ _ Hpos (proj1 (Bn i Hi)) DG) as [_ P]. specialize (P Hx).
    pose proof (val_ge_digit w ms i Wm ltac:(clear - Lm Hi; lia)) as G. rewrite <- Vq, Q in G.
    pose proof (val_bound w n Hn) as VB. pose proof (cap_pos w i) as CP. clear DG Vr Vq Q MB H64.
    assert (cap w i <= val w n / val w d) as G' by (clear - G P CP; nia).
    assert (cap w j <= val w d) as Hdj' by exact Hdj. pose proof (cap_pos w j) as CJ.
    assert (cap w (length n) <= cap w i * cap w j) as GC.
    { rewrite <- cap_add. unfold cap. apply Z.pow_le_mono_r; [clear; lia|]. clear - Hij. nia. }
    assert (val w n / val w d * val w d <= val w n) as GD by (rewrite Z.mul_comm; apply Z.mul_div_le; clear - Hdj' CJ; lia).
    clear - G' GC GD VB Hdj' CJ CP. assert (cap w i * cap w j <= val w n / val w d * val w d) by (apply Z.mul_le_mono_nonneg; lia). lia.
  - intros Hs. assert (val w ms = 0) as M0.
    { assert (ms = repeat 0 (length ms)) as ->.
      { apply (nth_ext _ _ 0 0); [rewrite repeat_length; reflexivity|]. intros i Hi. rewrite nth_repeat. rewrite Lm in Hi. specialize (DG i Hi).
        destruct (limb_quotient_bounds _ _ _ _ _ _ Hpos (proj1 (Bn i Hi)) DG) as [B _]. specialize (Hs i Hi). rewrite Z.div_small in B; [clear - B; lia|].
        split; [apply (Bn i Hi)|exact Hs]. }
      apply val_zeros. }
    rewrite M0 in Vq. split; [exact Vq|]. rewrite Vr, Vq, Z.mul_0_l, Z.sub_0_r. apply Z.mod_small. exact (val_bound w n Hn).
Qed.
Print Assumptions C17_wrong_partial.

Example C17_wrong_demo : elem_div_long true 300 8 [0; 0; 4; 0] [3; 2; 1] = Ok ([0; 0; 1], [0; 0; 1; 254]) /\ 0x40000 / 0x10203 = 3.
Proof. vm_compute. repeat split. Qed.

(** ** C40 *)

(** Non-negative I<N> and divisors of more than one byte. *)
Theorem C40_leading_partial : forall dbg a b, wf 8 a -> wf 8 b -> length b = length a ->
  (0 < length a)%nat -> Z.of_nat (8 * length a) < 2 ^ 64 -> 0 <= sval a -> 256 <= sval b ->
  exists q, i_div dbg a b = Ok q /\
    (0 < sval a -> sval b mod 256 < leading 8 (sval a) -> sval q <> Z.quot (sval a) (sval b)) /\
    (0 < sval a -> sval b mod 256 = 0 -> sval q <> Z.quot (sval a) (sval b)) /\
    (sval a < 256 -> (sval q = 0 <-> sval a <= sval b mod 256)).
Proof.
  intros dbg a b Wa Wb Hl Hp H64 Ha Hb.
  destruct (C40_exact_partial dbg a b Wa Wb Hl Hp H64 Ha ltac:(lia)) as (q & r & E & _ & X & _).
  exists q. split; [exact E|].
  assert (0 < sval a -> sval b mod 256 < leading 8 (sval a) -> sval q <> Z.quot (sval a) (sval b)) as X1.
  { intros Np HL Q. apply X in Q. revert Q. apply leading_disagrees; auto; [lia|].
    unfold dropped. assert (Z.log2 (sval a) < Z.of_nat (8 * length a)); [|lia].
    apply Z.log2_lt_pow2; [lia|]. rewrite (sval_nonneg a Wa Ha). pose proof (val_bound 8 a Wa) as VB. unfold cap in VB. rewrite Nat2Z.inj_mul. exact (proj2 VB). }
  split; [exact X1|]. split.
  - intros Np Z0. apply X1; auto. rewrite Z0. pose proof (leading_bounds 8 ltac:(lia) (sval a) Np). lia.
  - intros Ns. change 256 with (2 ^ Z.of_nat 8) in *. rewrite <- (small_agrees 8 ltac:(lia) (sval a) (sval b) (8 * length a)) by lia.
    rewrite <- X, Z.quot_small by lia. reflexivity.
Qed.
Print Assumptions C40_leading_partial.

(** 5 / 256 and 1000 / 456 in two bytes. *)
Example C40_leading_demo : i_div true [5; 0] [0; 1] = Ok [7; 0] /\ i_div true [232; 3] [200; 1] = Ok [5; 0] /\ 1000 / 456 = 2.
Proof. vm_compute. repeat split. Qed.
