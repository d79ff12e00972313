(** C16, C29, C46 continued: for which divisors the bitwise long division is right whatever the dividend (specification: DivSpec.v).
    With at least two limbs these are exactly the divisors up to half of the base of the limbs, and the greatest number of the width. *)
From Coq Require Import ZArith List Bool Lia.
From Verif Require Import Base Words Spec Arith BitSliceModel BitSliceProofs ElementModel
  BitwiseModel BitwiseProofs PropBits UModel UProofs
  InternModel BigIntModel BigIntSpec BigIntProofs BigIntRun PropBigInt PropBigInt3 PropDiv DivSpec DivExact PropDivExact.
Import ListNotations.
Local Open Scope Z_scope.

Section pure.
Context (w : nat) (Hw : (2 <= w)%nat).
Local Notation B := (2 ^ Z.of_nat w).

Local Lemma B_half : B = 2 * 2 ^ (Z.of_nat w - 1).
Proof. rewrite <- Z.pow_succ_r by lia. f_equal. lia. Qed.
Local Lemma half_pos : 2 <= 2 ^ (Z.of_nat w - 1).
Proof. change 2 with (2 ^ 1) at 1. apply Z.pow_le_mono_r; lia. Qed.

Local Lemma digit_0 x : digit w x 0 = x mod B.
Proof. unfold digit. rewrite Z.mul_0_r. change (2 ^ 0) with 1. rewrite Z.div_1_r. reflexivity. Qed.

Local Lemma decided x y : digit w x 0 <> digit w y 0 -> (lowest_first_lt w x y <-> digit w x 0 < digit w y 0).
Proof.
  intros N. split.
  - intros (i & H1 & H2). destruct i; auto. exfalso. apply N, H2. lia.
  - intros H. exists 0%nat. split; auto. lia.
Qed.

(** The partial dividend at bit [k] of [m * 2 ^ k] is [m] when [m] is less than about twice the divisor. *)
Local Lemma partial_at m d k : 0 <= m -> m / 2 < d -> partial_dividend (m * 2 ^ Z.of_nat k) d k = m.
Proof.
  intros Hm Hd. unfold partial_dividend. pose proof (Z.pow_pos_nonneg 2 (Z.of_nat k) ltac:(lia) ltac:(lia)).
  rewrite Z.div_mul by lia. rewrite Z.pow_add_r by lia. change (2 ^ 1) with 2.
  rewrite <- Z.div_div by lia. rewrite Z.div_mul by lia.
  pose proof (Z.div_pos m 2 Hm ltac:(lia)). rewrite (Z.mod_small (m / 2) d) by lia.
  pose proof (Z.div_mod m 2 ltac:(lia)). lia.
Qed.

(** A step at which the lowest limbs decide wrongly. *)
Local Lemma disagreeing m d k bits : (k < bits)%nat -> 0 <= m -> m / 2 < d ->
  (m mod B < d mod B /\ d <= m) \/ (d mod B < m mod B /\ m < d) -> ~ agreeing w bits (m * 2 ^ Z.of_nat k) d.
Proof.
  intros Hk Hm Hd H A. specialize (A k Hk). rewrite partial_at in A by auto.
  rewrite decided, !digit_0 in A by (rewrite !digit_0; lia). lia.
Qed.

(** Every other divisor fails for some partial dividend; [C] is a bound on it. *)
Local Lemma bad_partial d C : 0 < d -> B < 2 * d -> d + 1 < C -> B < C ->
  exists m, 0 <= m < C /\ m / 2 < d /\ ((m mod B < d mod B /\ d <= m) \/ (d mod B < m mod B /\ m < d)).
Proof.
  intros Hd H2 HC HB. pose proof B_half as BH. pose proof half_pos as HP.
  destruct (Z.lt_ge_cases d B) as [L|G].
  - exists B. rewrite Z.mod_same by lia. rewrite (Z.mod_small d) by lia. split; [lia|]. split; [|lia].
    rewrite BH, Z.mul_comm, Z.div_mul by lia. lia.
  - pose proof (Z.mod_pos_bound d B ltac:(lia)) as M. destruct (Z.eq_dec (d mod B) (B - 1)) as [E|N].
    + exists (d + 1). split; [lia|]. split; [apply Z.div_lt_upper_bound; lia|]. left. split; [|lia]. rewrite E.
      rewrite Z.add_mod, E, (Z.mod_small 1) by lia. replace (B - 1 + 1) with B by lia. rewrite Z.mod_same by lia. lia.
    + exists (d mod B + 1). pose proof (Z.mod_le d B ltac:(lia) ltac:(lia)). split; [lia|]. split; [apply Z.div_lt_upper_bound; lia|].
      right. rewrite (Z.mod_small (d mod B + 1)) by lia. lia.
Qed.

(** The greatest number of the width: all its limbs are maximal, so the two orders agree below it. *)
Local Lemma digits_equal : forall N x y, 0 <= x < 2 ^ (Z.of_nat w * Z.of_nat N) -> 0 <= y < 2 ^ (Z.of_nat w * Z.of_nat N) ->
  (forall i, (i < N)%nat -> digit w x i = digit w y i) -> x = y.
Proof.
  induction N as [|N IH]; intros x y Hx Hy H.
  - rewrite Z.mul_0_r in *. change (2 ^ 0) with 1 in *. lia.
  - replace (Z.of_nat w * Z.of_nat (S N)) with (Z.of_nat w + Z.of_nat w * Z.of_nat N) in * by lia.
    rewrite Z.pow_add_r in * by lia. pose proof (Z.pow_pos_nonneg 2 (Z.of_nat w) ltac:(lia) ltac:(lia)) as HB.
    assert (x / B = y / B) as E.
    { apply IH.
      - split; [apply Z.div_pos; lia|apply Z.div_lt_upper_bound; lia].
      - split; [apply Z.div_pos; lia|apply Z.div_lt_upper_bound; lia].
      - intros i Hi. specialize (H (S i) ltac:(lia)). unfold digit in *. rewrite !Z.div_div by (try apply Z.pow_pos_nonneg; lia).
        rewrite <- Z.pow_add_r by lia. replace (Z.of_nat w + Z.of_nat w * Z.of_nat i) with (Z.of_nat w * Z.of_nat (S i)) by lia. exact H. }
    specialize (H 0%nat ltac:(lia)). rewrite !digit_0 in H.
    rewrite (Z.div_mod x B), (Z.div_mod y B) by lia. congruence.
Qed.

Local Lemma first_difference x y : forall N, (forall i, (i < N)%nat -> digit w x i = digit w y i) \/
  exists i, (i < N)%nat /\ digit w x i <> digit w y i /\ forall j, (j < i)%nat -> digit w x j = digit w y j.
Proof.
  induction N as [|N [A|(i & Hi & H)]]; [left; lia| |].
  - destruct (Z.eq_dec (digit w x N) (digit w y N)) as [E|E].
    + left. intros i Hi. destruct (Nat.eq_dec i N) as [->|]; [auto|apply A; lia].
    + right. exists N. auto.
  - right. exists i. split; [lia|auto].
Qed.

Local Lemma greatest_agrees N n : let d := 2 ^ (Z.of_nat w * Z.of_nat N) - 1 in
  0 < d -> 0 <= n <= d -> agreeing w (w * N) n d.
Proof.
  intros d Hd Hn k Hk. set (t := partial_dividend n d k).
  pose proof (Z.pow_pos_nonneg 2 (Z.of_nat k) ltac:(lia) ltac:(lia)) as HK.
  assert (0 <= t <= d) as Ht.
  { unfold t, partial_dividend. rewrite Z.pow_add_r by lia. change (2 ^ 1) with 2. rewrite <- Z.div_div by lia.
    assert (0 <= n / 2 ^ Z.of_nat k <= n) as M by (split; [apply Z.div_pos; lia|apply Z.div_le_upper_bound; nia]).
    set (m := n / 2 ^ Z.of_nat k) in *. pose proof (Z.div_mod m 2 ltac:(lia)). pose proof (Z.mod_pos_bound m 2 ltac:(lia)).
    pose proof (Z.mod_le (m / 2) d ltac:(lia) Hd). pose proof (Z.mod_pos_bound (m / 2) d Hd). lia. }
  assert (forall i, (i < N)%nat -> digit w d i = B - 1) as D.
  { intros i Hi. unfold digit, d.
    replace (Z.of_nat w * Z.of_nat N) with (Z.of_nat w * Z.of_nat i + (Z.of_nat w + Z.of_nat w * Z.of_nat (N - i - 1))) by nia.
    rewrite !Z.pow_add_r by nia.
    pose proof (Z.pow_pos_nonneg 2 (Z.of_nat w * Z.of_nat i) ltac:(lia) ltac:(nia)) as P1.
    pose proof (Z.pow_pos_nonneg 2 (Z.of_nat w) ltac:(lia) ltac:(lia)) as P2.
    pose proof (Z.pow_pos_nonneg 2 (Z.of_nat w * Z.of_nat (N - i - 1)) ltac:(lia) ltac:(nia)) as P3.
    set (p := 2 ^ (Z.of_nat w * Z.of_nat i)) in *. set (r := 2 ^ (Z.of_nat w * Z.of_nat (N - i - 1))) in *.
    rewrite <- (Z.div_unique_pos (p * (B * r) - 1) p (B * r - 1) (p - 1)) by (try ring; lia).
    rewrite <- (Z.mod_unique_pos (B * r - 1) B (r - 1) (B - 1)) by (try ring; lia). reflexivity. }
  assert (forall x i, 0 <= digit w x i < B) as DB by (intros x i; apply Z.mod_pos_bound, Z.pow_pos_nonneg; lia).
  split.
  - intros (i & H1 & _). destruct (Z.eq_dec t d) as [E|]; [|lia]. rewrite E in H1. lia.
  - intros L. destruct (first_difference t d N) as [A|(i & Hi & H1 & H2)].
    + assert (t = d) by (apply (digits_equal N); auto; lia). lia.
    + exists i. split; auto. rewrite (D i Hi) in *. specialize (DB t i). lia.
Qed.

End pure.

(** Every number of the width has a slice. *)
Local Lemma limbs_exist w : forall len v, 0 <= v < cap w len -> exists l, wf w l /\ length l = len /\ val w l = v.
Proof.
  induction len as [|len IH]; intros v Hv.
  - exists []. rewrite cap_0 in Hv. split; [constructor|]. split; [reflexivity|]. cbn. lia.
  - rewrite cap_S in Hv. pose proof (base_pos w) as HB.
    destruct (IH (v / base w)) as (l & Wl & Ll & Vl); [split; [apply Z.div_pos; lia|apply Z.div_lt_upper_bound; lia]|].
    exists (v mod base w :: l). pose proof (Z.mod_pos_bound v (base w) HB). split; [constructor; auto|]. split; [cbn; lia|].
    rewrite val_cons, Vl. pose proof (Z.div_mod v (base w) ltac:(lia)). lia.
Qed.

(** ** C16 *)

(** At least two limbs: which divisors are right for every dividend of the width. *)
Theorem C16_divisors_partial : forall dbg w len d, (2 <= w)%nat -> (2 <= len)%nat -> Z.of_nat (w * len) < 2 ^ 64 ->
  wf w d -> (length d <= len)%nat -> 0 < val w d ->
  ((forall n, wf w n -> length n = len -> exists q r, bit_div_long dbg w n d = Ok (q, r) /\
      val w q = val w n / val w d /\ val w r = val w n mod val w d) <->
   2 * val w d <= 2 ^ Z.of_nat w \/ val w d = 2 ^ (Z.of_nat w * Z.of_nat len) - 1).
Proof.
  intros dbg w len d Hw Hlen H64 Hd Hld HD.
  assert (forall l, wf w l -> length l = len -> 0 <= val w l < 2 ^ (Z.of_nat w * Z.of_nat len)) as V.
  { intros l Wl Ll. pose proof (val_bound w l Wl) as Bl. rewrite Ll, cap_bits in Bl.
    replace (Z.of_nat w * Z.of_nat len) with (Z.of_nat (len * w)) by lia. exact Bl. }
  assert (val w d < 2 ^ (Z.of_nat w * Z.of_nat len)) as Vd.
  { pose proof (val_bound w d Hd) as Bd. rewrite cap_bits in Bd. apply (Z.lt_le_trans _ _ _ (proj2 Bd)). apply Z.pow_le_mono_r; nia. }
  assert (2 ^ Z.of_nat w < 2 ^ (Z.of_nat w * Z.of_nat len)) as BC by (apply Z.pow_lt_mono_r; nia).
  split.
  - intros H. destruct (Z.le_gt_cases (2 * val w d) (2 ^ Z.of_nat w)) as [|G]; [left; auto|right].
    destruct (Z.eq_dec (val w d) (2 ^ (Z.of_nat w * Z.of_nat len) - 1)) as [|N]; auto. exfalso.
    destruct (bad_partial w Hw (val w d) (2 ^ (Z.of_nat w * Z.of_nat len)) HD) as (m & Hm & H1 & H2); [lia..|].
    assert (exists n, wf w n /\ length n = len /\ val w n = m) as (n & Wn & Ln & Vn).
    { apply limbs_exist. replace (Z.of_nat w * Z.of_nat len) with (Z.of_nat (len * w)) in Hm by lia. rewrite <- cap_bits in Hm. exact Hm. }
    destruct (H n Wn Ln) as (q & r & E & Q & _).
    pose proof (bit_div_exact dbg w n d q r Hw Wn Hd ltac:(lia) ltac:(lia)
      ltac:(unfold bit_len; rewrite Ln, Nat.mul_comm; exact H64) HD E) as X.
    apply X in Q. rewrite Vn, Ln in Q. replace m with (m * 2 ^ Z.of_nat 0) in Q by (change (2 ^ Z.of_nat 0) with 1; lia).
    revert Q. apply disagreeing; auto; lia.
  - intros [S|G] n Wn Ln.
    + destruct (C16_bitwise_div_partial dbg w n d) as (q & r & E & W1 & W2 & V1 & V2); auto; try lia.
      exists q, r. split; auto.
      split; [apply (Z.div_unique_pos _ _ _ (val w r)); lia|apply (Z.mod_unique_pos _ _ (val w q)); lia].
    + destruct (C16_exact_partial dbg w n d) as (q & r & E & _ & _ & X & Y); auto; try lia.
      assert (val w q = val w n / val w d) as Q; [|exists q, r; auto].
      apply X. rewrite G, Ln. apply greatest_agrees; auto; [lia|]. specialize (V n Wn Ln). lia.
Qed.
Print Assumptions C16_divisors_partial.

(** Bytes: dividing by 128 is always right, dividing by 129 is not; neither is dividing by 256, but dividing by 65535 in two bytes is. *)
Example C16_divisors_demo : 2 * val 8 [128] <= 2 ^ Z.of_nat 8 /\ bit_div_long true 8 [255; 255] [128] = Ok ([255; 1], [127; 0]) /\
  bit_div_long true 8 [0; 1] [129] = Ok ([0; 0], [0; 1]) /\ bit_div_long true 8 [1; 0] [0; 1] = Ok ([1; 0], [1; 255]) /\
  val 8 [255; 255] = 2 ^ (Z.of_nat 8 * Z.of_nat 2) - 1 /\ bit_div_long true 8 [254; 255] [255; 255] = Ok ([0; 0], [254; 255]).
Proof. vm_compute. repeat split; discriminate. Qed.

(** ** C29 *)

(** [U<N>] with at least two bytes: division by [b] is right for all dividends exactly for 1..128 and for [MAX]. *)
Theorem C29_divisors_partial : forall dbg b, wf 8 b -> (2 <= length b)%nat -> Z.of_nat (8 * length b) < 2 ^ 64 -> 0 < val 8 b ->
  ((forall a, wf 8 a -> length a = length b -> exists q, u_div dbg a b = Ok q /\ val 8 q = val 8 a / val 8 b) <->
   val 8 b <= 128 \/ val 8 b = 256 ^ Z.of_nat (length b) - 1) /\
  (val 8 b <= 128 \/ val 8 b = 256 ^ Z.of_nat (length b) - 1 ->
   forall a, wf 8 a -> length a = length b -> exists r, u_rem dbg a b = Ok r /\ val 8 r = val 8 a mod val 8 b).
Proof.
  intros dbg b Wb Hl H64 Hb.
  pose proof (C16_divisors_partial dbg 8 (length b) b ltac:(lia) Hl H64 Wb (le_n _) Hb) as X.
  assert (2 ^ (Z.of_nat 8 * Z.of_nat (length b)) = 256 ^ Z.of_nat (length b)) as E by (change 256 with (2 ^ 8); rewrite <- Z.pow_mul_r by lia; reflexivity).
  rewrite E in X. change (2 ^ Z.of_nat 8) with (2 * 128) in X.
  assert (2 * val 8 b <= 2 * 128 <-> val 8 b <= 128) as E2 by lia. rewrite E2 in X.
  assert (forall a, wf 8 a -> length a = length b -> exists q r, bit_div_long dbg 8 a b = Ok (q, r) /\ u_div dbg a b = Ok q /\ u_rem dbg a b = Ok r /\
            (val 8 q = val 8 a / val 8 b -> val 8 r = val 8 a mod val 8 b)) as Y.
  { intros a Wa La. destruct (C16_exact_partial dbg 8 a b) as (q & r & E0 & E1 & E3 & _ & H2); auto; try lia.
    exists q, r. split; auto. unfold u_div, u_rem. unfold bit_div_checked, bit_div_wrapping, bit_rem_checked, bit_rem_wrapping. rewrite E1, E3.
    split; [destruct dbg; reflexivity|]. split; [destruct dbg; reflexivity|]. auto. }
  split.
  - rewrite <- X. split; intros H a Wa La; destruct (Y a Wa La) as (q & r & E0 & E1 & E3 & H2).
    + destruct (H a Wa La) as (q' & F & Q). assert (q' = q) as -> by congruence. exists q, r. auto.
    + destruct (H a Wa La) as (q' & r' & F & Q & _). assert (q' = q) as -> by congruence. exists q. auto.
  - intros H a Wa La. destruct (Y a Wa La) as (q & r & E0 & E1 & E3 & H2). exists r. split; auto.
    apply X with (n := a) in H; auto. destruct H as (q' & r' & F & Q & R). assert (r' = r) as -> by congruence. auto.
Qed.
Print Assumptions C29_divisors_partial.

Example C29_divisors_demo : u_div true [0; 1] [129; 0] = Ok [0; 0] /\ u_div true [255; 255] [128; 0] = Ok [255; 1] /\
  u_div true [255; 255] [255; 255] = Ok [1; 0] /\ u_div true [255; 0] [254; 255] = Ok [1; 0].
Proof. vm_compute. repeat split. Qed.

(** ** C46 *)

(** Every divisor beyond 2^63 has a dividend whose quotient is wrong (up to 2^63 there is none: C46_div_rem_partial). *)
Theorem C46_divisors_partial : forall y, 2 ^ 63 < Z.abs y -> Z.log2 (Z.abs y) < 2 ^ 64 - 128 ->
  exists x, addressable x /\ forall dbg P st hs a b,
    consistent P st hs -> room P hs 0 -> is_int st hs a x -> is_int st hs b y ->
    exists q, yields P hs (bi_div dbg a b) st q /\ q <> Z.quot x y.
Proof.
  intros y Hy Ha.
  assert (exists m k, 0 <= m /\ m / 2 < Z.abs y /\
    ((m mod 2 ^ Z.of_nat 64 < Z.abs y mod 2 ^ Z.of_nat 64 /\ Z.abs y <= m) \/ (Z.abs y mod 2 ^ Z.of_nat 64 < m mod 2 ^ Z.of_nat 64 /\ m < Z.abs y)) /\
    m * 2 ^ Z.of_nat k <> 0 /\
    Z.log2 (Z.abs y) / 64 <= Z.log2 (m * 2 ^ Z.of_nat k) / 64 /\ Z.log2 (m * 2 ^ Z.of_nat k) < 2 ^ 64 - 64) as (m & k & Hm & H1 & H2 & N0 & L1 & L2).
  { destruct (bad_partial 64 ltac:(lia) (Z.abs y) (2 * Z.abs y + 2)) as (m & Hm & H1 & H2); [lia| | |lia|].
    { change (2 ^ Z.of_nat 64) with (2 * 2 ^ 63). lia. }
    { change (2 ^ Z.of_nat 64) with (2 * 2 ^ 63). lia. }
    assert (0 < m) as Mp by (destruct (Z.eq_dec m 0) as [->|]; [rewrite Z.mod_0_l in H2 by discriminate; pose proof (Z.mod_pos_bound (Z.abs y) (2 ^ Z.of_nat 64) ltac:(lia)); lia|lia]).
    exists m, (Z.to_nat (Z.log2 (Z.abs y) - Z.log2 m)). set (k := Z.to_nat _).
    pose proof (Z.pow_pos_nonneg 2 (Z.of_nat k) ltac:(lia) ltac:(lia)) as HK.
    assert (Z.log2 (m * 2 ^ Z.of_nat k) = Z.max (Z.log2 m) (Z.log2 (Z.abs y))) as E by (rewrite Z.log2_mul_pow2 by lia; unfold k; lia).
    assert (Z.log2 m <= Z.log2 (Z.abs y) + 2) as M2.
    { apply Z.le_trans with (Z.log2 (Z.abs y * 2 ^ 2)); [apply Z.log2_le_mono; clear - Hm Hy; lia|rewrite Z.log2_mul_pow2; lia]. }
    split; [lia|]. split; [auto|]. split; [auto|]. split; [nia|]. rewrite E. split; [apply Z.div_le_mono; lia|lia]. }
  pose proof (Z.pow_pos_nonneg 2 (Z.of_nat k) ltac:(lia) ltac:(lia)) as HK.
  assert (0 <= m * 2 ^ Z.of_nat k) as Hx by (clear - Hm HK; nia).
  exists (m * 2 ^ Z.of_nat k). unfold addressable. rewrite (Z.abs_eq _ Hx). split; [exact L2|].
  intros dbg P st hs a b Hc Hr Ia Ib.
  destruct (C46_exact_partial dbg P st hs a b (m * 2 ^ Z.of_nat k) y Hc Hr Ia Ib) as (q & r & Y & _ & X & _).
  { unfold addressable. rewrite (Z.abs_eq _ Hx). exact L2. }
  { rewrite (Z.abs_eq _ Hx). exact L1. }
  { clear - Hy. intros ->. cbn in Hy. lia. }
  exists q. split; [exact Y|]. rewrite X, (Z.abs_eq _ Hx). apply disagreeing; auto; [lia|].
  assert (0 < m) as Mp by (clear - Hm N0; nia).
  assert (Z.of_nat k <= Z.log2 (m * 2 ^ Z.of_nat k)) as KL.
  { rewrite Z.log2_mul_pow2 by lia. pose proof (Z.log2_nonneg m). lia. }
  clear - KL. set (l := Z.log2 _) in *. pose proof (Z.div_mod l 64 ltac:(lia)). pose proof (Z.mod_pos_bound l 64 ltac:(lia)). lia.
Qed.
Print Assumptions C46_divisors_partial.

(** 6 * 2^64 divided by 2^64 + 5: the partial dividend 6 is taken for more than 2^64 + 5. *)
Example C46_divisors_demo : 2 ^ 63 < Z.abs (2 ^ 64 + 5) /\ exists e st p q,
  run false [From U128 (6 * 2 ^ 64); From U128 (2 ^ 64 + 5); RefRef ODiv 0 1] [] interner_new 0 = Ok (e, st, p) /\
  nth_error e 2 = Some (Some q) /\ denotes st q (2 ^ 64 + 3689348814741910323) /\ Z.quot (6 * 2 ^ 64) (2 ^ 64 + 5) = 5.
Proof. split; [reflexivity|]. do 4 eexists. split; [vm_compute; reflexivity|]. split; [reflexivity|]. split; [|vm_compute; reflexivity]. unfold denotes. cbn. vm_compute. eauto. Qed.
