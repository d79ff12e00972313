(** C16, C17, C29, C40, C46 continued: what the bitwise long division does for every dividend and
    every divisor with no more limbs, zero and multi-limb divisors included. It never panics,
    `/` and `%` belong together, and [quotient * divisor + remainder] is the dividend modulo the
    width; what is lost is only the range of the remainder. *)
From Coq Require Import ZArith List Bool Lia.
From Verif Require Import Base Words Spec TextSpec Arith BitSliceModel BitSliceProofs ElementModel
  BitwiseModel BitwiseProofs BitDivMod PropBits ElemDivMod ElemDivLow UModel UProofs IModel IProofs
  InternModel BigIntModel BigIntSpec BigIntProofs BigIntOps BigIntConv BigIntText BigIntMore BigIntRun BigIntHist PropBigInt
  BigIntOrder PropBigInt3.
Import ListNotations.
Local Open Scope Z_scope.

(** ** C16 *)

Theorem C16_congruence_partial : forall dbg w n d, (2 <= w)%nat -> wf w n -> wf w d ->
  (0 < length n)%nat -> (length d <= length n)%nat -> Z.of_nat (w * length n) < 2 ^ 64 ->
  exists q r, bit_div_long dbg w n d = Ok (q, r) /\
    wf w q /\ wf w r /\ length q = length n /\ length r = length n /\
    (val w q * val w d + val w r) mod cap w (length n) = val w n /\
    bit_div_overflowing dbg w n d (zeros (length n)) = Ok (q, r, false) /\
    bit_div_checked dbg w n d (zeros (length n)) = Ok (Some q) /\
    bit_div_wrapping dbg w n d (zeros (length n)) = Ok q /\
    bit_rem_overflowing dbg w n d (zeros (length n)) = Ok (r, false) /\
    bit_rem_checked dbg w n d (zeros (length n)) = Ok (Some r) /\
    bit_rem_wrapping dbg w n d (zeros (length n)) = Ok r.
Proof.
  intros dbg w n d Hw Hn Hd Hlen Hld H64.
  destruct (bit_div_all dbg w n d Hw Hn Hd Hlen Hld) as (q & r & L1 & L2 & W1 & W2 & (z & Hz) & E1 & E2 & E3).
  { unfold bit_len. rewrite Nat.mul_comm. auto. }
  exists q, r. unfold bit_div_checked, bit_div_wrapping, bit_rem_checked, bit_rem_wrapping.
  rewrite E2, E3. repeat (split; [assumption || reflexivity|]).
  split; [|repeat split].
  symmetry. apply (Z.mod_unique_pos _ _ (- z)); [apply val_bound; auto|]. lia.
Qed.
Print Assumptions C16_congruence_partial.

Example C16_congruence_demo : bit_div_long true 8 [0; 2] [0; 1] = Ok ([255; 3], [0; 3]) /\
  (1023 * 256 + 768) mod 65536 = 512.
Proof.
  assert (wf 8 [0; 2] /\ wf 8 [0; 1]) as [W1 W2] by (split; repeat constructor; lia).
  destruct (C16_congruence_partial true 8 [0; 2] [0; 1] ltac:(lia) W1 W2 ltac:(cbn; lia) ltac:(cbn; lia) ltac:(cbn; lia))
    as (q & r & E & _ & _ & _ & _ & V & _).
  vm_compute in E. injection E as <- <-. split; [reflexivity|exact V].
Qed.

(** ** C17 *)

(** Whenever the inner loops of the element-wise long division end, [quotient * divisor +
    remainder] is the dividend modulo its width and the remainder is below the divisor in the
    order of the crate's own comparison, which looks at the lowest limb first. A divisor with
    more limbs than the dividend panics, whatever the values. *)
Theorem C17_congruence_partial : forall dbg fuel w n d, (2 <= w)%nat -> wf w n -> wf w d ->
  (0 < length n)%nat -> (length d <= length n)%nat -> Z.of_nat (w * length n) < 2 ^ 64 ->
  elem_div_long dbg fuel w n d = Timeout \/
  exists q r, elem_div_long dbg fuel w n d = Ok (q, r) /\
    wf w q /\ wf w r /\ canonical q /\ canonical r /\ elem_cmp r d = Lt /\
    (val w q * val w d + val w r) mod cap w (length n) = val w n.
Proof.
  intros. apply elem_div_all; auto. unfold bit_len. rewrite Nat.mul_comm. auto.
Qed.
Print Assumptions C17_congruence_partial.

Theorem C17_longer_divisor_panics : forall dbg fuel w n d, (2 <= w)%nat ->
  (length n < length d)%nat -> Z.of_nat (w * length d) < 2 ^ 64 ->
  elem_div_long dbg fuel w n d = Panic.
Proof.
  intros. apply elem_div_longer; auto. unfold bit_len. rewrite Nat.mul_comm. auto.
Qed.
Print Assumptions C17_longer_divisor_panics.

(** Exactly when it ends: the lowest limb of the divisor is not zero (then no inner loop runs more than 2^w times), or
    the dividend is zero and the divisor is not. *)
Theorem C17_terminates_partial : forall dbg w n d, (2 <= w)%nat -> wf w n -> wf w d ->
  (0 < length n)%nat -> (length d <= length n)%nat -> Z.of_nat (w * length n) < 2 ^ 64 ->
  ((exists fuel q r, elem_div_long dbg fuel w n d = Ok (q, r)) <->
   (val w d mod 2 ^ Z.of_nat w <> 0 \/ (val w n = 0 /\ val w d <> 0))) /\
  (val w d mod 2 ^ Z.of_nat w <> 0 -> forall fuel, 2 ^ Z.of_nat w <= Z.of_nat fuel ->
   exists q r, elem_div_long dbg fuel w n d = Ok (q, r)).
Proof.
  intros dbg w n d Hw Hn Hd Hlen Hld H64. change (2 ^ Z.of_nat w) with (base w). rewrite <- (zget_0_mod w d Hd).
  assert (Z.of_nat (bit_len w n) < 2 ^ 64) as H64' by (unfold bit_len; rewrite Nat.mul_comm; auto).
  pose proof (wf_zget w d 0 Hd) as B0.
  assert (zget d 0 <> 0 -> forall fuel, base w <= Z.of_nat fuel -> exists q r, elem_div_long dbg fuel w n d = Ok (q, r)) as A.
  { intros N0 fuel Hf. destruct (C17_congruence_partial dbg fuel w n d Hw Hn Hd Hlen Hld H64) as [E|(q & r & E & _)]; [|eauto].
    exfalso. revert E. apply elem_div_ends; auto; try lia. intros i. pose proof (wf_zget w n i Hn).
    apply Z.le_trans with (zget n i); [|lia]. apply Z.div_le_upper_bound; nia. }
  split; [|exact A]. split.
  - intros (fuel & q & r & E). destruct (Z.eq_dec (zget d 0) 0) as [Z0|N0]; [right|left; auto].
    rewrite elem_div_low in E by auto. destruct (Z.eqb_spec (val w n) 0), (Z.eqb_spec (val w d) 0); cbn in E; try discriminate. auto.
  - intros [N0|[N0 D0]].
    + destruct (A N0 (Z.to_nat (base w))) as (q & r & E); [lia|]. eauto.
    + destruct (Z.eq_dec (zget d 0) 0) as [Z0|Z0].
      * exists 0%nat, [0], [0]. rewrite elem_div_low by auto. rewrite N0, (proj2 (Z.eqb_neq _ _) D0). reflexivity.
      * destruct (A Z0 (Z.to_nat (base w))) as (q & r & E); [lia|]. eauto.
Qed.
Print Assumptions C17_terminates_partial.

(** Divisors below 2^w: the limbs of quotient and remainder are those of the dividend divided one by one, which is right exactly
    when the divisor divides every limb but the lowest. *)
Theorem C17_one_limb_divisor_partial : forall dbg fuel w n d, (2 <= w)%nat -> wf w n -> wf w d ->
  (0 < length n)%nat -> (length d <= length n)%nat -> Z.of_nat (w * length n) < 2 ^ 64 ->
  0 < val w d < 2 ^ Z.of_nat w -> 2 ^ Z.of_nat w <= Z.of_nat fuel ->
  exists q r, elem_div_long dbg fuel w n d = Ok (q, r) /\ canonical q /\ canonical r /\
    val w q = val w (map (fun x => x / val w d) n) /\ val w r = val w (map (fun x => x mod val w d) n) /\
    ((val w q = val w n / val w d /\ val w r = val w n mod val w d) <->
     (forall i, (0 < i < length n)%nat -> nth i n 0 mod val w d = 0)).
Proof.
  intros dbg fuel w n d Hw Hn Hd Hlen Hld H64 Hb Hf.
  destruct (elem_div_one dbg fuel w n d) as (q & r & E & W1 & W2 & C1 & C2 & V1 & V2); auto.
  { unfold bit_len. rewrite Nat.mul_comm. auto. }
  { intros i. pose proof (wf_zget w n i Hn) as Hi. unfold base in Hi. apply Z.le_trans with (zget n i); [|lia].
    apply Z.div_le_upper_bound; nia. }
  exists q, r. repeat (split; [assumption|]). rewrite V1, V2, limbwise_right by auto.
  split; intros H i Hi.
  - apply H. lia.
  - destruct (Nat.lt_ge_cases i (length n)) as [L|L]; [apply H; lia|]. rewrite zget_oob by auto. apply Z.mod_0_l. lia.
Qed.
Print Assumptions C17_one_limb_divisor_partial.

Example C17_one_limb_demo : elem_div_long true 300 8 [17; 6; 9] [3] = Ok ([5; 2; 3], [2]) /\
  17 + 256 * (6 + 256 * 9) = 3 * (5 + 256 * (2 + 256 * 3)) + 2 /\
  elem_div_long true 300 8 [0; 1] [7; 1] = Ok ([0], [0; 1]) /\ elem_div_long true 300 8 [1; 1] [0; 1] = Timeout /\
  elem_div_long true 300 8 [0; 0] [0; 1] = Ok ([0], [0]).
Proof. vm_compute. repeat split. Qed.

Example C17_congruence_demo :
  elem_div_long true 1000 8 [5; 3] [2] = Ok ([2; 1], [1; 1]) /\ (258 * 2 + 257) mod 65536 = 773 /\
  elem_cmp [1; 1] [2] = Lt /\ elem_div_long true 1000 8 [5] [2; 0] = Panic.
Proof. vm_compute. repeat split. Qed.

(** ** C29 *)

Theorem C29_congruence_partial : forall dbg a b, wf 8 a -> wf 8 b -> length b = length a ->
  (0 < length a)%nat -> Z.of_nat (8 * length a) < 2 ^ 64 ->
  exists q r, u_div dbg a b = Ok q /\ u_checked_div dbg a b = Ok (Some q) /\ u_rem dbg a b = Ok r /\
    length q = length a /\ length r = length a /\ wf 8 q /\ wf 8 r /\
    (val 8 q * val 8 b + val 8 r) mod cap 8 (length a) = val 8 a.
Proof.
  intros dbg a b Ha Hb Hl Hp H64.
  destruct (C16_congruence_partial dbg 8 a b) as (q & r & _ & W1 & W2 & L1 & L2 & V & _ & E1 & E2 & _ & E3 & E4);
    auto; try lia.
  exists q, r. unfold u_div, u_checked_div, u_rem. rewrite E1, E2, E3.
  split; [destruct dbg; reflexivity|]. repeat (split; [assumption || reflexivity|]). assumption.
Qed.
Print Assumptions C29_congruence_partial.

Example C29_congruence_demo : u_div true [0; 2] [0; 1] = Ok [255; 3] /\ u_rem true [0; 2] [0; 1] = Ok [0; 3] /\
  u_div true [9; 9] [0; 0] = Ok [255; 255] /\ u_rem true [9; 9] [0; 0] = Ok [9; 9].
Proof. repeat split; reflexivity. Qed.

(** ** C40 *)

Lemma half_cap n : (0 < n)%nat -> cap 8 n = 2 * 2 ^ (8 * Z.of_nat n - 1) /\ 0 < 2 ^ (8 * Z.of_nat n - 1).
Proof.
  intros H. split; [|apply Z.pow_pos_nonneg; lia].
  rewrite cap_bits, <- Z.pow_succ_r by lia. f_equal. lia.
Qed.

Lemma sval_congruent o n v : length o = n -> val 8 o = v mod cap 8 n -> exists e, sval o = v + e * cap 8 n.
Proof.
  intros <- Hv. pose proof (cap_pos 8 (length o)) as HC.
  pose proof (Z.div_mod v (cap 8 (length o)) ltac:(lia)) as D. rewrite <- Hv in D.
  unfold sval. destruct (_ <? _); [exists (- (v / cap 8 (length o)))|exists (- (v / cap 8 (length o)) - 1)]; lia.
Qed.

Lemma signed_congruence C H s q r x y sa sb sq sr : C = 2 * H -> 0 < H -> (q * y + r) mod C = x ->
  (exists e, sa = x - e * H) -> (exists e, sb = y - e * H) ->
  (exists e, sq = s * q + e * C) -> (exists e, sr = s * r + e * C) ->
  (sq * sb + sr - s * sa) mod H = 0.
Proof.
  intros EC HH V (ea & ->) (eb & ->) (eq & ->) (er & ->).
  pose proof (Z.div_mod (q * y + r) C ltac:(lia)) as D. rewrite V in D. set (h := (q * y + r) / C) in D. clearbody h.
  assert (x = q * y + r - C * h) as -> by lia. subst C.
  match goal with |- ?z mod H = 0 => replace z with
    ((2 * eq * (y - eb * H) - s * q * eb + 2 * er + s * (2 * h + ea)) * H) by ring end.
  apply Z_mod_mult.
Qed.

(** The operands lose their sign bit, so the identity is modulo half the width. *)
Theorem C40_congruence_partial : forall dbg a b, wf 8 a -> wf 8 b -> length b = length a ->
  (0 < length a)%nat -> Z.of_nat (8 * length a) < 2 ^ 64 ->
  exists q r, i_div dbg a b = Ok q /\ i_rem dbg a b = Ok r /\
    length q = length a /\ length r = length a /\ wf 8 q /\ wf 8 r /\
    let s := if xorb (sval a <? 0) (sval b <? 0) then -1 else 1 in
    (sval q * sval b + sval r - s * sval a) mod 2 ^ (8 * Z.of_nat (length a) - 1) = 0.
Proof.
  intros dbg a b Ha Hb Hl Hpos H64. unfold i_div, i_rem.
  rewrite (proj1 (sign_spec a Ha Hpos)), (proj1 (sign_spec b Hb ltac:(lia))). cbn [bind].
  destruct (i_abs_spec a Ha Hpos) as (x & Ex & Wx & Lx & _ & _ & Vx).
  destruct (i_abs_spec b Hb ltac:(lia)) as (y & Ey & Wy & Ly & _ & _ & Vy).
  rewrite Ex, Ey. cbn [bind]. rewrite <- Lx.
  destruct (C16_congruence_partial dbg 8 x y) as (q & r & _ & W1 & W2 & L1 & L2 & V & _ & _ & E2 & _ & _ & E4);
    auto; try lia.
  rewrite E2, E4. cbn [bind]. clear E2 E4 Ex Ey. rewrite Lx in *.
  destruct (half_cap (length a) Hpos) as [EC HH].
  rewrite Hl in Vy.
  assert (exists e, sval a = val 8 x - e * 2 ^ (8 * Z.of_nat (length a) - 1)) as Ea.
  { clear - Vx EC. destruct (sval a <? 0); [exists 1|exists 0]; lia. }
  assert (exists e, sval b = val 8 y - e * 2 ^ (8 * Z.of_nat (length a) - 1)) as Eb.
  { clear - Vy EC. destruct (sval b <? 0); [exists 1|exists 0]; lia. }
  destruct (xorb (sval a <? 0) (sval b <? 0)).
  - assert (0 < length q)%nat as Pq by congruence. assert (0 < length r)%nat as Pr by congruence.
    destruct (i_neg_spec q W1 Pq) as (Wq & Lq & Vq). destruct (i_neg_spec r W2 Pr) as (Wr & Lr & Vr).
    rewrite L1 in *. rewrite L2 in *.
    exists (i_neg q), (i_neg r). repeat (split; [reflexivity || assumption|]). cbv zeta.
    apply (signed_congruence (cap 8 (length a)) _ (-1) (val 8 q) (val 8 r) (val 8 x) (val 8 y)); auto;
      apply sval_congruent; auto.
  - exists q, r. repeat (split; [reflexivity || assumption|]). cbv zeta.
    apply (signed_congruence (cap 8 (length a)) _ 1 (val 8 q) (val 8 r) (val 8 x) (val 8 y)); auto;
      apply sval_congruent; auto; rewrite Z.mul_1_l, Z.mod_small; auto.
    + rewrite <- L1. apply val_bound. auto.
    + rewrite <- L2. apply val_bound. auto.
Qed.
Print Assumptions C40_congruence_partial.

(** [-7 / 2] is -60 and [-7 % 2] is -1: -60 * 2 - 1 = 7 modulo 128. *)
Example C40_congruence_demo : sval [249] = -7 /\ sval [2] = 2 /\ i_div true [249] [2] = Ok [196] /\ i_rem true [249] [2] = Ok [255] /\
  sval [196] = -60 /\ sval [255] = -1 /\ (-60 * 2 + -1 - -1 * -7) mod 2 ^ 7 = 0.
Proof. repeat split; reflexivity. Qed.

(** ** C46 *)

(** Any divisor that has no more 64-bit limbs than the dividend. *)
Theorem C46_congruence_partial : forall dbg P st hs a b x y,
  consistent P st hs -> room P hs 0 -> is_int st hs a x -> is_int st hs b y -> addressable x ->
  Z.log2 (Z.abs y) / 64 <= Z.log2 (Z.abs x) / 64 ->
  exists q r, yields P hs (bi_div dbg a b) st q /\ yields P hs (bi_rem dbg a b) st r /\
    let W := 2 ^ (64 * (Z.log2 (Z.abs x) / 64 + 1)) in
    Z.abs q < W /\ Z.abs r < W /\ (Z.abs q * Z.abs y + Z.abs r) mod W = Z.abs x /\
    (x <> 0 -> y <> 0 -> 0 <= q * (x * y) /\ 0 <= r * (x * y)).
Proof.
  intros dbg P st hs a b x y Hc Hr (Ha & Hx) (Hb & Hy) Hax Hle.
  destruct (info _ _ _ _ _ Hc Ha Hx) as (la & Sa & Wa & Ca & La & Va & _).
  destruct (info _ _ _ _ _ Hc Hb Hy) as (lb & Sb & Wb & Cb & Lb & Vb & _).
  pose proof (denotes_sign _ _ _ _ _ _ Hc Ha Sa Hx) as Ex.
  pose proof (denotes_sign _ _ _ _ _ _ Hc Hb Sb Hy) as Ey.
  pose proof (canonical_len la Wa Ca) as E1. pose proof (canonical_len lb Wb Cb) as E2. rewrite Va in E1. rewrite Vb in E2.
  destruct (bit_div_all dbg 64 la lb ltac:(lia) Wa Wb La ltac:(lia)) as (q & r & L1 & L2 & W1 & W2 & (z & Hz) & E & _).
  { eapply addressable_len; eauto. }
  set (s := if negb (Bool.eqb (is_negative a) (is_negative b)) then -1 else 1).
  assert (Z.abs s = 1) as Hs by (unfold s; destruct (negb _); reflexivity).
  exists (s * val 64 q), (s * val 64 r).
  pose proof (val_bound 64 q W1) as Bq. pose proof (val_bound 64 r W2) as Br. rewrite L1 in Bq. rewrite L2 in Br.
  assert (cap 64 (length la) = 2 ^ (64 * (Z.log2 (Z.abs x) / 64 + 1))) as EC.
  { rewrite cap_bits. f_equal. lia. }
  rewrite !Z.abs_mul, Hs, !Z.mul_1_l, !(Z.abs_eq (val 64 _)), <- EC by lia.
  split; [|split; [|split; [|split; [|split]]]]; try lia.
  - unfold yields, bi_div. rewrite (mbind_ok _ _ st q st).
    + apply new_slice_spec; auto. intros ->. cbn in *. lia.
    + rewrite (with_slices_ok _ _ _ _ _ _ Sa Sb). rewrite (mbind_ok _ _ _ _ _ (lift_ok _ _ _ E)). auto.
  - unfold yields, bi_rem. rewrite (mbind_ok _ _ st r st).
    + apply new_slice_spec; auto. intros ->. cbn in *. lia.
    + rewrite (with_slices_ok _ _ _ _ _ _ Sa Sb). rewrite (mbind_ok _ _ _ _ _ (lift_ok _ _ _ E)). auto.
  - symmetry. apply (Z.mod_unique_pos _ _ (- z)); [rewrite <- Va; apply val_bound; auto|]. rewrite <- Va, <- Vb. lia.
  - intros Nx Ny. assert (0 < s * (x * y)) as Hp.
    { unfold s. rewrite !is_negative_odd. rewrite Va in Ex. rewrite Vb in Ey. pose proof (Z.abs_nonneg x). pose proof (Z.abs_nonneg y).
      destruct (Z.odd a), (Z.odd b); cbn [Bool.eqb negb]; nia. }
    split; nia.
Qed.
Print Assumptions C46_congruence_partial.

(** [(2 * 2^64 + 3) / (2^64 + 5)], both of two limbs (the state of C125). *)
Example C46_congruence_demo : exists q r, yields 11 ord_hs (bi_div true 4 0) ord_st q /\ yields 11 ord_hs (bi_rem true 4 0) ord_st r /\
  (Z.abs q * (2 ^ 64 + 5) + Z.abs r) mod 2 ^ 128 = 2 * 2 ^ 64 + 3.
Proof.
  destruct ord_a as (A1 & A2 & _). destruct ord_b as (B1 & B2 & _).
  destruct (C46_congruence_partial true 11 ord_st ord_hs 4 0 _ _ ord_consistent ltac:(vm_compute; discriminate)
    (conj B1 B2) (conj A1 A2)) as (q & r & Y1 & Y2 & _ & _ & V & _); [vm_compute; reflexivity|vm_compute; discriminate|].
  exists q, r. auto.
Qed.
