(** Properties C25-C35: the fixed-width unsigned integer [U<N>] (crates/ints/src/u.rs).
    A [U<N>] is its byte list; [wf 8 a] says the bytes are bytes, [length a] is [N],
    [val 8 a] its numeric value and [cap 8 N = 2^(8N)] (Spec.v). *)
From Coq Require Import ZArith List Bool Lia ZifyNat.
From Verif Require Import Base Words Spec Arith BitSliceModel BitSliceProofs ElementModel
  BitwiseModel ElemAddSub ElemMul ElemShift BitwiseProofs PrimModel PropBits UModel UProofs TextSpec.
Import ListNotations.
Local Open Scope Z_scope.

(** ** C25 *)

Theorem C25_bytes : forall bytes, wf 8 bytes ->
  u_to_le_bytes (u_from_le_bytes bytes) = bytes /\
  u_to_be_bytes (u_from_be_bytes bytes) = bytes /\
  u_to_ne_bytes (u_from_ne_bytes bytes) = bytes /\
  u_from_le_bytes (u_to_le_bytes bytes) = bytes /\
  u_from_be_bytes (u_to_be_bytes bytes) = bytes /\
  u_to_be_bytes bytes = rev (u_to_le_bytes bytes) /\
  val 8 (u_from_le_bytes bytes) = fold_right (fun b acc => b + 256 * acc) 0 bytes /\
  val 8 (u_from_be_bytes bytes) = fold_left (fun acc b => 256 * acc + b) bytes 0.
Proof.
  intros bytes Hb. unfold u_to_le_bytes, u_from_le_bytes, u_to_be_bytes, u_from_be_bytes,
    u_to_ne_bytes, u_from_ne_bytes, u_from_le_bytes.
  rewrite !const_reverse_rev, !rev_involutive. repeat (split; [reflexivity|]). split.
  - induction bytes; auto. apply wf_cons in Hb. cbn [fold_right]. rewrite val_cons, IHbytes, base8; tauto.
  - induction bytes using rev_ind; auto. apply wf_app in Hb. destruct Hb as [Hb _].
    rewrite rev_app_distr, fold_left_app. cbn [rev app fold_left]. rewrite val_cons, IHbytes, base8 by auto. lia.
Qed.
Print Assumptions C25_bytes.

(** The inherent [as_uN] / [from_uN] conversions of the matching width. *)
Theorem C25_prim_conversions : forall size v, 0 <= v < 2 ^ (8 * Z.of_nat size) ->
  length (u_from_prim size v) = size /\ wf 8 (u_from_prim size v) /\
  val 8 (u_from_prim size v) = v /\ u_as_prim (u_from_prim size v) = v /\
  forall a, wf 8 a -> length a = size -> u_as_prim a = val 8 a /\ u_from_prim size (u_as_prim a) = a.
Proof.
  intros size v Hv. unfold u_from_prim, u_as_prim. rewrite !from_le_val, !val_le_bytes.
  split; [apply length_le_bytes|]. split; [apply wf_le_bytes|]. split; [apply Z.mod_small; auto|].
  split; [apply Z.mod_small; auto|]. intros a Ha Hl. rewrite from_le_val. split; auto.
  apply (val_inj 8); auto using wf_le_bytes. { rewrite length_le_bytes. auto. }
  rewrite val_le_bytes. apply Z.mod_small. rewrite <- Hl. apply val_bound. auto.
Qed.
Print Assumptions C25_prim_conversions.

Example C25_example : wf 8 [1; 2; 3] /\ u_to_be_bytes [1; 2; 3] = [3; 2; 1] /\
  val 8 (u_from_be_bytes [1; 2; 3]) = 66051 /\ 0 <= 70000 < 2 ^ (8 * Z.of_nat 4) /\
  u_from_prim 4 70000 = [112; 17; 1; 0].
Proof. split; [wf_tac|]. repeat split; first [reflexivity|lia]. Qed.

(** ** C26 *)

Theorem C26_add : forall dbg a b, wf 8 a -> wf 8 b -> length b = length a ->
  let n := length a in let s := val 8 a + val 8 b in
  (s < cap 8 n -> exists c, u_add dbg a b = Ok c /\ u_checked_add a b = Some c /\
     u_saturating_add a b = c /\ wf 8 c /\ length c = n /\ val 8 c = s) /\
  (cap 8 n <= s -> u_add true a b = Panic /\ u_checked_add a b = None /\
     val 8 (u_saturating_add a b) = cap 8 n - 1 /\
     exists c, u_add false a b = Ok c /\ wf 8 c /\ length c = n /\ val 8 c = s mod cap 8 n) /\
  (length (u_wrapping_add a b) = n /\ wf 8 (u_wrapping_add a b) /\
     val 8 (u_wrapping_add a b) = s mod cap 8 n).
Proof.
  intros dbg a b Ha Hb Hl n s.
  pose proof (elem_add_overflowing_spec 8 a b ltac:(lia) Ha Hb ltac:(lia)) as H.
  unfold u_add, u_checked_add, u_saturating_add, u_wrapping_add, elem_add_checked, elem_add_wrapping.
  destruct (elem_add_overflowing 8 a b) as [out c]. cbn [fst]. fold n s in H.
  destruct H as (L & W & V & F). pose proof (val_nonneg 8 a Ha). pose proof (val_nonneg 8 b Hb).
  split; [|split; [|auto]].
  - intros Hs. assert (c = false) as -> by (destruct c; auto; apply proj1 in F; specialize (F eq_refl); lia).
    exists out. cbn [unwrap]. split; [destruct dbg; auto|]. repeat split; auto.
    rewrite V. apply Z.mod_small. lia.
  - intros Hs. apply F in Hs. subst c. cbn [unwrap]. split; auto. split; auto.
    split; [apply val_u_max|]. exists out. auto.
Qed.
Print Assumptions C26_add.

Theorem C26_sub : forall dbg a b, wf 8 a -> wf 8 b -> length b = length a ->
  let n := length a in let s := val 8 a - val 8 b in
  (0 <= s -> exists c, u_sub dbg a b = Ok c /\ u_checked_sub a b = Some c /\
     u_saturating_sub a b = c /\ wf 8 c /\ length c = n /\ val 8 c = s) /\
  (s < 0 -> u_sub true a b = Panic /\ u_checked_sub a b = None /\
     val 8 (u_saturating_sub a b) = 0 /\
     exists c, u_sub false a b = Ok c /\ wf 8 c /\ length c = n /\ val 8 c = s mod cap 8 n) /\
  (length (u_wrapping_sub a b) = n /\ wf 8 (u_wrapping_sub a b) /\
     val 8 (u_wrapping_sub a b) = s mod cap 8 n).
Proof.
  intros dbg a b Ha Hb Hl n s.
  pose proof (elem_sub_overflowing_spec 8 a b ltac:(lia) Ha Hb ltac:(lia)) as H.
  unfold u_sub, u_checked_sub, u_saturating_sub, u_wrapping_sub, elem_sub_checked, elem_sub_wrapping.
  destruct (elem_sub_overflowing 8 a b) as [out c]. cbn [fst]. fold n s in H.
  destruct H as (L & W & V & F). pose proof (val_bound 8 a Ha) as Hba. pose proof (val_nonneg 8 b Hb).
  fold n in Hba. split; [|split; [|auto]].
  - intros Hs. assert (c = false) as -> by (destruct c; auto; apply proj1 in F; specialize (F eq_refl); lia).
    exists out. cbn [unwrap]. split; [destruct dbg; auto|]. repeat split; auto.
    rewrite V. apply Z.mod_small. lia.
  - intros Hs. assert (c = true) as -> by (apply F; lia). cbn [unwrap]. split; auto. split; auto.
    split; [apply val_zeros|]. exists out. auto.
Qed.
Print Assumptions C26_sub.

Example C26_example : wf 8 [255; 1] /\ wf 8 [3; 0] /\
  u_add true [255; 1] [3; 0] = Ok [2; 2] /\ u_sub true [255; 1] [3; 0] = Ok [252; 1] /\
  u_add true [255; 255] [3; 0] = Panic /\ u_add false [255; 255] [3; 0] = Ok [2; 0] /\
  u_saturating_add [255; 255] [3; 0] = [255; 255] /\ u_checked_sub [3; 0] [255; 1] = None.
Proof. split; [wf_tac|]. split; [wf_tac|]. repeat split; reflexivity. Qed.

(** ** C27 *)

Theorem C27_mul : forall a b, wf 8 a -> wf 8 b -> length b = length a ->
  (exists c, u_mul false a b = Ok c /\ wf 8 c /\ length c = length a /\
     val 8 c = (val 8 a * val 8 b) mod cap 8 (length a)) /\
  (val 8 a * val 8 b < cap 8 (length a) ->
   exists c, (forall dbg, u_mul dbg a b = Ok c) /\ u_checked_mul a b = Some c /\
     u_saturating_mul a b = c /\ wf 8 c /\ length c = length a /\ val 8 c = val 8 a * val 8 b).
Proof.
  intros a b Ha Hb Hl. split; [apply u_mul_release; auto|]. intros Hf.
  destruct (u_mul_fits true a b Ha Hb Hl Hf) as (c & E & E1 & E2 & H).
  exists c. split; [|tauto]. intros dbg. destruct (u_mul_fits dbg a b Ha Hb Hl Hf) as (c' & E' & E1' & _).
  rewrite E'. congruence.
Qed.
Print Assumptions C27_mul.

Example C27_example : wf 8 [200; 1] /\ wf 8 [100; 0] /\ val 8 [200; 1] * val 8 [100; 0] < cap 8 2 /\
  u_mul true [200; 1] [100; 0] = Ok [32; 178].
Proof. split; [wf_tac|]. split; [wf_tac|]. split; [cbn; lia|reflexivity]. Qed.

(** ** C28 *)

(** A raised flag is right; but overflow into the bytes above the array is not noticed:
    [U<1>] never notices at all. *)
Theorem C28_mul_overflow_partial : forall a b, wf 8 a -> wf 8 b -> length b = length a ->
  (u_checked_mul a b = None -> cap 8 (length a) <= val 8 a * val 8 b /\
     u_mul true a b = Panic /\ val 8 (u_saturating_mul a b) = cap 8 (length a) - 1) /\
  (length a = 1%nat -> exists c, u_checked_mul a b = Some c /\ u_mul true a b = Ok c /\
     u_saturating_mul a b = c /\ val 8 c = (val 8 a * val 8 b) mod 256).
Proof.
  intros a b Ha Hb Hl. unfold u_checked_mul, u_mul, u_saturating_mul, elem_mul_checked.
  pose proof (elem_mul_overflowing_spec 8 a b ltac:(lia) Ha Hb) as H. split.
  - destruct (elem_mul_overflowing 8 a b) as [out ov]. destruct H as (L & W & V & F).
    destruct ov; [|discriminate]. intros _. split; auto. split; auto. apply val_u_max.
  - intros H1. rewrite H1 in *. destruct a as [|x [|]]; try discriminate. destruct b as [|y [|]]; try discriminate.
    apply wf_cons in Ha, Hb. pose proof (mul_one_limb_flag 8 x y ltac:(lia) ltac:(tauto) ltac:(tauto)) as HF.
    destruct (elem_mul_overflowing 8 [x] [y]) as [out ov]. cbn [snd] in HF. subst ov.
    exists out. cbn [unwrap]. repeat split; auto. rewrite (proj1 (proj2 (proj2 H))). reflexivity.
Qed.
Print Assumptions C28_mul_overflow_partial.

Theorem C28_mul_overflow_refuted : exists a b, wf 8 a /\ wf 8 b /\ length b = length a /\
  cap 8 (length a) <= val 8 a * val 8 b /\
  u_checked_mul a b = Some [0; 0] /\ u_mul true a b = Ok [0; 0] /\ u_saturating_mul a b = [0; 0].
Proof.
  exists [0; 1], [0; 1]. split; [wf_tac|]. split; [wf_tac|]. split; [reflexivity|].
  split; [vm_compute; discriminate|]. repeat split; reflexivity.
Qed.
Print Assumptions C28_mul_overflow_refuted.

Example C28_example : wf 8 [255; 255] /\ wf 8 [255; 255] /\ u_checked_mul [255; 255] [255; 255] = None.
Proof. split; [wf_tac|]. split; [wf_tac|reflexivity]. Qed.

(** ** C29 *)

(** Right when the divisor is at most 128, or both operands are below 256 (so for every
    [U<1>]); the sizes are those a 64-bit machine can hold. *)
Theorem C29_div_partial : forall dbg a b, wf 8 a -> wf 8 b -> length b = length a ->
  (0 < length a)%nat -> Z.of_nat (8 * length a) < 2 ^ 64 ->
  0 < val 8 b < 256 -> val 8 b <= 128 \/ val 8 a < 256 ->
  exists q r, u_div dbg a b = Ok q /\ u_checked_div dbg a b = Ok (Some q) /\ u_rem dbg a b = Ok r /\
    length q = length a /\ length r = length a /\ wf 8 q /\ wf 8 r /\
    val 8 a = val 8 q * val 8 b + val 8 r /\ 0 <= val 8 r < val 8 b.
Proof.
  intros dbg a b Ha Hb Hl Hn H64 Hp Hc.
  destruct (u_div_rem_ok dbg a b) as (q & r & E1 & E2 & E3 & W1 & L1 & W2 & L2 & V1 & V2); auto.
  { split; rewrite base8; lia. }
  exists q, r. repeat (split; [assumption|]). rewrite V1, V2.
  pose proof (Z.div_mod (val 8 a) (val 8 b) ltac:(lia)).
  pose proof (Z.mod_pos_bound (val 8 a) (val 8 b) ltac:(lia)). split; lia.
Qed.
Print Assumptions C29_div_partial.

(** Division by zero neither panics nor returns [None]. *)
Theorem C29_div_zero : forall dbg a b, wf 8 a -> wf 8 b -> length b = length a ->
  (0 < length a)%nat -> Z.of_nat (8 * length a) < 2 ^ 64 -> val 8 b = 0 ->
  exists q, u_div dbg a b = Ok q /\ u_checked_div dbg a b = Ok (Some q) /\ u_rem dbg a b = Ok a /\
    val 8 q = cap 8 (length a) - 1.
Proof.
  intros dbg a b Ha Hb Hl Hn H64 H0. destruct (u_div_rem_zero dbg a b) as (E1 & E2 & E3); auto.
  exists (u_max (length a)). repeat (split; [assumption|]). apply val_u_max.
Qed.
Print Assumptions C29_div_zero.

Theorem C29_div_refuted :
  (exists a b q r, wf 8 a /\ wf 8 b /\ length b = length a /\ 0 < val 8 b /\
     u_div true a b = Ok q /\ u_rem true a b = Ok r /\
     val 8 a <> val 8 q * val 8 b + val 8 r /\ val 8 b <= val 8 r) /\
  (exists a b, wf 8 a /\ wf 8 b /\ length b = length a /\ val 8 b = 0 /\
     u_div true a b = Ok [255; 255] /\ u_checked_div true a b = Ok (Some [255; 255])).
Proof.
  split.
  - exists [0; 2], [0; 1], [255; 3], [0; 3]. split; [wf_tac|]. split; [wf_tac|]. split; [reflexivity|].
    split; [reflexivity|]. split; [reflexivity|]. split; [reflexivity|]. split; vm_compute; discriminate.
  - exists [7; 2], [0; 0]. split; [wf_tac|]. split; [wf_tac|]. repeat split; reflexivity.
Qed.
Print Assumptions C29_div_refuted.

Example C29_example : wf 8 [57; 48] /\ wf 8 [100; 0] /\ 0 < val 8 [100; 0] < 256 /\ val 8 [100; 0] <= 128 /\
  u_div true [57; 48] [100; 0] = Ok [123; 0] /\ u_rem true [57; 48] [100; 0] = Ok [45; 0].
Proof. split; [wf_tac|]. split; [wf_tac|]. repeat split; first [reflexivity|cbn; lia]. Qed.

(** ** C30 *)

(** Debug build: every amount up to the width, a panic beyond.  Release build: every
    amount below the largest power of two not above the width. *)
Theorem C30_shl_partial : forall a s, wf 8 a -> (0 < length a)%nat -> Z.of_nat (8 * length a) < 2 ^ 64 ->
  ((s <= 8 * length a)%nat -> exists c, u_shl true a s = Ok c /\ wf 8 c /\ length c = length a /\
     val 8 c = (val 8 a * 2 ^ Z.of_nat s) mod cap 8 (length a)) /\
  ((8 * length a < s)%nat -> u_shl true a s = Panic) /\
  (Z.of_nat s < 2 ^ Z.log2 (Z.of_nat (8 * length a)) ->
     exists c, u_shl false a s = Ok c /\ wf 8 c /\ length c = length a /\
     val 8 c = (val 8 a * 2 ^ Z.of_nat s) mod cap 8 (length a)).
Proof.
  intros a s Ha Hn H64. destruct (C09_shl_checked 8 a s ltac:(lia) Ha) as [HN HS]. unfold u_shl.
  split; [|split].
  - intros H. destruct (HS H) as (c & E & L & W & V). rewrite E. exists c. auto.
  - intros H. rewrite (HN H). reflexivity.
  - intros H. destruct (C10_shl_wrapping_partial false 8 a s) as (c & E & L & W & V); auto; try lia.
    exists c. rewrite (Z.mod_small (Z.of_nat s)) in V by lia. auto.
Qed.
Print Assumptions C30_shl_partial.

(** When [N] is a power of two, so for U<1>, U<2>, U<4>, ..., every [s < 8N] in both builds. *)
Theorem C30_shl_pow2 : forall dbg a s k, wf 8 a -> length a = (2 ^ k)%nat ->
  Z.of_nat (8 * length a) < 2 ^ 64 -> (s < 8 * length a)%nat ->
  exists c, u_shl dbg a s = Ok c /\ wf 8 c /\ length c = length a /\
    val 8 c = (val 8 a * 2 ^ Z.of_nat s) mod cap 8 (length a).
Proof.
  intros dbg a s k Ha Hk H64 Hs. pose proof (Nat.pow_nonzero 2 k ltac:(lia)) as Hp.
  destruct (C30_shl_partial a s Ha ltac:(lia) H64) as (H1 & _ & H2). destruct dbg.
  - apply H1. lia.
  - apply H2. assert (Z.of_nat (8 * length a) = 2 ^ (3 + Z.of_nat k)) as E.
    { rewrite Hk, Nat2Z.inj_mul, Z.pow_add_r by lia. f_equal. rewrite Nat2Z.inj_pow. reflexivity. }
    rewrite E, Z.log2_pow2 by lia. lia.
Qed.
Print Assumptions C30_shl_pow2.

Theorem C30_shr_partial : forall a s, wf 8 a -> (0 < length a)%nat -> Z.of_nat (8 * length a) < 2 ^ 64 ->
  ((s < 8 * length a)%nat -> exists c, u_shr true a s = Ok c /\ wf 8 c /\ length c = length a /\
     val 8 c = val 8 a / 2 ^ Z.of_nat s + kept_bits 8 a s) /\
  ((8 * length a <= s)%nat -> u_shr true a s = Panic) /\
  ((s < 2 ^ Nat.log2 (8 * length a))%nat ->
     exists c, u_shr false a s = Ok c /\ wf 8 c /\ length c = length a /\
     val 8 c = val 8 a / 2 ^ Z.of_nat s + kept_bits 8 a s) /\
  (kept_bits 8 a s = 0 <-> nth (length a - 1 - s / 8) a 0 < 2 ^ Z.of_nat (8 - s mod 8)).
Proof.
  intros a s Ha Hn H64. unfold u_shr.
  split; [|split; [|split]].
  - intros H. destruct (C12_shr_checked_partial true 8 a s ltac:(lia) Ha H) as (c & E & L & W & V).
    rewrite E. exists c. auto.
  - intros H. destruct (Nat.eq_dec s (8 * length a)) as [->|].
    + destruct (C12_shr_full_width 8 a ltac:(lia) Ha) as [E _]. rewrite E. reflexivity.
    + unfold elem_shr_checked. rewrite (proj2 (Nat.ltb_lt _ _)); [reflexivity|]. unfold bit_len. lia.
  - intros H. destruct (C12_shr_wrapping_partial false 8 a s ltac:(lia) Ha ltac:(lia) H64) as (c & E & L & W & V).
    rewrite Nat.mod_small in V by auto. exists c. auto.
  - apply C12_kept_bits_zero; auto. lia.
Qed.
Print Assumptions C30_shr_partial.

Theorem C30_shifts_refuted :
  (exists a s, wf 8 a /\ (s < 8 * length a)%nat /\ u_shr true a s = Ok [192] /\
     u_shr false a s = Ok [192] /\ val 8 a / 2 ^ Z.of_nat s = 64) /\
  (exists a s, wf 8 a /\ (s < 8 * length a)%nat /\ u_shl false a s = Ok a /\
     u_shl true a s = Ok [0; 0; 1]).
Proof.
  split.
  - exists [128], 1%nat. split; [wf_tac|]. split; [cbn; lia|]. repeat split; reflexivity.
  - exists [1; 0; 0], 16%nat. split; [wf_tac|]. split; [cbn; lia|]. repeat split; reflexivity.
Qed.
Print Assumptions C30_shifts_refuted.

(** A shift amount given as a [U] is its value, when it has at most eight bytes. *)
Theorem C30_shift_by_u : forall dbg a b, wf 8 b ->
  ((length b <= 8)%nat -> u_shl_u dbg a b = u_shl dbg a (Z.to_nat (val 8 b)) /\
                          u_shr_u dbg a b = u_shr dbg a (Z.to_nat (val 8 b))) /\
  ((8 < length b)%nat -> u_shl_u dbg a b = Panic /\ u_shr_u dbg a b = Panic).
Proof.
  intros dbg a b Hb. unfold u_shl_u, u_shr_u. split; intros H.
  - rewrite prim_from_checked_u_spec by auto. auto.
  - rewrite prim_from_checked_u_panic by auto. auto.
Qed.
Print Assumptions C30_shift_by_u.

Example C30_example : wf 8 [129; 3] /\ length [129; 3] = (2 ^ 1)%nat /\ (11 < 8 * length [129; 3])%nat /\
  u_shl true [129; 3] 11 = Ok [0; 8] /\ u_shl false [129; 3] 11 = Ok [0; 8] /\
  u_shr true [129; 3] 3 = Ok [112; 0] /\ kept_bits 8 [129; 3] 3 = 0.
Proof. split; [wf_tac|]. split; [reflexivity|]. split; [cbn; lia|]. repeat split; reflexivity. Qed.

(** ** C31 *)

(** The order is decided by the least significant differing byte; it is a total order with
    the stated bounds, and numeric when at most one byte differs. *)
Theorem C31_ord_partial : forall a b i, wf 8 a -> wf 8 b -> length a = length b ->
  (forall j, j <> i -> nth j a 0 = nth j b 0) -> u_cmp a b = Z.compare (val 8 a) (val 8 b).
Proof. intros a b i Ha Hb _ H. apply (C14_cmp_partial 8 a b i); auto. Qed.
Print Assumptions C31_ord_partial.

Theorem C31_total_order_bounds : forall a b c, wf 8 a -> wf 8 b -> wf 8 c ->
  length b = length a -> length c = length a ->
  (u_cmp a b = Eq <-> val 8 a = val 8 b) /\ (u_eqb a b = true <-> val 8 a = val 8 b) /\
  u_cmp b a = CompOpp (u_cmp a b) /\
  (u_cmp a b = Lt -> u_cmp b c = Lt -> u_cmp a c = Lt) /\
  val 8 (u_zero (length a)) = 0 /\ val 8 (u_max (length a)) = cap 8 (length a) - 1 /\
  u_cmp (u_zero (length a)) a <> Gt /\ u_cmp a (u_max (length a)) <> Gt.
Proof.
  intros a b c Ha Hb Hc Lb Lc. unfold u_cmp.
  destruct (C15_cmp_total_order 8 a b c Ha Hb Hc) as (H1 & H2 & H3 & _).
  split; auto. split. { rewrite u_eqb_spec by auto. apply Z.eqb_eq. }
  split; auto. split; auto. split; [apply val_zeros|]. split; [apply val_u_max|]. split.
  - intros H. apply elem_cmp_gt_iff in H. destruct H as (i & Hi & _). unfold u_zero in Hi.
    rewrite zget_zeros in Hi. pose proof (wf_zget 8 a i Ha). lia.
  - intros H. apply elem_cmp_gt_iff in H. destruct H as (i & Hi & _).
    destruct (Nat.lt_ge_cases i (length a)) as [Hlt|Hge].
    + assert (zget (u_max (length a)) i = 255) as E.
      { unfold u_max, zget. rewrite (nth_indep _ 0 255) by (rewrite repeat_length; auto). apply nth_repeat. }
      rewrite E in Hi. pose proof (wf_zget 8 a i Ha). rewrite base8 in *. lia.
    + rewrite (zget_oob a), zget_oob in Hi; try lia. unfold u_max. rewrite repeat_length. auto.
Qed.
Print Assumptions C31_total_order_bounds.

Theorem C31_ord_refuted : exists a b, wf 8 a /\ wf 8 b /\ length a = length b /\
  val 8 a < val 8 b /\ u_cmp a b = Gt.
Proof. exists [1; 0], [0; 1]. split; [wf_tac|]. split; [wf_tac|]. repeat split; reflexivity. Qed.
Print Assumptions C31_ord_refuted.

Example C31_example : wf 8 [7; 3] /\ wf 8 [7; 5] /\
  (forall j, j <> 1%nat -> nth j [7; 3] 0 = nth j [7; 5] 0) /\ u_cmp [7; 3] [7; 5] = Lt.
Proof.
  split; [wf_tac|]. split; [wf_tac|]. split; [|reflexivity]. intros [|[|[|]]] H; auto; congruence.
Qed.

(** ** C32 *)

Theorem C32_bitops : forall a b i, wf 8 a -> wf 8 b -> length b = length a ->
  let bit x := Z.testbit (val 8 x) (Z.of_nat i) in
  wf 8 (u_bitand a b) /\ length (u_bitand a b) = length a /\ bit (u_bitand a b) = bit a && bit b /\
  wf 8 (u_bitor a b) /\ length (u_bitor a b) = length a /\ bit (u_bitor a b) = bit a || bit b /\
  wf 8 (u_bitxor a b) /\ length (u_bitxor a b) = length a /\ bit (u_bitxor a b) = xorb (bit a) (bit b) /\
  wf 8 (u_not a) /\ length (u_not a) = length a /\ val 8 (u_not a) = cap 8 (length a) - 1 - val 8 a /\
  ((i < 8 * length a)%nat -> bit (u_not a) = negb (bit a)).
Proof.
  intros a b i Ha Hb Hl bit. unfold u_bitand, u_bitor, u_bitxor.
  rewrite !u_bitop_elem by auto.
  assert (forall op, length (elem_bitop op a b) = length a) as HL.
  { intros op. destruct (elem_bitop_spec op a b) as [L _]. lia. }
  destruct (C13_bitops 8 a b i ltac:(lia) Ha Hb) as ((W1 & B1) & (W2 & B2) & (W3 & B3)).
  unfold elem_bitand, elem_bitor, elem_bitxor in *.
  destruct (C13_not 8 a Ha) as (L4 & W4 & V4). change (u_not a) with (elem_not 8 a).
  repeat (split; [solve [auto]|]). intros Hi. unfold bit.
  rewrite (val_testbit_idx 8 (elem_not 8 a)), (val_testbit_idx 8 a) by (auto; lia).
  assert (i / 8 < length a)%nat by (apply Nat.div_lt_upper_bound; lia).
  assert (zget (elem_not 8 a) (i / 8) = wnot 8 (zget a (i / 8))) as ->.
  { unfold elem_not, zget. rewrite (nth_indep _ 0 (wnot 8 0)) by (rewrite map_length; auto). apply map_nth. }
  apply wnot_testbit. pose proof (Nat.mod_upper_bound i 8 ltac:(lia)). lia.
Qed.
Print Assumptions C32_bitops.

Example C32_example : wf 8 [170; 1] /\ wf 8 [204; 3] /\ u_bitand [170; 1] [204; 3] = [136; 1] /\
  u_bitor [170; 1] [204; 3] = [238; 3] /\ u_bitxor [170; 1] [204; 3] = [102; 2] /\ u_not [170; 1] = [85; 254].
Proof. split; [wf_tac|]. split; [wf_tac|]. repeat split; reflexivity. Qed.

(** ** C33 *)

Theorem C33_pow_partial : forall a b, wf 8 a -> wf 8 b -> (0 < length a <= 8)%nat ->
  length b = length a -> val 8 a <> 0 \/ val 8 b <> 0 ->
  (exists c, u_pow false a b = Ok c /\ wf 8 c /\ length c = length a /\
     val 8 c = (val 8 a ^ val 8 b) mod cap 8 (length a)) /\
  (val 8 a ^ val 8 b < cap 8 (length a) -> exists c, u_pow true a b = Ok c /\ wf 8 c /\
     length c = length a /\ val 8 c = val 8 a ^ val 8 b).
Proof.
  intros a b Ha Hb Hl Hlb Hz. pose proof (val_bound 8 a Ha) as Ba. pose proof (val_nonneg 8 b Hb) as Nb.
  assert (1 < cap 8 (length a)) as Hc.
  { apply Z.lt_le_trans with (cap 8 1); [rewrite cap_1, base8; lia|apply cap_mono; lia]. }
  unfold u_pow. rewrite u_is_zero_spec by auto. destruct (Z.eqb_spec (val 8 a) 0) as [E0|N0]; cbn [bind].
  - assert (0 ^ val 8 b = 0) as P0 by (apply Z.pow_0_l; lia). rewrite E0, P0.
    split; [|intros _]; exists a; repeat split; auto.
  - rewrite u_is_one_spec by (auto; lia). cbn [bind]. destruct (Z.eqb_spec (val 8 a) 1) as [E1|N1].
    + rewrite E1, Z.pow_1_l by lia. split; [|intros _]; exists a; repeat split; auto.
      rewrite Z.mod_small; lia.
    + rewrite u_is_zero_spec by auto. destruct (Z.eqb_spec (val 8 b) 0) as [Eb|Nb0].
      * rewrite Eb, Z.pow_0_r. split; [|intros _]; exists (u_one (length a));
          repeat split; auto using wf_u_one, length_u_one; rewrite val_u_one by lia;
          rewrite ?Z.mod_small; lia.
      * rewrite prim_from_checked_u_spec by (auto; lia). cbn [bind unwrap]. split.
        -- destruct (u_product_release a (Z.to_nat (val 8 b)) (length a)) as (c & E & W & L & V); auto; try lia.
           rewrite Z2Nat.id in V by lia. exists c. auto.
        -- intros Hf. destruct (u_product_fits true a (Z.to_nat (val 8 b)) (length a)) as (c & E & W & L & V);
             auto; try lia; rewrite ?Z2Nat.id in * by lia; auto.
           exists c. auto.
Qed.
Print Assumptions C33_pow_partial.

(** With more than eight bytes every power not decided by a special case panics, in both
    builds and however small the operands. *)
Theorem C33_pow_wide_panics : forall dbg a b, wf 8 a -> wf 8 b -> (8 < length a)%nat ->
  length b = length a -> 1 < val 8 a -> 0 < val 8 b -> u_pow dbg a b = Panic.
Proof.
  intros dbg a b Ha Hb Hl Hlb H1 H0. unfold u_pow. rewrite !u_is_zero_spec by auto.
  rewrite (proj2 (Z.eqb_neq _ _)) by lia. rewrite u_is_one_spec by (auto; lia). cbn [bind].
  rewrite (proj2 (Z.eqb_neq _ _)) by lia. rewrite (proj2 (Z.eqb_neq _ _)) by lia.
  rewrite prim_from_checked_u_panic by lia. reflexivity.
Qed.
Print Assumptions C33_pow_wide_panics.

Theorem C33_pow_refuted : exists a b, wf 8 a /\ wf 8 b /\ length b = length a /\
  u_pow false a b = Ok [0] /\ (val 8 a ^ val 8 b) mod cap 8 (length a) = 1.
Proof. exists [0], [0]. split; [wf_tac|]. split; [wf_tac|]. repeat split; reflexivity. Qed.
Print Assumptions C33_pow_refuted.

Example C33_example : wf 8 [7; 0] /\ wf 8 [5; 0] /\ (0 < length [7; 0] <= 8)%nat /\
  val 8 [7; 0] ^ val 8 [5; 0] < cap 8 2 /\
  u_pow true [7; 0] [5; 0] = Ok [167; 65] /\ u_pow false [7; 0] [6; 0] = Ok [145; 203].
Proof. split; [wf_tac|]. split; [wf_tac|]. split; [cbn; lia|]. repeat split; reflexivity. Qed.

(** ** C34 *)

Theorem C34_casts_partial : forall size a, wf 8 a -> (length a <= size)%nat ->
  prim_from_checked_u size a = Ok (Some (val 8 a)) /\
  prim_saturate_u size a = Ok (val 8 a) /\ prim_truncate_u size a = Ok (val 8 a) /\
  val 8 a < 2 ^ (8 * Z.of_nat size).
Proof.
  intros size a Ha Hl. unfold prim_saturate_u. rewrite prim_from_checked_u_spec, prim_truncate_u_spec by auto.
  repeat split; auto. pose proof (val_bound 8 a Ha). pose proof (cap_mono 8 (length a) size Hl).
  unfold cap in *. lia.
Qed.
Print Assumptions C34_casts_partial.

(** A wider [U] cannot be converted at all: every value panics. *)
Theorem C34_casts_wide_panic : forall size a, (size < length a)%nat ->
  prim_from_checked_u size a = Panic /\ prim_saturate_u size a = Panic /\ prim_truncate_u size a = Panic.
Proof.
  intros size a H. unfold prim_saturate_u.
  rewrite prim_from_checked_u_panic, prim_truncate_u_panic by auto. auto.
Qed.
Print Assumptions C34_casts_wide_panic.

(** Into [U<N>]: exact at the same width, silently reduced into a narrower [U], a panic into
    a wider one. *)
Theorem C34_from_prim_partial : forall size n v, 0 <= v < 2 ^ (8 * Z.of_nat size) ->
  ((n <= size)%nat -> exists c, u_from_checked size n v = Ok (Some c) /\ wf 8 c /\ length c = n /\
     val 8 c = v mod cap 8 n /\ (v < cap 8 n -> val 8 c = v)) /\
  ((size < n)%nat -> u_from_checked size n v = Panic).
Proof.
  intros size n v Hv. split; [|apply u_from_checked_panic].
  intros H. exists (le_bytes n v). split.
  { destruct (Nat.eq_dec n size) as [->|]; [apply u_from_checked_same|apply u_from_checked_narrow; lia]. }
  split; [apply wf_le_bytes|]. split; [apply length_le_bytes|]. rewrite val_le_bytes.
  split; auto. intros. apply Z.mod_small. unfold cap in *. lia.
Qed.
Print Assumptions C34_from_prim_partial.

Theorem C34_casts_refuted :
  (exists size a, wf 8 a /\ 0 <= val 8 a < 2 ^ (8 * Z.of_nat size) /\
     prim_from_checked_u size a = Panic /\ prim_truncate_u size a = Panic) /\
  (exists size n v, 0 <= v < 2 ^ (8 * Z.of_nat size) /\ cap 8 n <= v /\
     u_from_checked size n v = Ok (Some [0])) /\
  (exists size n v, 0 <= v < 2 ^ (8 * Z.of_nat size) /\ v < cap 8 n /\ u_from_checked size n v = Panic).
Proof.
  split; [|split].
  - exists 1%nat, [5; 0]. split; [wf_tac|]. repeat split; first [reflexivity|cbn; lia].
  - exists 2%nat, 1%nat, 256. repeat split; first [reflexivity|cbn; lia].
  - exists 1%nat, 2%nat, 7. repeat split; first [reflexivity|cbn; lia].
Qed.
Print Assumptions C34_casts_refuted.

Example C34_example : wf 8 [44; 1] /\ (length [44; 1] <= 4)%nat /\
  prim_from_checked_u 4 [44; 1] = Ok (Some 300) /\ u_from_checked 4 2 300 = Ok (Some [44; 1]).
Proof. split; [wf_tac|]. split; [cbn; lia|]. repeat split; reflexivity. Qed.

(** ** C35 *)

(** [fuel] bounds the number of digits; any bound above the value is enough. *)
Theorem C35_display_partial : forall dbg fuel a, wf 8 a -> length a = 1%nat -> val 8 a < Z.of_nat fuel ->
  exists s, u_display fuel dbg a = Ok s /\ is_numeral 10 (val 8 a) s.
Proof. exact u_display_one. Qed.
Print Assumptions C35_display_partial.

(** With two to eight bytes only zero can be printed; with more nothing can. *)
Theorem C35_display_wide : forall dbg fuel a, wf 8 a -> (2 <= length a)%nat ->
  u_display (S fuel) dbg a = if (length a <=? 8)%nat && (val 8 a =? 0) then Ok [48] else Panic.
Proof.
  intros dbg fuel a Ha Hl. destruct (Nat.leb_spec (length a) 8) as [H|H]; cbn [andb].
  - destruct (Z.eqb_spec (val 8 a) 0) as [E|N].
    + apply u_display_zero; auto.
    + apply u_display_panics; auto.
  - apply u_display_panics; auto. lia.
Qed.
Print Assumptions C35_display_wide.

Theorem C35_display_refuted : exists a, wf 8 a /\ val 8 a = 5 /\
  forall dbg fuel, u_display (S fuel) dbg a = Panic.
Proof.
  exists [5; 0]. split; [wf_tac|]. split; [reflexivity|]. intros. rewrite C35_display_wide; auto. wf_tac.
Qed.
Print Assumptions C35_display_refuted.

Example C35_example : wf 8 [207] /\ u_display 300 true [207] = Ok [50; 48; 55].
Proof. split; [wf_tac|reflexivity]. Qed.
