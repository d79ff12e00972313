(** Properties C01-C24: crates/bits and widening multiplication.
    Vocabulary of the statements: [val w l] is the number a little-endian list of [w]-bit
    limbs denotes, [wf w l] says every limb is a [w]-bit word, [cap w n = 2^(w*n)],
    [canonical] excludes leading zero limbs (Spec.v). *)
From Coq Require Import ZArith List Bool Lia.
From Verif Require Import Base Words Spec Arith BitSliceModel BitSliceProofs ElementModel
  BitwiseModel ElemAddSub ElemMul ElemShift BitwiseProofs.
Import ListNotations.
Local Open Scope Z_scope.

Ltac wf_tac := repeat constructor; cbn; lia.

(** ** C01 *)

Theorem C01_element_add_exact : forall w l r, (0 < w)%nat -> wf w l -> wf w r ->
  exists out, elem_add w l r = Ok out /\ wf w out /\ canonical out /\
    val w out = val w l + val w r.
Proof. exact elem_add_spec. Qed.
Print Assumptions C01_element_add_exact.

Theorem C01_bitwise_add_exact : forall w l r, (0 < w)%nat -> wf w l -> wf w r ->
  wf w (bit_add w l r) /\ val w (bit_add w l r) = val w l + val w r.
Proof. exact bit_add_spec. Qed.
Print Assumptions C01_bitwise_add_exact.

Example C01_example : (0 < 8)%nat /\ wf 8 [255; 255] /\ wf 8 [1] /\
  elem_add 8 [255; 255] [1] = Ok [0; 0; 1] /\ bit_add 8 [255; 255] [1] = [0; 0; 1].
Proof. split; [lia|]. split; [wf_tac|]. split; [wf_tac|]. split; reflexivity. Qed.

(** ** C02 *)

Theorem C02_add_overflowing : forall w l r, (0 < w)%nat -> wf w l -> wf w r ->
  (length r <= length l)%nat ->
  exists out c, elem_add_overflowing w l r = (out, c) /\
    length out = length l /\ wf w out /\
    val w out = (val w l + val w r) mod cap w (length l) /\
    (c = true <-> cap w (length l) <= val w l + val w r) /\
    elem_add_wrapping w l r = out /\
    (elem_add_checked w l r = None <-> cap w (length l) <= val w l + val w r) /\
    (forall x, elem_add_checked w l r = Some x -> x = out).
Proof.
  intros w l r Hw Hl Hr Hlen. pose proof (elem_add_overflowing_spec w l r Hw Hl Hr Hlen) as H.
  unfold elem_add_wrapping, elem_add_checked.
  destruct (elem_add_overflowing w l r) as [out c]. destruct H as (H1 & H2 & H3 & H4).
  exists out, c. rewrite <- H4. repeat split; auto; destruct c; intros; congruence.
Qed.
Print Assumptions C02_add_overflowing.

(** With a longer right operand the high limbs and their carries are computed but dropped:
    the flag is about the longer length. *)
Theorem C02_add_overflowing_longer : forall w l r, (0 < w)%nat -> wf w l -> wf w r ->
  let n := Nat.max (length l) (length r) in
  exists out c, elem_add_overflowing w l r = (out, c) /\
    val w out = (val w l + val w r) mod cap w (length l) /\
    (c = true <-> cap w n <= val w l + val w r).
Proof.
  intros w l r Hw Hl Hr n. pose proof (elem_add_overflowing_digits w l r Hw Hl Hr) as H.
  destruct (elem_add_overflowing w l r) as [out c].
  destruct H as (H1 & H2 & full & Hf1 & Hf2 & -> & Hv). fold n in Hf1, Hv.
  eexists _, _. split; [reflexivity|].
  pose proof (val_bound w full Hf2) as HB. rewrite Hf1 in HB. split.
  - rewrite val_firstn by (auto; lia). rewrite <- Hv.
    replace n with (length l + (n - length l))%nat by lia. rewrite cap_add.
    rewrite Z.mul_assoc, (Z.mul_comm _ (cap w (length l))), <- Z.mul_assoc.
    rewrite (Z.mul_comm (cap w (length l))), Z_mod_plus_full. auto.
  - destruct c; simpl Z.b2z in Hv; split; intros; try lia; congruence.
Qed.
Print Assumptions C02_add_overflowing_longer.

Example C02_example : wf 8 [255; 255] /\ wf 8 [2] /\ (length [2] <= length [255; 255])%nat /\
  elem_add_overflowing 8 [255; 255] [2] = ([1; 0], true) /\
  elem_add_overflowing 8 [255] [1; 0] = ([0], false).
Proof. split; [wf_tac|]. split; [wf_tac|]. split; [cbn; lia|]. split; reflexivity. Qed.

(** ** C03 *)

(** Both subtractions report the sign; on a borrow the magnitude is 2 too small whenever the
    true difference is even. *)
Theorem C03_sub_partial : forall w l r, (0 < w)%nat -> wf w l -> wf w r ->
  (0 < Nat.max (length l) (length r))%nat ->
  let d := val w r - val w l in
  let m := if d <=? 0 then - d else if Z.odd d then d else d - 2 in
  (exists out, elem_sub w l r = Ok (out, val w l <? val w r) /\ wf w out /\ canonical out /\
     val w out = m) /\
  (exists out, bit_sub w l r = Ok (out, val w l <? val w r) /\ wf w out /\ val w out = m).
Proof.
  intros w l r Hw Hl Hr Hn. cbv zeta.
  assert (sub_magnitude (val w l) (val w r) = if val w r - val w l <=? 0 then - (val w r - val w l)
    else if Z.odd (val w r - val w l) then val w r - val w l else val w r - val w l - 2) as E.
  { unfold sub_magnitude. destruct (Z.leb_spec (val w r) (val w l)), (Z.leb_spec (val w r - val w l) 0);
      auto; lia. }
  rewrite <- E. split.
  - apply elem_sub_spec; auto.
  - destruct (bit_sub_spec w l r Hw Hl Hr) as (o & H1 & H2 & _ & H3). eauto.
Qed.
Print Assumptions C03_sub_partial.

Theorem C03_sub_refuted : exists l r, wf 8 l /\ wf 8 r /\
  elem_sub 8 l r = Ok ([0], true) /\ bit_sub 8 l r = Ok ([0], true) /\
  Z.abs (val 8 l - val 8 r) = 2.
Proof. exists [0], [2]. split; [wf_tac|]. split; [wf_tac|]. repeat split; reflexivity. Qed.
Print Assumptions C03_sub_refuted.

Example C03_example : wf 8 [0; 1] /\ wf 8 [3] /\ elem_sub 8 [0; 1] [3] = Ok ([253], false) /\
  elem_sub 8 [3] [0; 1] = Ok ([253], true).
Proof. split; [wf_tac|]. split; [wf_tac|]. split; reflexivity. Qed.

(** ** C04 *)

Theorem C04_sub_overflowing : forall w l r, (0 < w)%nat -> wf w l -> wf w r ->
  (length r <= length l)%nat ->
  exists out c, elem_sub_overflowing w l r = (out, c) /\
    length out = length l /\ wf w out /\
    val w out = (val w l - val w r) mod cap w (length l) /\
    (c = true <-> val w l < val w r) /\
    elem_sub_wrapping w l r = out /\
    (elem_sub_checked w l r = None <-> val w l < val w r) /\
    (forall x, elem_sub_checked w l r = Some x -> x = out).
Proof.
  intros w l r Hw Hl Hr Hlen. pose proof (elem_sub_overflowing_spec w l r Hw Hl Hr Hlen) as H.
  unfold elem_sub_wrapping, elem_sub_checked.
  destruct (elem_sub_overflowing w l r) as [out c]. destruct H as (H1 & H2 & H3 & H4).
  exists out, c. rewrite <- H4. repeat split; auto; destruct c; intros; congruence.
Qed.
Print Assumptions C04_sub_overflowing.

Example C04_example : wf 8 [0; 1] /\ wf 8 [1] /\ (length [1] <= length [0; 1])%nat /\
  elem_sub_overflowing 8 [0; 1] [1] = ([255; 0], false) /\
  elem_sub_overflowing 8 [0; 0] [1] = ([255; 255], true).
Proof. split; [wf_tac|]. split; [wf_tac|]. split; [cbn; lia|]. split; reflexivity. Qed.

(** ** C05 *)

Theorem C05_mul_exact : forall w l r, (0 < w)%nat -> wf w l -> wf w r ->
  (0 < length l + length r)%nat ->
  (exists out, elem_mul w l r = Ok out /\ wf w out /\ canonical out /\
     val w out = val w l * val w r) /\
  (exists out, bit_mul w l r = Ok out /\ wf w out /\ val w out = val w l * val w r).
Proof.
  intros w l r Hw Hl Hr Hn. split; [apply elem_mul_spec; auto|apply bit_mul_spec; auto].
Qed.
Print Assumptions C05_mul_exact.

Example C05_example : wf 8 [255; 255] /\ wf 8 [255] /\
  elem_mul 8 [255; 255] [255] = Ok [1; 255; 254] /\
  rmap (val 8) (bit_mul 8 [255; 255] [255]) = Ok (65535 * 255).
Proof. split; [wf_tac|]. split; [wf_tac|]. split; reflexivity. Qed.

(** ** C06 *)

Theorem C06_mul_wrapping : forall w l r, (0 < w)%nat -> wf w l -> wf w r ->
  exists out, elem_mul_wrapping w l r = out /\ fst (elem_mul_overflowing w l r) = out /\
    length out = length l /\ wf w out /\
    val w out = (val w l * val w r) mod cap w (length l).
Proof.
  intros w l r Hw Hl Hr. pose proof (elem_mul_overflowing_spec w l r Hw Hl Hr) as H.
  unfold elem_mul_wrapping. destruct (elem_mul_overflowing w l r) as [out ov]. exists out.
  cbn [fst]. tauto.
Qed.
Print Assumptions C06_mul_wrapping.

Example C06_example : wf 8 [255; 200] /\ wf 8 [7; 9; 1] /\
  fst (elem_mul_overflowing 8 [255; 200] [7; 9; 1]) = [249; 117] /\
  (val 8 [255; 200] * val 8 [7; 9; 1]) mod 65536 = val 8 [249; 117].
Proof. split; [wf_tac|]. split; [wf_tac|]. split; reflexivity. Qed.

(** ** C07 *)

(** A reported overflow is real, and so is every [None] of [mul_checked]; a [Some] holds the
    residue.  Missing: the converse, refuted below. *)
Theorem C07_mul_flag_partial : forall w l r, (0 < w)%nat -> wf w l -> wf w r ->
  (snd (elem_mul_overflowing w l r) = true -> cap w (length l) <= val w l * val w r) /\
  (elem_mul_checked w l r = None -> cap w (length l) <= val w l * val w r) /\
  (val w l * val w r < cap w (length l) ->
   exists out, elem_mul_checked w l r = Some out /\ val w out = val w l * val w r).
Proof.
  intros w l r Hw Hl Hr. pose proof (elem_mul_overflowing_spec w l r Hw Hl Hr) as H.
  unfold elem_mul_checked. destruct (elem_mul_overflowing w l r) as [out ov]. cbn [snd].
  destruct H as (H1 & H2 & H3 & H4). split; auto. split.
  - destruct ov; intros; [auto|discriminate].
  - intros Hlt. destruct ov; [specialize (H4 eq_refl); lia|]. exists out. split; auto.
    rewrite H3. apply Z.mod_small. pose proof (val_nonneg w l Hl). pose proof (val_nonneg w r Hr). nia.
Qed.
Print Assumptions C07_mul_flag_partial.

Theorem C07_mul_flag_refuted : exists l r, wf 8 l /\ wf 8 r /\
  cap 8 (length l) <= val 8 l * val 8 r /\
  elem_mul_overflowing 8 l r = ([0], false) /\ elem_mul_checked 8 l r = Some [0].
Proof. exists [16], [16]. split; [wf_tac|]. split; [wf_tac|]. split; [cbn; lia|]. split; reflexivity. Qed.
Print Assumptions C07_mul_flag_refuted.

Example C07_example : wf 8 [255; 255] /\ wf 8 [255; 255] /\
  snd (elem_mul_overflowing 8 [255; 255] [255; 255]) = true.
Proof. split; [wf_tac|]. split; [wf_tac|]. reflexivity. Qed.

(** ** C08 *)

Theorem C08_shl_exact : forall w l s, (0 < w)%nat -> wf w l ->
  (exists out, elem_shl w l s = Ok out /\ wf w out /\ canonical out /\
     val w out = val w l * 2 ^ Z.of_nat s) /\
  wf w (bit_shl w l s) /\ val w (bit_shl w l s) = val w l * 2 ^ Z.of_nat s.
Proof. intros. split; [apply elem_shl_spec; auto|apply bit_shl_spec; auto]. Qed.
Print Assumptions C08_shl_exact.

Example C08_example : wf 8 [129; 3] /\ elem_shl 8 [129; 3] 21 = Ok [0; 0; 32; 112] /\
  val 8 (bit_shl 8 [129; 3] 21) = val 8 [0; 0; 32; 112].
Proof. split; [wf_tac|]. split; reflexivity. Qed.

(** ** C09 *)

Theorem C09_shl_checked : forall w l s, (0 < w)%nat -> wf w l ->
  ((w * length l < s)%nat -> elem_shl_checked w l s = Ok None) /\
  ((s <= w * length l)%nat -> exists out, elem_shl_checked w l s = Ok (Some out) /\
     length out = length l /\ wf w out /\
     val w out = (val w l * 2 ^ Z.of_nat s) mod cap w (length l)).
Proof.
  intros w l s Hw Hl. unfold elem_shl_checked. split; intros H.
  - rewrite (proj2 (Nat.ltb_lt _ _)); auto. unfold bit_len. lia.
  - rewrite (proj2 (Nat.ltb_ge _ _)) by (unfold bit_len; lia).
    pose proof (inner_shl_spec w s Hw l Hl) as HS.
    rewrite (proj2 (Nat.leb_le _ _)) in HS by (apply div_le_len; auto; unfold bit_len; lia).
    destruct HS as (out & E & HS). rewrite E. exists out. auto.
Qed.
Print Assumptions C09_shl_checked.

Example C09_example : wf 8 [129; 3] /\ elem_shl_checked 8 [129; 3] 9 = Ok (Some [0; 2]) /\
  elem_shl_checked 8 [129; 3] 17 = Ok None /\ elem_shl_checked 8 [129; 3] 16 = Ok (Some [0; 0]).
Proof. split; [wf_tac|]. repeat split; reflexivity. Qed.

(** ** C10 *)

(** The amount is reduced modulo the largest power of two that is at most the bit length. *)
Theorem C10_shl_wrapping_partial : forall dbg w l s, (0 < w)%nat -> wf w l ->
  (2 <= w * length l)%nat -> Z.of_nat (w * length l) < 2 ^ 64 ->
  exists out, elem_shl_wrapping dbg w l s = Ok out /\ length out = length l /\ wf w out /\
    val w out = (val w l * 2 ^ (Z.of_nat s mod 2 ^ Z.log2 (Z.of_nat (w * length l))))
                  mod cap w (length l).
Proof.
  intros dbg w l s Hw Hl H2 H64.
  assert (bit_len w l = w * length l)%nat as Eb by (unfold bit_len; lia).
  destruct (elem_shl_wrapping_spec dbg w l s Hw Hl ltac:(lia) ltac:(lia)) as (out & E & L & W & V).
  exists out. split; auto. split; auto. split; auto. rewrite V, Eb.
  rewrite Zlog2_of_nat by lia. change 2 with (Z.of_nat 2) at 3.
  rewrite <- Nat2Z.inj_pow, <- Nat2Z.inj_mod. auto.
Qed.
Print Assumptions C10_shl_wrapping_partial.

(** The claim itself, for amounts below that power of two. *)
Theorem C10_shl_wrapping_small_partial : forall dbg w l s, (0 < w)%nat -> wf w l ->
  (2 <= w * length l)%nat -> Z.of_nat (w * length l) < 2 ^ 64 ->
  Z.of_nat s < 2 ^ Z.log2 (Z.of_nat (w * length l)) ->
  exists out, elem_shl_wrapping dbg w l s = Ok out /\
    val w out = (val w l * 2 ^ Z.of_nat s) mod cap w (length l).
Proof.
  intros. destruct (C10_shl_wrapping_partial dbg w l s) as (out & E & _ & _ & V); auto.
  exists out. split; auto. rewrite V, (Z.mod_small (Z.of_nat s)); auto. lia.
Qed.
Print Assumptions C10_shl_wrapping_small_partial.

Theorem C10_shl_wrapping_refuted : exists l s, wf 8 l /\ (s < 8 * length l)%nat /\
  elem_shl_wrapping true 8 l s = Ok l /\ elem_shl_wrapping false 8 l s = Ok l /\
  (val 8 l * 2 ^ Z.of_nat s) mod cap 8 (length l) <> val 8 l.
Proof.
  exists [1; 0; 0], 16%nat. split; [wf_tac|]. split; [cbn; lia|].
  split; [reflexivity|]. split; [reflexivity|]. vm_compute. discriminate.
Qed.
Print Assumptions C10_shl_wrapping_refuted.

Example C10_example : wf 8 [129; 3] /\ (2 <= 8 * 2)%nat /\
  Z.of_nat 9 < 2 ^ Z.log2 (Z.of_nat (8 * 2)) /\
  elem_shl_wrapping true 8 [129; 3] 9 = Ok [0; 2].
Proof. split; [wf_tac|]. split; [lia|]. split; [cbn; lia|]. reflexivity. Qed.

(** ** C11 *)

Theorem C11_bitwise_shr_exact : forall w l s, (0 < w)%nat -> wf w l -> (0 < length l)%nat ->
  exists out, bit_shr w l s = Ok out /\ wf w out /\ canonical out /\
    val w out = val w l / 2 ^ Z.of_nat s.
Proof. exact bit_shr_spec. Qed.
Print Assumptions C11_bitwise_shr_exact.

(** Release build: every amount.  Debug build: exact below the limb width, a panic at or
    above it. *)
Theorem C11_element_shr_partial : forall dbg w l s, (0 < w)%nat -> wf w l -> (0 < length l)%nat ->
  if dbg && (w <=? s)%nat then elem_shr dbg w l s = Panic
  else exists out, elem_shr dbg w l s = Ok out /\ wf w out /\ canonical out /\
    val w out = val w l / 2 ^ Z.of_nat s.
Proof.
  intros dbg w l s Hw Hl Hn. destruct dbg; cbn [andb].
  - destruct (Nat.leb_spec w s).
    + apply elem_shr_debug_panic; auto. apply Nat.div_str_pos. lia.
    + apply elem_shr_spec; auto. right. apply Nat.div_small. auto.
  - apply elem_shr_spec; auto.
Qed.
Print Assumptions C11_element_shr_partial.

Theorem C11_element_shr_refuted : exists l s, wf 8 l /\ elem_shr true 8 l s = Panic /\
  elem_shr false 8 l s = Ok [2].
Proof. exists [3; 2], 8%nat. split; [wf_tac|]. split; reflexivity. Qed.
Print Assumptions C11_element_shr_refuted.

Example C11_example : wf 8 [255; 129; 3] /\ elem_shr false 8 [255; 129; 3] 9 = Ok [192; 1] /\
  elem_shr true 8 [255; 129; 3] 3 = Ok [63; 112] /\ bit_shr 8 [255; 129; 3] 9 = Ok [192; 1].
Proof. split; [wf_tac|]. repeat split; reflexivity. Qed.

(** ** C12 *)

(** What the in-place right shift leaves: the quotient, plus the bits of the limb that
    becomes the top one which lie above the shifted-in part. *)
Definition kept_bits (w : nat) (l : list Z) (s : nat) : Z :=
  let t := (length l - 1 - s / w)%nat in
  let hi := 2 ^ Z.of_nat (w - s mod w) in
  (nth t l 0 / hi) * hi * cap w t.

Theorem C12_shr_checked_partial : forall dbg w l s, (0 < w)%nat -> wf w l ->
  (s < w * length l)%nat ->
  exists out, elem_shr_checked dbg w l s = Ok (Some out) /\ length out = length l /\ wf w out /\
    val w out = val w l / 2 ^ Z.of_nat s + kept_bits w l s.
Proof.
  intros dbg w l s Hw Hl Hs. unfold elem_shr_checked.
  assert (bit_len w l = w * length l)%nat as Eb by (unfold bit_len; lia).
  rewrite (proj2 (Nat.ltb_ge _ _)) by lia.
  pose proof (inner_shr_spec w s Hw dbg l Hl) as HS.
  assert (s / w < length l)%nat as Hlt by (apply Nat.div_lt_upper_bound; lia).
  rewrite (proj2 (Nat.leb_le _ _)), (proj2 (Nat.eqb_neq _ _)), andb_false_r in HS by lia.
  cbn [andb negb] in HS. destruct HS as (out & E & L & W & V). rewrite E. exists out.
  split; [reflexivity|]. split; auto. split; auto. rewrite V. f_equal.
  unfold shr_junk, kept_bits. rewrite (proj2 (Nat.ltb_lt _ _)) by auto.
  cbv zeta. rewrite keep_form by (auto; apply wf_zget; auto). reflexivity.
Qed.
Print Assumptions C12_shr_checked_partial.

Theorem C12_shr_wrapping_partial : forall dbg w l s, (0 < w)%nat -> wf w l ->
  (2 <= w * length l)%nat -> Z.of_nat (w * length l) < 2 ^ 64 ->
  let s' := Nat.modulo s (2 ^ Nat.log2 (w * length l)) in
  exists out, elem_shr_wrapping dbg w l s = Ok out /\ length out = length l /\ wf w out /\
    val w out = val w l / 2 ^ Z.of_nat s' + kept_bits w l s'.
Proof.
  intros dbg w l s Hw Hl H2 H64 s'. unfold elem_shr_wrapping.
  assert (bit_len w l = w * length l)%nat as Eb by (unfold bit_len; lia).
  rewrite masked_amount_spec by lia. rewrite Eb. fold s'. cbn [bind].
  pose proof (masked_lt_bl (w * length l) s ltac:(lia)) as Hlt. fold s' in Hlt.
  destruct (C12_shr_checked_partial dbg w l s' Hw Hl Hlt) as (out & E & H).
  unfold elem_shr_checked in E. rewrite (proj2 (Nat.ltb_ge _ _)) in E by lia.
  exists out. split; auto. destruct (inner_shr dbg w l s'); simpl in E; congruence.
Qed.
Print Assumptions C12_shr_wrapping_partial.

(** Domain on which the claim holds as stated. *)
Theorem C12_kept_bits_zero : forall w l s, (0 < w)%nat -> wf w l ->
  (kept_bits w l s = 0 <-> nth (length l - 1 - s / w) l 0 < 2 ^ Z.of_nat (w - s mod w)).
Proof.
  intros w l s Hw Hl. unfold kept_bits. cbv zeta.
  set (t := (length l - 1 - s / w)%nat). pose proof (wf_zget w l t Hl) as Hr.
  change (nth t l 0) with (zget l t). set (hi := 2 ^ Z.of_nat (w - s mod w)).
  assert (0 < hi) by apply pow2_pos. pose proof (cap_pos w t) as Hc. split; intros H1.
  - assert (zget l t / hi = 0) as H0 by nia. apply Z.div_small_iff in H0; lia.
  - rewrite Z.div_small by lia. ring.
Qed.
Print Assumptions C12_kept_bits_zero.

Theorem C12_shr_refuted : exists l s, wf 8 l /\ (s < 8 * length l)%nat /\
  elem_shr_checked true 8 l s = Ok (Some [192]) /\ elem_shr_wrapping false 8 l s = Ok [192] /\
  val 8 l / 2 ^ Z.of_nat s = 64.
Proof. exists [128], 1%nat. split; [wf_tac|]. split; [cbn; lia|]. repeat split; reflexivity. Qed.
Print Assumptions C12_shr_refuted.

(** At the full width the debug build panics. *)
Theorem C12_shr_full_width : forall w l, (0 < w)%nat -> wf w l ->
  elem_shr_checked true w l (w * length l) = Panic /\
  exists out, elem_shr_checked false w l (w * length l) = Ok (Some out) /\ val w out = 0.
Proof.
  intros w l Hw Hl. assert (bit_len w l = w * length l)%nat as Eb by (unfold bit_len; lia).
  assert (w * length l / w = length l)%nat as Ed.
  { rewrite Nat.mul_comm. apply Nat.div_mul. lia. }
  unfold elem_shr_checked. rewrite (proj2 (Nat.ltb_ge _ _)) by lia. split.
  - pose proof (inner_shr_spec w (w * length l) Hw true l Hl) as HS.
    rewrite Ed, Nat.eqb_refl, andb_false_r in HS. rewrite HS. auto.
  - pose proof (inner_shr_spec w (w * length l) Hw false l Hl) as HS.
    rewrite Ed, Nat.leb_refl in HS. cbn [andb negb] in HS.
    destruct HS as (out & E & L & W & V). rewrite E. exists out. split; [reflexivity|].
    rewrite V. unfold shr_junk. rewrite Ed, Nat.ltb_irrefl, Z.add_0_r. apply Z.div_small.
    pose proof (val_cap_bits w l Hl). rewrite Eb in H. auto.
Qed.
Print Assumptions C12_shr_full_width.

Example C12_example : wf 8 [255; 1] /\ (9 < 8 * 2)%nat /\ kept_bits 8 [1; 129] 8 = 0 /\
  elem_shr_checked true 8 [1; 129] 8 = Ok (Some [129; 0]).
Proof. split; [wf_tac|]. split; [lia|]. split; reflexivity. Qed.

(** ** C13 *)

Theorem C13_bitops : forall w l r i, (0 < w)%nat -> wf w l -> wf w r ->
  (wf w (elem_bitand l r) /\ Z.testbit (val w (elem_bitand l r)) (Z.of_nat i) =
     Z.testbit (val w l) (Z.of_nat i) && Z.testbit (val w r) (Z.of_nat i)) /\
  (wf w (elem_bitor l r) /\ Z.testbit (val w (elem_bitor l r)) (Z.of_nat i) =
     Z.testbit (val w l) (Z.of_nat i) || Z.testbit (val w r) (Z.of_nat i)) /\
  (wf w (elem_bitxor l r) /\ Z.testbit (val w (elem_bitxor l r)) (Z.of_nat i) =
     xorb (Z.testbit (val w l) (Z.of_nat i)) (Z.testbit (val w r) (Z.of_nat i))).
Proof.
  intros w l r i Hw Hl Hr.
  destruct (elem_bitop_testbit w Z.land andb l r Hw Hl Hr) as [A1 A2];
    [intros; apply land_range; auto|intros; apply Z.land_spec|reflexivity|].
  destruct (elem_bitop_testbit w Z.lor orb l r Hw Hl Hr) as [B1 B2];
    [intros; apply lor_range; auto|intros; apply Z.lor_spec|reflexivity|].
  destruct (elem_bitop_testbit w Z.lxor xorb l r Hw Hl Hr) as [C1 C2];
    [intros; apply lxor_range; auto|intros; apply Z.lxor_spec|reflexivity|].
  unfold elem_bitand, elem_bitor, elem_bitxor. auto 10.
Qed.
Print Assumptions C13_bitops.

Theorem C13_not : forall w l, wf w l ->
  length (elem_not w l) = length l /\ wf w (elem_not w l) /\
  val w (elem_not w l) = cap w (length l) - 1 - val w l.
Proof. intros. auto using length_elem_not, wf_elem_not, val_elem_not. Qed.
Print Assumptions C13_not.

Example C13_example : wf 8 [170; 1] /\ wf 8 [204] /\ elem_bitand [170; 1] [204] = [136; 0] /\
  elem_bitor [170; 1] [204] = [238; 1] /\ elem_bitxor [170; 1] [204] = [102; 1] /\
  elem_not 8 [170; 1] = [85; 254].
Proof. split; [wf_tac|]. split; [wf_tac|]. repeat split; reflexivity. Qed.

(** ** C14 *)

(** Numeric order when the operands differ in at most one limb (in particular one-limb
    operands).  Missing: operands differing in several limbs, refuted below. *)
Theorem C14_cmp_partial : forall w l r i, wf w l -> wf w r ->
  (forall j, j <> i -> nth j l 0 = nth j r 0) ->
  elem_cmp l r = Z.compare (val w l) (val w r).
Proof. exact elem_cmp_one_limb. Qed.
Print Assumptions C14_cmp_partial.

Theorem C14_cmp_small_partial : forall w l r, wf w l -> wf w r ->
  val w l < 2 ^ Z.of_nat w -> val w r < 2 ^ Z.of_nat w ->
  elem_cmp l r = Z.compare (val w l) (val w r).
Proof. exact elem_cmp_small. Qed.
Print Assumptions C14_cmp_small_partial.

(** What is really computed: the order of the least significant differing limb. *)
Theorem C14_cmp_exact_partial : forall l r,
  (elem_cmp l r = Lt <-> exists i, nth i l 0 < nth i r 0 /\
     forall j, (j < i)%nat -> nth j l 0 = nth j r 0).
Proof. exact elem_cmp_lt_iff. Qed.
Print Assumptions C14_cmp_exact_partial.

Theorem C14_cmp_refuted : exists l r, wf 8 l /\ wf 8 r /\ length l = length r /\
  val 8 l < val 8 r /\ elem_cmp l r = Gt.
Proof. exists [1; 0], [0; 1]. split; [wf_tac|]. split; [wf_tac|]. repeat split; reflexivity. Qed.
Print Assumptions C14_cmp_refuted.

Example C14_example : wf 8 [7; 3] /\ wf 8 [7; 5] /\
  (forall j, j <> 1%nat -> nth j [7; 3] 0 = nth j [7; 5] 0) /\ elem_cmp [7; 3] [7; 5] = Lt.
Proof.
  split; [wf_tac|]. split; [wf_tac|]. split; [|reflexivity].
  intros [|[|[|j]]] H; try reflexivity. congruence.
Qed.

(** ** C15 *)

Theorem C15_cmp_total_order : forall w l r s, wf w l -> wf w r -> wf w s ->
  (elem_cmp l r = Eq <-> val w l = val w r) /\
  elem_cmp r l = CompOpp (elem_cmp l r) /\
  (elem_cmp l r = Lt -> elem_cmp r s = Lt -> elem_cmp l s = Lt) /\
  (elem_cmp l r = Eq -> elem_cmp l s = elem_cmp r s).
Proof.
  intros w l r s Hl Hr Hs. split; [apply elem_cmp_eq; auto|]. split; [apply elem_cmp_antisym|].
  split.
  - rewrite !elem_cmp_lt_iff. apply low_first_trans.
  - intros H. apply (elem_cmp_eq w) in H; auto.
    assert (forall i, zget l i = zget r i) as Hz by (apply (zget_val_eq w); auto).
    destruct (elem_cmp r s) eqn:E.
    + apply (elem_cmp_eq w); auto. apply (elem_cmp_eq w) in E; auto. congruence.
    + apply elem_cmp_lt_iff. apply elem_cmp_lt_iff in E. destruct E as (i & H1 & H2).
      exists i. rewrite Hz. split; auto. intros. rewrite Hz. auto.
    + apply elem_cmp_gt_iff. apply elem_cmp_gt_iff in E. destruct E as (i & H1 & H2).
      exists i. rewrite Hz. split; auto. intros. rewrite Hz. auto.
Qed.
Print Assumptions C15_cmp_total_order.

Example C15_example : wf 8 [5] /\ wf 8 [5; 0] /\ wf 8 [6] /\
  elem_cmp [5] [5; 0] = Eq /\ elem_cmp [5; 0] [6] = Lt.
Proof. split; [wf_tac|]. split; [wf_tac|]. split; [wf_tac|]. split; reflexivity. Qed.

(** ** C16 *)

(** Domain: the divisor has no more limbs than the dividend, it is below 2^w, and either it
    is at most 2^(w-1) or the dividend is also below 2^w. *)
Theorem C16_bitwise_div_partial : forall dbg w n d, (2 <= w)%nat -> wf w n -> wf w d ->
  (0 < length n)%nat -> (length d <= length n)%nat -> Z.of_nat (w * length n) < 2 ^ 64 ->
  0 < val w d < 2 ^ Z.of_nat w ->
  2 * val w d <= 2 ^ Z.of_nat w \/ val w n < 2 ^ Z.of_nat w ->
  exists q r, bit_div_long dbg w n d = Ok (q, r) /\ wf w q /\ wf w r /\
    val w n = val w q * val w d + val w r /\ 0 <= val w r < val w d.
Proof.
  intros dbg w n d Hw Hn Hd Hlen Hld H64 Hpos Hok.
  destruct (bit_div_long_spec dbg w n d Hw Hn Hd Hlen Hld) as (q & r & E & W1 & W2 & _ & _ & V1 & V2).
  - unfold bit_len. rewrite Nat.mul_comm. auto.
  - split; auto.
  - exists q, r. split; auto. split; auto. split; auto. rewrite V1, V2.
    pose proof (Z.div_mod (val w n) (val w d) ltac:(lia)).
    pose proof (Z.mod_pos_bound (val w n) (val w d) ltac:(lia)). lia.
Qed.
Print Assumptions C16_bitwise_div_partial.

Theorem C16_bitwise_div_zero : forall dbg w n d, (2 <= w)%nat -> wf w n -> wf w d ->
  (0 < length n)%nat -> (length d <= length n)%nat -> Z.of_nat (w * length n) < 2 ^ 64 ->
  val w d = 0 ->
  exists q r, bit_div_long dbg w n d = Ok (q, r) /\
    val w q = cap w (length n) - 1 /\ val w r = val w n.
Proof.
  intros dbg w n d Hw Hn Hd Hlen Hld H64 H0.
  destruct (bit_div_long_zero dbg w n d Hw Hn Hd Hlen Hld) as (q & r & E & _ & _ & _ & _ & V1 & V2); auto.
  - unfold bit_len. rewrite Nat.mul_comm. auto.
  - eauto.
Qed.
Print Assumptions C16_bitwise_div_zero.

Theorem C16_bitwise_div_longer_panics : forall dbg w n d, (2 <= w)%nat -> wf w n -> wf w d ->
  (length n < length d)%nat -> Z.of_nat (w * length d) < 2 ^ 64 -> bit_div_long dbg w n d = Panic.
Proof.
  intros. apply bit_div_long_panics; auto. unfold bit_len. rewrite Nat.mul_comm. auto.
Qed.
Print Assumptions C16_bitwise_div_longer_panics.

Theorem C16_bitwise_div_refuted : exists n d q r, wf 8 n /\ wf 8 d /\ 0 < val 8 d /\
  bit_div_long true 8 n d = Ok (q, r) /\ val 8 n <> val 8 q * val 8 d + val 8 r /\
  val 8 d <= val 8 r.
Proof.
  exists [0; 2], [0; 1], [255; 3], [0; 3]. split; [wf_tac|]. split; [wf_tac|].
  split; [reflexivity|]. split; [reflexivity|]. split; vm_compute; discriminate.
Qed.
Print Assumptions C16_bitwise_div_refuted.

Example C16_example : wf 8 [1; 2; 3] /\ wf 8 [100] /\ 0 < val 8 [100] < 2 ^ 8 /\
  2 * val 8 [100] <= 2 ^ 8 /\
  bit_div_long true 8 [1; 2; 3] [100] = Ok ([179; 7; 0], [21; 0; 0]) /\
  bit_div_long true 8 [200; 0] [199; 0] = Ok ([1; 0], [1; 0]).
Proof.
  split; [wf_tac|]. split; [wf_tac|]. split; [cbn; lia|]. split; [cbn; lia|]. split; reflexivity.
Qed.

(** ** C17 *)

(** One-limb operands: terminates (within [n / d + 1] rounds) with the right answer. *)
Theorem C17_element_div_partial : forall dbg w n d fuel, (2 <= w)%nat -> Z.of_nat w < 2 ^ 64 ->
  0 <= n < 2 ^ Z.of_nat w -> 0 < d < 2 ^ Z.of_nat w -> n / d < Z.of_nat fuel ->
  elem_div_long dbg fuel w [n] [d] = Ok ([n / d], [n mod d]).
Proof. exact elem_div_long_one. Qed.
Print Assumptions C17_element_div_partial.

(** Wrong results and non-termination with non-zero divisors. *)
Theorem C17_element_div_refuted :
  (exists n d q r, wf 8 n /\ wf 8 d /\ 0 < val 8 d /\
     elem_div_long true 1000 8 n d = Ok (q, r) /\ val 8 d <= val 8 r) /\
  (exists n d, wf 8 n /\ wf 8 d /\ 0 < val 8 d /\
     forall dbg fuel, elem_div_long dbg fuel 8 n d = Timeout).
Proof.
  split.
  - exists [5; 3], [2], [2; 1], [1; 1]. split; [wf_tac|]. split; [wf_tac|].
    split; [reflexivity|]. split; [reflexivity|]. vm_compute. discriminate.
  - exists [255; 0], [0; 1]. split; [wf_tac|]. split; [wf_tac|]. split; [reflexivity|].
    exact elem_div_diverges.
Qed.
Print Assumptions C17_element_div_refuted.

Theorem C17_element_div_zero_diverges : forall dbg fuel w n d, (2 <= w)%nat -> wf w n -> wf w d ->
  (0 < length n)%nat -> (length d <= length n)%nat -> Z.of_nat (w * length n) < 2 ^ 64 ->
  val w d = 0 -> elem_div_long dbg fuel w n d = Timeout.
Proof.
  intros. apply elem_div_long_zero; auto. unfold bit_len. rewrite Nat.mul_comm. auto.
Qed.
Print Assumptions C17_element_div_zero_diverges.

Example C17_example : 0 <= 200 < 2 ^ Z.of_nat 8 /\ 0 < 7 < 2 ^ Z.of_nat 8 /\ 200 / 7 < Z.of_nat 29 /\
  elem_div_long true 29 8 [200] [7] = Ok ([28], [4]).
Proof. repeat split; try (cbn; lia). Qed.

(** ** C18 *)

Theorem C18_bit_access : forall w l i v, (0 < w)%nat -> wf w l ->
  ((i < w * length l)%nat ->
     get_bit w l i = Ok (Z.testbit (val w l) (Z.of_nat i)) /\
     get_bit_opt w l i = Some (Z.testbit (val w l) (Z.of_nat i)) /\
     exists l', set_bit w l i v = Ok l' /\ set_bit_opt w l i v = Some l' /\
       set_bit_ignore w l i v = l' /\ length l' = length l /\ wf w l' /\
       val w l' = val w l + (Z.b2z v - Z.b2z (Z.testbit (val w l) (Z.of_nat i))) * 2 ^ Z.of_nat i /\
       (forall j, (j < w * length l)%nat ->
          get_bit w l' j = if Nat.eqb j i then Ok v else get_bit w l j)) /\
  ((w * length l <= i)%nat ->
     get_bit w l i = Panic /\ get_bit_opt w l i = None /\ set_bit w l i v = Panic /\
     set_bit_opt w l i v = None /\ set_bit_ignore w l i v = l).
Proof.
  intros w l i v Hw Hl. assert (bit_len w l = w * length l)%nat as Eb by (unfold bit_len; lia).
  split; intros Hi; rewrite <- Eb in *.
  - split; [apply get_bit_in; auto|]. split; [apply get_bit_opt_in; auto|].
    exists (bset w l i v). split; [apply set_bit_in; auto|]. split; [apply set_bit_opt_in; auto|].
    split; [apply set_bit_ignore_in; auto|]. split; [apply length_bset|].
    split; [apply wf_bset; auto|]. split; [apply val_bset; auto|].
    intros j Hj. rewrite !get_bit_in; auto using wf_bset.
    + rewrite testbit_bset by auto. destruct (Nat.eqb j i); auto.
    + unfold bit_len in *. rewrite length_bset. auto.
  - split; [apply get_bit_out; auto|]. split; [apply get_bit_opt_out; auto|].
    split; [apply set_bit_out; auto|]. split; [apply set_bit_opt_out; auto|].
    apply set_bit_ignore_out; auto.
Qed.
Print Assumptions C18_bit_access.

Example C18_example : wf 8 [255; 1] /\ (10 < 8 * 2)%nat /\ set_bit 8 [255; 1] 10 true = Ok [255; 5] /\
  get_bit 8 [255; 5] 10 = Ok true /\ set_bit 8 [255; 1] 16 true = Panic.
Proof. split; [wf_tac|]. split; [lia|]. repeat split; reflexivity. Qed.

(** ** C19 *)

Theorem C19_set_bit_push : forall w l i v, (0 < w)%nat -> wf w l ->
  let l' := set_bit_push w l i v in
  wf w l' /\ length l' = Nat.max (length l) (i / w + 1) /\
  get_bit w l' i = Ok v /\
  (forall j, Z.testbit (val w l') (Z.of_nat j) =
     if Nat.eqb j i then v else Z.testbit (val w l) (Z.of_nat j)).
Proof.
  intros w l i v Hw Hl l'. destruct (set_bit_push_spec w l i v Hw Hl) as (A & B & C & D).
  fold l' in A, B, C, D. split; auto. split; auto. split; auto.
  rewrite get_bit_in; auto.
  - rewrite D, Nat.eqb_refl. auto.
  - apply idx_div_lt; auto. rewrite B. lia.
Qed.
Print Assumptions C19_set_bit_push.

(** [set_push] stores inside the current length; at or beyond it, the vector only grows to
    length [i] and the value is lost. *)
Theorem C19_set_push_partial : forall l i v,
  (i < length l)%nat ->
  nth_error (set_push l i v) i = Some v /\ length (set_push l i v) = length l /\
  forall j, j <> i -> nth_error (set_push l i v) j = nth_error l j.
Proof.
  intros l i v Hi. rewrite set_push_inside by auto. rewrite length_upd.
  split; [|split; auto].
  - rewrite nth_error_upd, Nat.eqb_refl, (proj2 (Nat.ltb_lt _ _)) by auto. reflexivity.
  - intros j Hj. rewrite nth_error_upd. rewrite (proj2 (Nat.eqb_neq i j)) by auto. reflexivity.
Qed.
Print Assumptions C19_set_push_partial.

Theorem C19_set_push_beyond : forall l i v, (length l <= i)%nat ->
  set_push l i v = l ++ repeat 0 (i - length l) /\ nth_error (set_push l i v) i = None.
Proof.
  intros l i v Hi. rewrite set_push_outside by auto.
  assert (extend l i 0 = l ++ repeat 0 (i - length l)) as ->.
  { unfold extend. destruct (Nat.ltb_spec (length l) i); auto.
    replace (i - length l)%nat with 0%nat by lia. cbn. rewrite app_nil_r. auto. }
  split; auto. apply nth_error_oob. rewrite app_length, repeat_length. lia.
Qed.
Print Assumptions C19_set_push_beyond.

Theorem C19_set_push_refuted : exists l i v, nth_error (set_push l i v) i <> Some v.
Proof. exists [], 0%nat, 7. vm_compute. discriminate. Qed.
Print Assumptions C19_set_push_refuted.

Example C19_example : wf 8 [1] /\ set_bit_push 8 [1] 17 true = [1; 0; 2] /\
  (1 < length [1; 2])%nat /\ set_push [1; 2] 1 9 = [1; 9].
Proof. split; [wf_tac|]. split; [reflexivity|]. split; [cbn; lia|reflexivity]. Qed.

(** ** C20 *)

Theorem C20_shrink : forall w l, wf w l -> l <> [] ->
  exists l', shrink l = Ok l' /\ (exists n, (0 < n <= length l)%nat /\ l' = firstn n l) /\
    wf w l' /\ canonical l' /\ val w l' = val w l.
Proof. exact shrink_spec. Qed.
Print Assumptions C20_shrink.

Theorem C20_shrink_canonical : forall w l1 l2, wf w l1 -> wf w l2 -> l1 <> [] -> l2 <> [] ->
  (shrink l1 = shrink l2 <-> val w l1 = val w l2).
Proof. exact shrink_eq_iff. Qed.
Print Assumptions C20_shrink_canonical.

Example C20_example : wf 8 [0; 7; 0; 0] /\ shrink [0; 7; 0; 0] = Ok [0; 7] /\
  shrink [0; 0] = Ok [0] /\ canonical [0; 7].
Proof.
  split; [wf_tac|]. split; [reflexivity|]. split; [reflexivity|].
  split; [discriminate|]. left. cbn. lia.
Qed.

(** ** C21 *)

Theorem C21_iter_bits : forall w l n, (0 < w)%nat -> wf w l ->
  fst (iter_take w n (iter_bits l)) =
    map (fun i => Z.testbit (val w l) (Z.of_nat i)) (seq 0 (Nat.min n (w * length l))) /\
  ((w * length l <= n)%nat ->
     let it := snd (iter_take w n (iter_bits l)) in iter_next w it = (None, it)).
Proof.
  intros w l n Hw Hl. assert (bit_len w l = w * length l)%nat as Eb by (unfold bit_len; lia).
  split.
  - rewrite iter_take_spec, Eb by auto. auto.
  - intros Hn. cbv zeta. rewrite iter_take_snd, Eb by auto.
    rewrite Nat.min_r by auto. apply iter_next_end; auto. lia.
Qed.
Print Assumptions C21_iter_bits.

Example C21_example : wf 4 [5; 8] /\ fst (iter_take 4 100 (iter_bits [5; 8])) =
  [true; false; true; false; false; false; false; true].
Proof. split; [wf_tac|]. reflexivity. Qed.

(** ** C22 *)

(** After [k] items the reported length is right exactly when [k] is below the limb width or
    the iterator is exhausted. *)
Theorem C22_iter_len_partial : forall dbg w l k, (0 < w)%nat -> wf w l ->
  Z.of_nat (w * length l) < 2 ^ 64 -> (k <= w * length l)%nat ->
  let it := snd (iter_take w k (iter_bits l)) in
  iter_len dbg w it = Ok (Z.of_nat (w * length l - k)) <-> ((k < w)%nat \/ k = (w * length l)%nat).
Proof.
  intros dbg w l k Hw Hl H64 Hk. cbv zeta.
  assert (bit_len w l = w * length l)%nat as Eb by (unfold bit_len; lia).
  rewrite iter_take_snd, Eb, Nat.min_l by auto.
  destruct (Nat.eq_dec k (w * length l)) as [E|E].
  - rewrite iter_len_end by (auto; lia). split; auto. intros _. do 2 f_equal. lia.
  - rewrite iter_len_state, Eb by (auto; lia).
    destruct (Nat.lt_ge_cases k w) as [Hlt|Hge].
    + rewrite (proj2 (Nat.leb_le _ _)) by lia. split; auto. intros _. f_equal.
      rewrite Nat.div_small by auto. lia.
    + split; [|lia]. intros H. exfalso.
      assert (w <= k / w * w <= k)%nat as Hq.
      { pose proof (Nat.mul_div_le k w ltac:(lia)).
        assert (1 <= k / w)%nat by (apply Nat.div_le_lower_bound; lia). nia. }
      destruct (Nat.leb_spec k w).
      * inversion H. lia.
      * destruct dbg; [discriminate|].
        match type of H with Ok ?x = Ok ?y => assert (x = y) as H1 by congruence end. clear H.
        assert (0 <= Z.of_nat (k / w * w) < 2 ^ 64) as Ha by lia.
        set (a := Z.of_nat (k / w * w)) in *. set (B := Z.of_nat (w * length l)) in *.
        replace (Z.of_nat (w * length l - k)) with (B - Z.of_nat k) in H1 by (unfold B; lia).
        assert (a mod 2 ^ 64 = 0) as H3.
        { replace a with ((B - Z.of_nat k) - (B - a - Z.of_nat k)) by ring.
          rewrite Zminus_mod, H1, (Z.mod_small (B - Z.of_nat k)) by (unfold B; lia).
          rewrite Z.sub_diag. reflexivity. }
        rewrite Z.mod_small in H3 by auto. unfold a in H3. lia.
Qed.
Print Assumptions C22_iter_len_partial.

Theorem C22_iter_len_refuted : exists l k, wf 8 l /\ (k <= 8 * length l)%nat /\
  (let it := snd (iter_take 8 k (iter_bits l)) in iter_len true 8 it = Panic /\
     iter_len false 8 it = Ok (2 ^ 64 - 1)) /\
  (8 * length l - k)%nat = 7%nat.
Proof.
  exists [1; 2], 9%nat. split; [wf_tac|]. split; [cbn; lia|]. split; [split; reflexivity|reflexivity].
Qed.
Print Assumptions C22_iter_len_refuted.

Example C22_example : wf 8 [1; 2] /\ (5 < 8)%nat /\
  iter_len true 8 (snd (iter_take 8 5 (iter_bits [1; 2]))) = Ok 11.
Proof. split; [wf_tac|]. split; [lia|reflexivity]. Qed.

(** ** C23 *)

Theorem C23_int_to_arr : forall dbg w n v, (0 < n)%nat -> 0 <= v ->
  exists l, int_to_arr dbg w n v = Ok l /\ length l = n /\ wf w l /\
    val w l = v mod cap w n /\ (v < cap w n -> val w l = v).
Proof.
  intros dbg w n v Hn Hv. destruct (int_to_arr_spec dbg w n v Hn Hv) as (l & E & L & W & V).
  exists l. repeat split; auto. intros. rewrite V. apply Z.mod_small. lia.
Qed.
Print Assumptions C23_int_to_arr.

(** Limb type not wider than the target (its width divides the target's). *)
Theorem C23_arr_to_int : forall dbg w m arr, (0 < w)%nat -> Nat.divide w m -> Z.of_nat m < 2 ^ 32 ->
  wf w arr ->
  arr_to_int dbg w (uty m) arr = Ok (if (length arr * w <=? m)%nat then Some (val w arr) else None).
Proof. exact arr_to_int_u. Qed.
Print Assumptions C23_arr_to_int.

(** Limb type wider than the target. *)
Theorem C23_arr_to_int_narrow : forall dbg w m arr x, (0 < m < w)%nat -> Z.of_nat w < 2 ^ 32 ->
  wf w arr -> arr_to_int dbg w (uty m) arr = Ok (Some x) -> x = val w arr.
Proof.
  intros dbg w m arr x Hm Hw Hwf. rewrite arr_to_int_u_narrow by auto.
  destruct arr as [|y [|z arr]]; intros H.
  - inversion H. reflexivity.
  - destruct (y <? base m); inversion H. subst. rewrite val_cons, val_nil. ring.
  - discriminate.
Qed.
Print Assumptions C23_arr_to_int_narrow.

Example C23_example : int_to_arr true 8 2 70000 = Ok [112; 17] /\ int_to_arr true 8 4 70000 = Ok [112; 17; 1; 0] /\
  wf 8 [112; 17; 1; 0] /\ Nat.divide 8 32 /\ arr_to_int true 8 (uty 32) [112; 17; 1; 0] = Ok (Some 70000) /\
  arr_to_int true 32 (uty 8) [200] = Ok (Some 200).
Proof.
  split; [reflexivity|]. split; [reflexivity|]. split; [wf_tac|]. split; [exists 4%nat; reflexivity|].
  split; reflexivity.
Qed.

(** ** C24 *)

Theorem C24_widening_mul : forall w a b c, 0 <= a < 2 ^ Z.of_nat w -> 0 <= b < 2 ^ Z.of_nat w ->
  0 <= c < 2 ^ Z.of_nat w ->
  exists lo hi, widening_mul w a b c = (lo, hi) /\
    lo + 2 ^ Z.of_nat w * hi = a * b + c /\
    0 <= lo < 2 ^ Z.of_nat w /\ 0 <= hi < 2 ^ Z.of_nat w.
Proof.
  intros w a b c Ha Hb Hc. destruct (widening_mul w a b c) as [lo hi] eqn:E. exists lo, hi.
  split; auto. apply widening_mul_spec in E; auto.
Qed.
Print Assumptions C24_widening_mul.

(** The half-word splitting used for u128 is right at every half width. *)
Theorem C24_widening_split : forall h a b c, let w := (2 * h)%nat in
  0 <= a < 2 ^ Z.of_nat w -> 0 <= b < 2 ^ Z.of_nat w -> 0 <= c < 2 ^ Z.of_nat w ->
  exists lo hi, widening_split h a b c = (lo, hi) /\
    lo + 2 ^ Z.of_nat w * hi = a * b + c /\
    0 <= lo < 2 ^ Z.of_nat w /\ 0 <= hi < 2 ^ Z.of_nat w.
Proof.
  intros h a b c w Ha Hb Hc. destruct (widening_split h a b c) as [lo hi] eqn:E. exists lo, hi.
  split; auto. apply (widening_split_spec h a b c Ha Hb Hc lo hi E).
Qed.
Print Assumptions C24_widening_split.

Example C24_example : let m := 2 ^ 128 - 1 in 0 <= m < 2 ^ Z.of_nat 128 /\
  widening_mul 128 m m m = (0, m).
Proof. split; [cbn; lia|]. vm_compute. reflexivity. Qed.
