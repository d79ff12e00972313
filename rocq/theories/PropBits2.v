(** C01 continued (length of a bitwise sum) and C124 (bitwise addition in place). *)
From Coq Require Import ZArith List Bool Lia.
From Verif Require Import Base Words Spec Arith BitSliceModel BitSliceProofs ElementModel BitwiseModel BitwiseProofs.
Import ListNotations.
Local Open Scope Z_scope.

Lemma bit_add_lengths w l r : (0 < w)%nat -> wf w l -> wf w r ->
  let len := Nat.max (length l) (length r) in let out := bit_add w l r in
  length out = len \/ (length out = S len /\ cap w len <= val w out).
Proof.
  intros Hw Hl Hr len out0. unfold out0, bit_add. fold len. clear out0.
  set (bl := Nat.max (bit_len w l) (bit_len w r)).
  assert (bl = len * w)%nat as Ebl by (unfold bl, len, bit_len; nia).
  assert (cap w len = 2 ^ Z.of_nat bl) as Ecap by (rewrite cap_bits, Ebl; auto).
  match goal with |- length (fst ?t) = _ \/ _ => assert (
    let '(out, _) := t in wf w out /\ ((bl + 1 <= bl)%nat -> length out = len) /\
      (length out = len \/ (length out = S len /\ cap w len <= val w out))) as H end.
  { apply (fold_seq0_ind (fun k '(out, _) => wf w out /\ ((k <= bl)%nat -> length out = len) /\
      (length out = len \/ (length out = S len /\ cap w len <= val w out)))).
    - rewrite length_zeros. split; [apply wf_zeros|]. auto.
    - intros k [out c] Hk (W & H1 & H2). destruct (bit_add_step _ _ c) as [[|] c'].
      2: { split; auto. split; auto. intros. apply H1. lia. }
      assert (length out = len) as L by (apply H1; lia).
      destruct (set_bit_push_spec w out k true Hw W) as (A1 & _ & A3 & _).
      split; auto. rewrite set_bit_push_bset, length_bset, length_extend by auto.
      destruct (Nat.eq_dec k bl) as [->|].
      + split; [lia|]. right. rewrite set_bit_push_bset in A3 by auto. rewrite A3.
        rewrite Ebl, Nat.div_mul by lia. split; [lia|]. rewrite <- Ebl.
        pose proof (val_bound w out W) as B. rewrite L, Ecap in B. rewrite testbit_small_nat by auto.
        change (Z.b2z true) with 1. rewrite Ecap. change (Z.b2z false) with 0. lia.
      + assert (k / w < len)%nat by (apply Nat.div_lt_upper_bound; lia). lia. }
  destruct (fold_left _ _ _) as [out c]. cbn [fst]. destruct H as (_ & _ & H). exact H.
Qed.

(** The sum has as many limbs as the longer operand, and one more exactly when it does not fit. *)
Theorem C01_bitwise_add_length : forall w l r, (0 < w)%nat -> wf w l -> wf w r ->
  length (bit_add w l r) = (Nat.max (length l) (length r) +
    if (cap w (Nat.max (length l) (length r)) <=? val w l + val w r)%Z then 1 else 0)%nat.
Proof.
  intros w l r Hw Hl Hr. destruct (bit_add_spec w l r Hw Hl Hr) as [W V].
  destruct (bit_add_lengths w l r Hw Hl Hr) as [E|[E B]]; rewrite <- V.
  - pose proof (val_bound w _ W) as Bd. rewrite E in Bd.
    rewrite (proj2 (Z.leb_gt _ _)) by lia. lia.
  - rewrite (proj2 (Z.leb_le _ _)) by lia. lia.
Qed.
Print Assumptions C01_bitwise_add_length.

Example C01_length_example : length (bit_add 8 [255; 255] [1]) = 3%nat /\ length (bit_add 8 [255; 254] [1]) = 2%nat.
Proof.
  split; rewrite C01_bitwise_add_length by (try lia; repeat constructor; lia); vm_compute; reflexivity.
Qed.

(** ** C124 *)

(** Expected: the low limbs of the sum, in as many limbs as the left operand has. *)
Definition adds_in_place (w : nat) (l r : list Z) : Prop :=
  exists l', bit_add_in_place w l r = Ok l' /\ length l' = length l /\
    val w l' = (val w l + val w r) mod cap w (length l).

Theorem C124_in_place_refuted : exists w l r, (0 < w)%nat /\ wf w l /\ wf w r /\ length l = length r /\
  val w l + val w r < cap w (length l) /\ ~ adds_in_place w l r.
Proof.
  exists 8%nat, [2], [3]. split; [lia|]. split; [repeat constructor; lia|]. split; [repeat constructor; lia|].
  split; [reflexivity|]. split; [vm_compute; reflexivity|].
  intros (l' & E & _). vm_compute in E. discriminate E.
Qed.
Print Assumptions C124_in_place_refuted.

(** What it does instead: it panics for all operands, whatever their lengths, because its loop
    runs one bit past the end. *)
Theorem C124_always_panics_partial : forall w l r, (0 < w)%nat -> wf w l -> wf w r ->
  bit_add_in_place w l r = Panic.
Proof. exact bit_add_in_place_panics. Qed.
Print Assumptions C124_always_panics_partial.

Example C124_demo : bit_add_in_place 8 [2; 0] [3] = Panic /\ bit_add_in_place 8 [] [] = Panic.
Proof. split; apply C124_always_panics_partial; try lia; repeat constructor; lia. Qed.

(** ** Empty slices and arrays (C10, C12, C23) *)

Lemma masked_empty rhs : masked_amount true 0 rhs = Panic /\
  (Z.of_nat rhs < 2 ^ 63 -> masked_amount false 0 rhs = Ok rhs).
Proof.
  split; [reflexivity|]. intros H. unfold masked_amount.
  cbn [Nat.eqb andb]. rewrite andb_false_r. change (Z.shiftr (2 ^ 64 - 1) ((64 + 1) mod 64)) with (Z.ones 63).
  rewrite Z.land_ones, Z.mod_small, Nat2Z.id by lia. reflexivity.
Qed.

(** The wrapping shifts of an empty slice panic with overflow checks; without them they still panic
    for amounts of a limb or more. *)
Theorem C10_empty_partial : forall w s, (0 < w)%nat ->
  elem_shl_wrapping true w [] s = Panic /\
  (Z.of_nat s < 2 ^ 63 -> elem_shl_wrapping false w [] s = if (s <? w)%nat then Ok [] else Panic).
Proof.
  intros w s Hw. unfold elem_shl_wrapping, bit_len. cbn [length]. rewrite Nat.mul_0_l || rewrite Nat.mul_0_r.
  destruct (masked_empty s) as [E1 E2]. rewrite E1. split; [reflexivity|]. intros H. rewrite E2 by auto.
  cbn [bind]. unfold inner_shl, fill_prefix, arr_shift. cbn [length seq rev fold_left].
  rewrite Nat.add_sub. destruct (Nat.ltb_spec s w) as [L|L].
  - rewrite Nat.div_small by auto. reflexivity.
  - assert (1 <= s / w)%nat by (apply Nat.div_le_lower_bound; lia).
    rewrite (proj2 (Nat.leb_gt _ _)) by lia. reflexivity.
Qed.
Print Assumptions C10_empty_partial.

Theorem C12_empty_partial : forall w s, (0 < w)%nat ->
  elem_shr_wrapping true w [] s = Panic /\
  (Z.of_nat s < 2 ^ 63 -> elem_shr_wrapping false w [] s = if (s <? w)%nat then Ok [] else Panic).
Proof.
  intros w s Hw. unfold elem_shr_wrapping, bit_len. cbn [length]. rewrite Nat.mul_0_l || rewrite Nat.mul_0_r.
  destruct (masked_empty s) as [E1 E2]. rewrite E1. split; [reflexivity|]. intros H. rewrite E2 by auto.
  cbn [bind]. unfold inner_shr, arr_shift. cbn [length seq fold_left].
  rewrite andb_false_r. destruct (Nat.ltb_spec s w) as [L|L].
  - rewrite Nat.div_small by auto. reflexivity.
  - assert (1 <= s / w)%nat by (apply Nat.div_le_lower_bound; lia).
    rewrite (proj2 (Nat.ltb_lt _ _)) by lia. reflexivity.
Qed.
Print Assumptions C12_empty_partial.

(** Arrays without limbs: rejected, except that a release build accepts values of more than a limb. *)
Theorem C23_no_limbs : forall w v,
  int_to_arr true w 0 v = Panic /\ int_to_arr false w 0 v = if v <? 2 ^ Z.of_nat w then Panic else Ok [].
Proof. intros w v. split; reflexivity. Qed.
Print Assumptions C23_no_limbs.

(** The empty slice has no shortest non-empty form, and dividing two empty slices limb by limb indexes past the end. *)
Theorem C20_empty : shrink [] = Panic.
Proof. reflexivity. Qed.
Print Assumptions C20_empty.
Theorem C17_element_div_empty_partial : forall dbg fuel w, elem_div_long dbg fuel w [] [] = Panic.
Proof. reflexivity. Qed.
Print Assumptions C17_element_div_empty_partial.

Example C10_empty_demo : elem_shl_wrapping false 8 [] 8 = Panic /\ elem_shr_wrapping false 8 [] 7 = Ok [] /\
  int_to_arr false 8 0 300 = Ok [].
Proof. vm_compute. auto. Qed.
