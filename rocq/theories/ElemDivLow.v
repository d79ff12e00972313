(** Proofs: when the element-wise long division ends, and what it returns for divisors below one limb. *)
From Coq Require Import ZArith List Bool Lia.
From Verif Require Import Base Words Spec Arith BitSliceModel BitSliceProofs ElementModel
  BitwiseModel ElemAddSub ElemShift BitwiseProofs BitDivMod PropBits ElemDivMod.
Import ListNotations.
Local Open Scope Z_scope.

Lemma low_of_mod w v len : (0 < len)%nat -> (v mod cap w len) mod base w = v mod base w.
Proof.
  intros H. destruct len as [|n]; [lia|]. rewrite cap_S. pose proof (base_pos w). pose proof (cap_pos w n).
  rewrite (Z.rem_mul_r _ (base w) (cap w n)) by lia.
  rewrite (Z.mul_comm (base w)), Z_mod_plus_full, Z.mod_mod by lia. auto.
Qed.

Lemma cmp_low_lt r dv : zget r 0 < zget dv 0 -> is_ge (elem_cmp r dv) = false.
Proof.
  intros H. rewrite (proj2 (elem_cmp_lt_iff r dv)); auto. exists 0%nat. split; [lia|]. intros; lia.
Qed.
Lemma cmp_ge_low w r dv : wf w r -> wf w dv -> is_ge (elem_cmp r dv) = true -> zget dv 0 <= zget r 0.
Proof.
  intros _ _ H. destruct (Z.le_gt_cases (zget dv 0) (zget r 0)) as [|L]; auto. rewrite cmp_low_lt in H; [discriminate|lia].
Qed.

Lemma sub_low w r dv : (0 < w)%nat -> wf w r -> wf w dv -> (length dv <= length r)%nat -> (0 < length r)%nat ->
  zget dv 0 <= zget r 0 -> zget (elem_sub_wrapping w r dv) 0 = zget r 0 - zget dv 0.
Proof.
  intros Hw Hr Hd Hl Hp Hle. destruct (elem_sub_wrapping_mod w r dv Hw Hr Hd Hl) as (S1 & S2 & S3).
  rewrite (zget_0_mod w) by auto. rewrite S3, low_of_mod by auto. rewrite Zminus_mod, <- !zget_0_mod by auto.
  pose proof (wf_zget w r 0 Hr). pose proof (wf_zget w dv 0 Hd). apply Z.mod_small. lia.
Qed.

(** With a non-zero lowest limb in the divisor the loop ends. *)
Lemma elem_div_while_ends w dv one len : (0 < w)%nat -> wf w dv -> wf w one -> (length dv <= len)%nat -> length one = len ->
  (0 < len)%nat -> 0 < zget dv 0 ->
  forall fuel q r, wf w q -> wf w r -> length q = len -> length r = len -> zget r 0 / zget dv 0 <= Z.of_nat fuel ->
  elem_div_while fuel w dv one q r <> Timeout.
Proof.
  intros Hw Hdv Hone Ld Lo Hlen Hpos. induction fuel as [|fuel IH]; intros q r Hq Hr Lq Lr Hf; cbn [elem_div_while];
    destruct (is_ge (elem_cmp r dv)) eqn:Eg; try discriminate.
  - pose proof (cmp_ge_low w r dv Hr Hdv Eg) as L. exfalso.
    pose proof (Z.div_le_lower_bound (zget r 0) (zget dv 0) 1 ltac:(lia) ltac:(lia)). cbn in Hf. lia.
  - pose proof (cmp_ge_low w r dv Hr Hdv Eg) as L.
    destruct (elem_add_wrapping_mod w q one Hw Hq Hone ltac:(lia)) as (A1 & A2 & _).
    destruct (elem_sub_wrapping_mod w r dv Hw Hr Hdv ltac:(lia)) as (S1 & S2 & _).
    apply IH; auto; try lia. rewrite (sub_low w r dv) by (auto; lia).
    replace (zget r 0 - zget dv 0) with (zget r 0 + (-1) * zget dv 0) by ring. rewrite Z.div_add by lia. lia.
Qed.

Lemma elem_div_walk_ends dbg fuel w num dv : (2 <= w)%nat -> wf w num -> wf w dv ->
  (0 < length num)%nat -> (length dv <= length num)%nat -> Z.of_nat (bit_len w num) < 2 ^ 64 ->
  0 < zget dv 0 -> (forall i, zget num i / zget dv 0 <= Z.of_nat fuel) ->
  forall k q r one, (k <= length num)%nat ->
  length q = length num -> length r = length num -> length one = length num ->
  wf w q -> wf w r -> wf w one -> ((2 <= length num)%nat \/ k = 0%nat \/ val w r = 0) ->
  foldR (elem_div_step dbg fuel w num dv) (rev (seq 0 k)) (q, r, one) <> Timeout.
Proof.
  intros Hw Hnum Hdv Hlen Hld H64 Hpos Hf.
  induction k as [|k IH]; intros q r one Hk L1 L2 L3 W1 W2 W3 H2.
  - discriminate.
  - rewrite rev_seq_S. cbn [foldR]. unfold elem_div_step at 1.
    assert (bit_len w r = bit_len w num) as Eb by (unfold bit_len; rewrite L2; auto).
    assert ((2 <= length r)%nat \/ val w r = 0) as H2r by (destruct H2 as [|[|]]; [lia|lia|auto]).
    destruct (div_shift_limb dbg w r (zget num k) Hw W2 ltac:(lia) ltac:(lia) (wf_zget w num k Hnum) H2r) as (r1 & E1 & L & W & V).
    rewrite E1. cbn [bind]. rewrite get_in by lia. cbn [bind]. rewrite set_in by lia. cbn [bind].
    assert (length (upd r1 0 (zget num k)) = length num) as Lr by (rewrite length_upd; lia).
    assert (zget (upd r1 0 (zget num k)) 0 = zget num k) as Z0.
    { destruct r1 as [|y r1]; [cbn in L; lia|]. reflexivity. }
    destruct (elem_div_while_mod w dv one (length num) ltac:(lia) Hdv W3 Hld L3 fuel q _ W1 W L1 Lr)
      as [E|(q' & r' & m & u' & v' & E & X1 & X2 & X3 & X4 & G & Y1 & Y2)].
    { exfalso. apply (elem_div_while_ends w dv one (length num)) in E; auto; try lia. rewrite Z0. auto. }
    rewrite E. cbn [bind].
    assert (w * length num = bit_len w num)%nat as Ebl by (unfold bit_len; lia).
    destruct (C12_shr_wrapping_partial dbg w one w ltac:(lia) W3) as (one' & E2 & L4 & W4 & V4);
      [rewrite L3; nia|rewrite L3, Ebl; auto|].
    rewrite E2. cbn [bind]. apply IH; auto; try lia.
Qed.

Lemma elem_div_ends dbg fuel w num dv : (2 <= w)%nat -> wf w num -> wf w dv ->
  (0 < length num)%nat -> (length dv <= length num)%nat -> Z.of_nat (bit_len w num) < 2 ^ 64 ->
  0 < zget dv 0 -> (forall i, zget num i / zget dv 0 <= Z.of_nat fuel) ->
  elem_div_long dbg fuel w num dv <> Timeout.
Proof.
  intros Hw Hnum Hdv Hlen Hld H64 Hpos Hf. unfold elem_div_long.
  replace (Nat.max (length num) (length dv)) with (length num) by lia.
  destruct (length num) as [|n] eqn:En; [lia|]. rewrite <- En in *.
  intros E.
  destruct (foldR _ _ _) as [[[q r] one]| |] eqn:F; cbn [bind] in E.
  - revert E. unfold shrink. destruct (Nat.leb _ _); cbn [bind]; [destruct (Nat.leb _ _)|]; discriminate.
  - discriminate.
  - revert F. apply elem_div_walk_ends; rewrite ?length_upd, ?length_zeros; auto using wf_zeros.
    + apply wf_upd; [apply wf_zeros|]. pose proof (base_pos w).
      unfold base. change 1 with (2 ^ 0). split; [lia|]. apply Z.pow_lt_mono_r; lia.
    + right. right. apply val_zeros.
Qed.

Lemma zero_below w r dv : wf w r -> wf w dv -> val w r = 0 -> val w dv <> 0 -> is_ge (elem_cmp r dv) = false.
Proof.
  intros Hr Hd H0 Hn. destruct (elem_cmp r dv) eqn:E; auto; exfalso.
  - destruct (C15_cmp_total_order w r dv dv Hr Hd Hd) as (H & _). apply H in E. lia.
  - apply elem_cmp_gt_iff in E. destruct E as (i & L & _). pose proof (wf_zget w dv i Hd).
    assert (zget r i = 0); [|lia].
    rewrite <- (zget_zeros (length r) i). apply (zget_val_eq w); auto using wf_zeros. rewrite val_zeros. auto.
Qed.

(** A zero lowest limb in a non-zero divisor: limbs that are zero pass, any other one never leaves the loop. *)
Lemma elem_div_walk_low dbg fuel w num dv : (2 <= w)%nat -> wf w num -> wf w dv ->
  (0 < length num)%nat -> (length dv <= length num)%nat -> Z.of_nat (bit_len w num) < 2 ^ 64 ->
  zget dv 0 = 0 -> val w dv <> 0 ->
  forall k q r one, (k <= length num)%nat ->
  length q = length num -> length r = length num -> length one = length num ->
  wf w q -> wf w r -> wf w one -> val w r = 0 ->
  if forallb (fun i => zget num i =? 0) (seq 0 k)
  then exists r' one', foldR (elem_div_step dbg fuel w num dv) (rev (seq 0 k)) (q, r, one) = Ok (q, r', one') /\
    length r' = length num /\ wf w r' /\ val w r' = 0
  else foldR (elem_div_step dbg fuel w num dv) (rev (seq 0 k)) (q, r, one) = Timeout.
Proof.
  intros Hw Hnum Hdv Hlen Hld H64 Hz Hnz.
  induction k as [|k IH]; intros q r one Hk L1 L2 L3 W1 W2 W3 V0.
  - cbn. exists r, one. auto.
  - rewrite rev_seq_S. cbn [foldR]. unfold elem_div_step at 1 3.
    replace (seq 0 (S k)) with (seq 0 k ++ [k]) by (rewrite seq_S; reflexivity). rewrite forallb_app. cbn [forallb]. rewrite andb_true_r.
    assert (bit_len w r = bit_len w num) as Eb by (unfold bit_len; rewrite L2; auto).
    destruct (div_shift_limb dbg w r (zget num k) Hw W2 ltac:(lia) ltac:(lia) (wf_zget w num k Hnum) (or_intror V0)) as (r1 & E1 & L & W & V).
    rewrite E1. cbn [bind]. rewrite get_in by lia. cbn [bind]. rewrite set_in by lia. cbn [bind].
    assert (length (upd r1 0 (zget num k)) = length num) as Lr by (rewrite length_upd; lia).
    assert (zget (upd r1 0 (zget num k)) 0 = zget num k) as Z0.
    { destruct r1 as [|y r1]; [cbn in L; lia|]. reflexivity. }
    pose proof (wf_zget w num k Hnum).
    destruct (Z.eqb_spec (zget num k) 0) as [Zk|Zk].
    + assert (val w (upd r1 0 (zget num k)) = 0) as V1.
      { rewrite V, V0, Zk, Z.mul_0_r. apply Z.mod_0_l. pose proof (cap_pos w (length r)). lia. }
      rewrite elem_div_while_stop by (apply (zero_below w); auto). cbn [bind]. rewrite andb_true_r.
      assert (w * length num = bit_len w num)%nat as Ebl by (unfold bit_len; lia).
      destruct (C12_shr_wrapping_partial dbg w one w ltac:(lia) W3) as (one' & E2 & L4 & W4 & V4);
        [rewrite L3; nia|rewrite L3, Ebl; auto|].
      rewrite E2. cbn [bind]. apply IH; auto; try lia.
    + rewrite andb_false_r. rewrite elem_div_while_low; auto; try lia.
Qed.

Lemma all_zero w num : wf w num -> forallb (fun i => zget num i =? 0) (seq 0 (length num)) = (val w num =? 0).
Proof.
  intros H. apply eq_true_iff_eq. rewrite forallb_forall, Z.eqb_eq.
  transitivity (forall i, zget num i = zget (zeros (length num)) i).
  2:{ rewrite (zget_val_eq w) by auto using wf_zeros. rewrite val_zeros. reflexivity. }
  split.
  - intros F i. rewrite zget_zeros. destruct (Nat.lt_ge_cases i (length num)) as [L|L]; [|apply zget_oob; auto].
    apply Z.eqb_eq, F, in_seq. lia.
  - intros F i _. rewrite F, zget_zeros. reflexivity.
Qed.

Lemma canonical_zero w l : wf w l -> canonical l -> val w l = 0 -> l = [0].
Proof.
  intros W [N C] V.
  assert (forall i, zget l i = 0) as Z0.
  { intros i. rewrite <- (zget_zeros (length l) i). apply (zget_val_eq w); auto using wf_zeros. rewrite val_zeros. auto. }
  assert (length l = 1%nat) as L.
  { destruct C as [C|C]; auto. exfalso. apply C. rewrite <- (Z0 (length l - 1)%nat). unfold zget.
    destruct (exists_last N) as (l' & x & ->). rewrite last_last, app_length. cbn [length].
    rewrite app_nth2 by lia. replace (_ - _)%nat with 0%nat by lia. reflexivity. }
  destruct (list1 l L) as [x ->]. specialize (Z0 0%nat). cbn in Z0. subst. reflexivity.
Qed.

Lemma elem_div_low dbg fuel w num dv : (2 <= w)%nat -> wf w num -> wf w dv ->
  (0 < length num)%nat -> (length dv <= length num)%nat -> Z.of_nat (bit_len w num) < 2 ^ 64 ->
  zget dv 0 = 0 ->
  elem_div_long dbg fuel w num dv = if (val w num =? 0) && negb (val w dv =? 0) then Ok ([0], [0]) else Timeout.
Proof.
  intros Hw Hnum Hdv Hlen Hld H64 Hz.
  destruct (Z.eqb_spec (val w dv) 0) as [D0|D0]; [rewrite andb_false_r; apply elem_div_long_zero; auto|].
  rewrite andb_true_r, <- all_zero by auto. unfold elem_div_long.
  replace (Nat.max (length num) (length dv)) with (length num) by lia.
  destruct (length num) as [|n] eqn:En; [lia|]. rewrite <- En in *.
  pose proof (elem_div_walk_low dbg fuel w num dv Hw Hnum Hdv Hlen Hld H64 Hz D0 (length num)
              (zeros (length num)) (zeros (length num)) (upd (zeros (length num)) n 1)) as F.
  rewrite length_upd, length_zeros, val_zeros in F.
  specialize (F ltac:(lia) eq_refl eq_refl eq_refl (wf_zeros _ _) (wf_zeros _ _)).
  specialize (F ltac:(apply wf_upd; [apply wf_zeros|]; unfold base; change 1 with (2 ^ 0); split; [lia|]; apply Z.pow_lt_mono_r; lia) eq_refl).
  destruct (forallb _ _).
  - destruct F as (r' & one' & F & L & W & V). rewrite F. cbn [bind].
    destruct (shrink_ok w (zeros (length num)) (wf_zeros _ _) ltac:(rewrite length_zeros; lia)) as (q' & Eq & A1 & A2 & A3).
    destruct (shrink_ok w r' W ltac:(lia)) as (r2 & Er & B1 & B2 & B3).
    rewrite Eq, Er. cbn [bind]. rewrite val_zeros in A3. rewrite V in B3.
    rewrite (canonical_zero w q'), (canonical_zero w r2) by auto. reflexivity.
  - rewrite F. reflexivity.
Qed.

(** A divisor below one limb: every limb of the dividend is divided for itself. *)
Lemma cmp_one w r dv : wf w r -> wf w dv -> (0 < length r)%nat -> val w dv = zget dv 0 ->
  is_ge (elem_cmp r dv) = (zget dv 0 <=? zget r 0).
Proof.
  intros Hr Hd Hl Hv. destruct (Z.leb_spec (zget dv 0) (zget r 0)) as [L|L]; [|apply cmp_low_lt; auto].
  assert (forall i, (0 < i)%nat -> zget dv i = 0) as U.
  { assert (wf w [zget dv 0]) as W1 by (repeat constructor; apply (wf_zget w dv 0 Hd)).
    assert (forall i, zget dv i = zget [zget dv 0] i) as Z.
    { apply (zget_val_eq w); auto. rewrite Hv, val_cons, val_nil. ring. }
    intros i Hi. rewrite Z. apply zget_oob. cbn. lia. }
  destruct (elem_cmp r dv) eqn:E; auto. exfalso. apply elem_cmp_lt_iff in E. destruct E as (i & Li & _).
  destruct i as [|i]; [lia|]. rewrite U in Li by lia. pose proof (wf_zget w r (S i) Hr). lia.
Qed.

Lemma elem_div_while_one w dv one len : (0 < w)%nat -> wf w dv -> wf w one -> (length dv <= len)%nat -> length one = len ->
  (0 < len)%nat -> 0 < zget dv 0 -> val w dv = zget dv 0 ->
  forall fuel q r, wf w q -> wf w r -> length q = len -> length r = len -> zget r 0 / zget dv 0 <= Z.of_nat fuel ->
  val w q + zget r 0 / zget dv 0 * val w one < cap w len ->
  exists q' r', elem_div_while fuel w dv one q r = Ok (q', r') /\
    wf w q' /\ wf w r' /\ length q' = len /\ length r' = len /\
    val w q' = val w q + zget r 0 / zget dv 0 * val w one /\ val w r' = val w r - zget r 0 / zget dv 0 * zget dv 0.
Proof.
  intros Hw Hdv Hone Ld Lo Hlen Hpos Hv. induction fuel as [|fuel IH]; intros q r Hq Hr Lq Lr Hf Hc; cbn [elem_div_while];
    rewrite (cmp_one w) by (auto; lia); destruct (Z.leb_spec (zget dv 0) (zget r 0)) as [L|L].
  - pose proof (Z.div_le_lower_bound (zget r 0) (zget dv 0) 1 ltac:(lia) ltac:(lia)). cbn in Hf. lia.
  - exists q, r. pose proof (wf_zget w r 0 Hr). rewrite Z.div_small by lia. repeat (split; [assumption || reflexivity|]). lia.
  - assert (zget r 0 / zget dv 0 = 1 + (zget r 0 - zget dv 0) / zget dv 0) as Ed.
    { replace (zget r 0) with ((zget r 0 - zget dv 0) + 1 * zget dv 0) at 1 by ring. rewrite Z.div_add by lia. ring. }
    pose proof (Z.div_pos (zget r 0 - zget dv 0) (zget dv 0) ltac:(lia) ltac:(lia)) as P1. pose proof (val_nonneg w one Hone) as P2.
    assert (zget r 0 <= val w r) as P3.
    { destruct r as [|x r]; [cbn in Lr; lia|]. rewrite val_cons. apply wf_cons in Hr. pose proof (val_nonneg w r (proj2 Hr)).
      pose proof (base_pos w). change (zget (x :: r) 0) with x. nia. }
    destruct (elem_add_wrapping_small w q one Hw Hq Hone ltac:(lia)) as (A1 & A2 & A3); [rewrite Lq; nia|].
    destruct (elem_sub_wrapping_small w r dv Hw Hr Hdv ltac:(lia)) as (S1 & S2 & S3); [lia|].
    pose proof (sub_low w r dv Hw Hr Hdv ltac:(lia) ltac:(lia) L) as S4.
    destruct (IH (elem_add_wrapping w q one) (elem_sub_wrapping w r dv) A2 S2) as (q' & r' & E & W1 & W2 & L1 & L2 & V1 & V2);
      try lia; rewrite ?S4; try lia.
    exists q', r'. split; [exact E|]. repeat (split; [assumption|]). rewrite V1, V2, S4, A3, S3, Ed, Hv. split; ring.
  - exists q, r. pose proof (wf_zget w r 0 Hr). rewrite Z.div_small by lia. repeat (split; [assumption || reflexivity|]). lia.
Qed.

Lemma val_map_bound w f l : (forall x, 0 <= x < base w -> 0 <= f x < base w) -> wf w l -> wf w (map f l).
Proof. intros H W. induction W; constructor; auto. Qed.

Lemma elem_div_walk_one dbg fuel w num dv : (2 <= w)%nat -> wf w num -> wf w dv ->
  (0 < length num)%nat -> (length dv <= length num)%nat -> Z.of_nat (bit_len w num) < 2 ^ 64 ->
  0 < zget dv 0 -> val w dv = zget dv 0 -> (forall i, zget num i / zget dv 0 <= Z.of_nat fuel) ->
  let d := zget dv 0 in
  forall k q r one, (k <= length num)%nat ->
  length q = length num -> length r = length num -> length one = length num ->
  wf w q -> wf w r -> wf w one -> ((0 < k)%nat -> val w one = cap w (k - 1)) ->
  val w q = cap w k * val w (map (fun x => x / d) (skipn k num)) -> val w r = val w (map (fun x => x mod d) (skipn k num)) ->
  exists q' r' one', foldR (elem_div_step dbg fuel w num dv) (rev (seq 0 k)) (q, r, one) = Ok (q', r', one') /\
    length q' = length num /\ length r' = length num /\ wf w q' /\ wf w r' /\
    val w q' = val w (map (fun x => x / d) num) /\ val w r' = val w (map (fun x => x mod d) num).
Proof.
  intros Hw Hnum Hdv Hlen Hld H64 Hpos Hv Hf d. pose proof (base_pos w) as HB.
  assert (forall x, 0 <= x < base w -> 0 <= x / d < base w) as Bd.
  { intros x Hx. split; [apply Z.div_pos; unfold d; lia|]. apply Z.div_lt_upper_bound; unfold d; nia. }
  assert (forall x, 0 <= x < base w -> 0 <= x mod d < base w) as Bm.
  { intros x Hx. pose proof (Z.mod_pos_bound x d ltac:(unfold d; lia)). pose proof (Z.mod_le x d ltac:(lia) ltac:(unfold d; lia)). lia. }
  induction k as [|k IH]; intros q r one Hk L1 L2 L3 W1 W2 W3 Hone V1 V2.
  - exists q, r, one. cbn [seq rev foldR skipn] in *. rewrite cap_0, Z.mul_1_l in V1. auto 10.
  - rewrite rev_seq_S. cbn [foldR]. unfold elem_div_step at 1.
    assert (bit_len w r = bit_len w num) as Eb by (unfold bit_len; rewrite L2; auto).
    assert ((2 <= length r)%nat \/ val w r = 0) as H2r.
    { destruct (Nat.le_gt_cases 2 (length r)); auto. right. rewrite V2, skipn_all2 by lia. reflexivity. }
    destruct (div_shift_limb dbg w r (zget num k) Hw W2 ltac:(lia) ltac:(lia) (wf_zget w num k Hnum) H2r) as (r1 & E1 & L & W & V).
    rewrite E1. cbn [bind]. rewrite get_in by lia. cbn [bind]. rewrite set_in by lia. cbn [bind].
    assert (length (upd r1 0 (zget num k)) = length num) as Lr by (rewrite length_upd; lia).
    assert (zget (upd r1 0 (zget num k)) 0 = zget num k) as Z0.
    { destruct r1 as [|y r1]; [cbn in L; lia|]. reflexivity. }
    specialize (Hone ltac:(lia)). replace (S k - 1)%nat with k in Hone by lia.
    assert (skipn k num = zget num k :: skipn (S k) num) as Sk.
    { clear -Hk. revert k Hk. induction num as [|x l IHl]; intros k Hk; [cbn in Hk; lia|].
      destruct k as [|k]; [reflexivity|]. cbn [skipn]. rewrite (IHl k) by (cbn in Hk; lia). reflexivity. }
    assert (wf w (skipn (S k) num)) as Ws by (apply wf_skipn; auto).
    assert (length (skipn (S k) num) = length num - S k)%nat as Ls by apply skipn_length.
    assert (cap w (length num) = cap w k * (base w * cap w (length num - S k))) as Ec.
    { rewrite <- cap_S, <- cap_add. f_equal. lia. }
    pose proof (cap_pos w k) as HCk. pose proof (cap_pos w (length num - S k)) as HCr.
    pose proof (val_bound w _ (val_map_bound w (fun x => x / d) _ Bd Ws)) as BQ. rewrite map_length, Ls in BQ.
    pose proof (val_bound w _ (val_map_bound w (fun x => x mod d) _ Bm Ws)) as BR. rewrite map_length, Ls in BR.
    pose proof (wf_zget w num k Hnum) as Bx.
    assert (val w (upd r1 0 (zget num k)) = base w * val w r + zget num k) as Vx.
    { rewrite V, L2. apply Z.mod_small. rewrite Ec, V2.
      set (R := val w (map (fun x => x mod d) (skipn (S k) num))) in *. set (x := zget num k) in *.
      assert (base w * (R + 1) <= base w * cap w (length num - S k)) by (apply Z.mul_le_mono_nonneg_l; lia).
      assert (1 * (base w * cap w (length num - S k)) <= cap w k * (base w * cap w (length num - S k)))
        by (apply Z.mul_le_mono_nonneg_r; nia). nia. }
    destruct (elem_div_while_one w dv one (length num) ltac:(lia) Hdv W3 Hld L3 Hlen Hpos Hv fuel q _ W1 W L1 Lr)
      as (q' & r' & E & X1 & X2 & X3 & X4 & Y1 & Y2).
    { rewrite Z0. auto. }
    { rewrite Z0, V1, Hone, Ec. rewrite cap_S. fold d. pose proof (Bd _ Bx) as Bq.
      set (Q := val w (map (fun x => x / d) (skipn (S k) num))) in *. set (x := zget num k / d) in *.
      assert (base w * (Q + 1) <= base w * cap w (length num - S k)) by (apply Z.mul_le_mono_nonneg_l; lia).
      assert (cap w k * (base w * Q + x) < cap w k * (base w * cap w (length num - S k))) by (apply Z.mul_lt_mono_pos_l; lia).
      lia. }
    rewrite Z0 in Y1, Y2. fold d in Y1, Y2. rewrite E. cbn [bind].
    assert (w * length num = bit_len w num)%nat as Ebl by (unfold bit_len; lia).
    destruct (C12_shr_wrapping_partial dbg w one w ltac:(lia) W3) as (one' & E2 & L4 & W4 & V4);
      [rewrite L3; nia|rewrite L3, Ebl; auto|]. cbv zeta in V4.
    rewrite E2. cbn [bind]. apply IH; auto; try lia.
    + intros Hk0. rewrite V4, L3. destruct (Nat.eq_dec (length num) 1) as [El|El]; [lia|].
      rewrite shift_by_limb by lia.
      rewrite (proj2 (C12_kept_bits_zero w one w ltac:(lia) W3)).
      * rewrite Hone. destruct k; [lia|]. rewrite cap_S. change (2 ^ Z.of_nat w) with (base w).
        rewrite Z.mul_comm, Z.div_mul by lia. replace (S k - 1)%nat with k by lia. lia.
      * rewrite Nat.mod_same, Nat.sub_0_r by lia.
        apply (wf_zget w one (length one - 1 - w / w)); auto.
    + rewrite Y1, V1, Hone, Sk. cbn [map]. rewrite val_cons, cap_S. ring.
    + rewrite Y2, Vx, V2, Sk. cbn [map]. rewrite val_cons. pose proof (Z.div_mod (zget num k) d ltac:(unfold d; lia)). lia.
Qed.

Lemma elem_div_one dbg fuel w num dv : (2 <= w)%nat -> wf w num -> wf w dv ->
  (0 < length num)%nat -> (length dv <= length num)%nat -> Z.of_nat (bit_len w num) < 2 ^ 64 ->
  0 < val w dv < base w -> (forall i, zget num i / val w dv <= Z.of_nat fuel) ->
  exists q r, elem_div_long dbg fuel w num dv = Ok (q, r) /\ wf w q /\ wf w r /\ canonical q /\ canonical r /\
    val w q = val w (map (fun x => x / val w dv) num) /\ val w r = val w (map (fun x => x mod val w dv) num).
Proof.
  intros Hw Hnum Hdv Hlen Hld H64 Hd Hf.
  assert (val w dv = zget dv 0) as Hv by (symmetry; rewrite (zget_0_mod w) by auto; apply Z.mod_small; lia).
  unfold elem_div_long.
  replace (Nat.max (length num) (length dv)) with (length num) by lia.
  destruct (length num) as [|n] eqn:En; [lia|]. rewrite <- En in *.
  destruct (elem_div_walk_one dbg fuel w num dv Hw Hnum Hdv Hlen Hld H64 ltac:(lia) Hv ltac:(rewrite <- Hv; auto) (length num)
              (zeros (length num)) (zeros (length num)) (upd (zeros (length num)) n 1))
    as (q & r & one & E & L1 & L2 & W1 & W2 & V1 & V2);
    rewrite ?length_upd, ?length_zeros; auto using wf_zeros.
  - apply wf_upd; [apply wf_zeros|]. pose proof (base_pos w).
    unfold base. change 1 with (2 ^ 0). split; [lia|]. apply Z.pow_lt_mono_r; lia.
  - intros _. rewrite val_upd by (rewrite length_zeros; lia). rewrite val_zeros, zget_zeros.
    replace (length num - 1)%nat with n by lia. lia.
  - rewrite val_zeros, skipn_all. cbn [map]. rewrite val_nil. lia.
  - rewrite val_zeros, skipn_all. reflexivity.
  - rewrite E. cbn [bind].
    destruct (shrink_ok w q W1 ltac:(lia)) as (q' & Eq & A1 & A2 & A3).
    destruct (shrink_ok w r W2 ltac:(lia)) as (r' & Er & B1 & B2 & B3).
    rewrite Eq, Er. cbn [bind]. exists q', r'. rewrite Hv. rewrite A3, B3. auto 10.
Qed.

Lemma val_div_mod_map w d l : 0 < d -> val w l = val w (map (fun x => x / d) l) * d + val w (map (fun x => x mod d) l).
Proof.
  intros Hd. induction l as [|x l IH]; cbn [map]; rewrite ?val_nil, ?val_cons; [ring|].
  pose proof (Z.div_mod x d ltac:(lia)). rewrite IH. lia.
Qed.

Lemma limbwise_right w d l : wf w l -> (0 < length l)%nat -> 0 < d < base w ->
  (val w (map (fun x => x / d) l) = val w l / d /\ val w (map (fun x => x mod d) l) = val w l mod d) <->
  (forall i, (0 < i)%nat -> zget l i mod d = 0).
Proof.
  intros Hl Hlen Hd. destruct l as [|x l]; [cbn in Hlen; lia|]. clear Hlen. apply wf_cons in Hl. destruct Hl as [Hx Hl].
  pose proof (base_pos w) as HB. pose proof (Z.mod_pos_bound x d ltac:(lia)) as Bx.
  assert (wf w (map (fun x => x mod d) l)) as Wm.
  { apply val_map_bound; auto. intros y Hy. pose proof (Z.mod_pos_bound y d ltac:(lia)). lia. }
  assert ((forall i, (0 < i)%nat -> zget (x :: l) i mod d = 0) <-> val w (map (fun x => x mod d) l) = 0) as Eq.
  { assert (forall i, zget (map (fun x => x mod d) l) i = zget l i mod d) as Zm.
    { intros i. destruct (Nat.lt_ge_cases i (length l)) as [L|L].
      - unfold zget. rewrite (nth_indep _ 0 (0 mod d)) by (rewrite map_length; auto). apply (map_nth (fun x => x mod d)).
      - rewrite !zget_oob by (rewrite ?map_length; auto). rewrite Z.mod_0_l by lia. auto. }
    transitivity (forall i, zget (map (fun x => x mod d) l) i = zget (zeros (length l)) i).
    - split; intros H i; [rewrite Zm, zget_zeros; apply (H (S i)); lia|].
      intros Hi. destruct i as [|i]; [lia|]. specialize (H i). rewrite Zm, zget_zeros in H. auto.
    - rewrite (zget_val_eq w) by auto using wf_zeros. rewrite val_zeros. reflexivity. }
  rewrite Eq. clear Eq. pose proof (val_div_mod_map w d (x :: l) ltac:(lia)) as D. cbn [map] in *. rewrite !val_cons in *.
  pose proof (val_nonneg w _ Wm) as NR. set (R := val w (map (fun x => x mod d) l)) in *. set (Q := val w (map (fun x => x / d) l)) in *.
  split.
  - intros [_ E]. pose proof (Z.mod_pos_bound (x + base w * val w l) d ltac:(lia)). nia.
  - intros R0. rewrite R0, Z.mul_0_r, Z.add_0_r in *. 
    split; [apply (Z.div_unique_pos _ _ _ (x mod d))|apply (Z.mod_unique_pos _ _ (x / d + base w * Q))]; try lia.
Qed.
