(** Proofs: limb multiplication. *)
From Coq Require Import ZArith List Bool Lia.
From Verif Require Import Base Words Spec Arith BitSliceModel BitSliceProofs ElementModel ElemAddSub.
Import ListNotations.
Local Open Scope Z_scope.

Lemma add_item_loop_spec w (Hw : (0 < w)%nat) l : forall idx v carry, wf w l -> 0 <= v < base w ->
  let '(l', c) := add_item_loop w l idx v carry in
  length l' = length l /\ wf w l' /\
  (forall i, (i < idx)%nat -> zget l' i = zget l i) /\
  ((length l <= idx)%nat -> l' = l /\ c = carry) /\
  ((idx < length l)%nat -> val w l' + Z.b2z c * cap w (length l) = val w l + v * cap w idx).
Proof.
  induction l as [|x l IH]; intros idx v carry Hl Hv; cbn [add_item_loop].
  - repeat split; auto. intros H. cbn [length] in H. lia.
  - apply wf_cons in Hl. destruct Hl as [Hx Hl]. destruct idx as [|idx].
    + destruct (wadd_ov w x v) as [new nc] eqn:E.
      apply wadd_ov_spec in E; auto. destruct E as [E Hnew].
      pose proof (base_ge2 w Hw) as Hb.
      destruct nc.
      * specialize (IH 0%nat 1 true Hl ltac:(lia)).
        destruct (add_item_loop w l 0 1 true) as [l' c].
        destruct IH as (H1 & H2 & H3 & H4 & H5).
        cbn [length]. split; [congruence|]. split; [apply wf_cons; auto|].
        split; [intros; lia|]. split; [intros; lia|]. intros _.
        rewrite !val_cons, cap_0, cap_S. simpl Z.b2z in E.
        destruct l as [|y l].
        -- destruct H4 as [-> ->]; [cbn; lia|]. rewrite cap_0, val_nil. simpl Z.b2z. lia.
        -- specialize (H5 ltac:(cbn; lia)). rewrite cap_0 in H5. nia.
      * cbn [length]. split; auto. split; [apply wf_cons; auto|].
        split; [intros; lia|]. split; [intros; lia|]. intros _.
        rewrite !val_cons, cap_0. simpl Z.b2z in *. lia.
    + specialize (IH idx v carry Hl Hv). destruct (add_item_loop w l idx v carry) as [l' c].
      destruct IH as (H1 & H2 & H3 & H4 & H5).
      cbn [length]. split; [congruence|]. split; [apply wf_cons; auto|].
      split; [intros [|i] Hi; [reflexivity|apply (H3 i); lia]|].
      split.
      * intros H. destruct H4 as [-> ->]; auto. lia.
      * intros H. specialize (H5 ltac:(lia)). rewrite !val_cons, !cap_S. nia.
Qed.

(** [add_item] at any index, in range or not: [q] counts what falls off the top. *)
Lemma add_item_spec w l idx v : (0 < w)%nat -> wf w l -> 0 <= v < base w ->
  let '(l', c) := add_item w l idx v in
  length l' = length l /\ wf w l' /\
  (forall i, (i < idx)%nat -> zget l' i = zget l i) /\
  exists q, 0 <= q /\ val w l' + q * cap w (length l) = val w l + v * cap w idx /\
    (c = true -> 1 <= q) /\ (c = false -> (idx < length l)%nat -> q = 0).
Proof.
  intros Hw Hl Hv. unfold add_item. pose proof (add_item_loop_spec w Hw l idx v false Hl Hv) as H.
  destruct (add_item_loop w l idx v false) as [l' c]. destruct H as (H1 & H2 & H3 & H4 & H5).
  split; auto. split; auto. split; auto.
  destruct (Nat.lt_ge_cases idx (length l)) as [Hi|Hi].
  - exists (Z.b2z c). split; [apply b2z_range|]. split; auto.
    split; intros ->; simpl; lia.
  - destruct H4 as [-> ->]; auto. exists (v * cap w (idx - length l)).
    pose proof (cap_pos w (idx - length l)). split; [nia|]. split.
    + replace (cap w idx) with (cap w (idx - length l) * cap w (length l)).
      * ring. * rewrite <- cap_add. f_equal. lia.
    + split; intros; [congruence|lia].
Qed.

Lemma zget_below_upd_sum w l k : sumB (base w) (zget (upd l k 0)) k = sumB (base w) (zget l) k.
Proof. apply sumB_ext. intros. apply zget_upd_ne. lia. Qed.

(** ** mul: growing product *)

Lemma mul_inner_spec w out0 idx l r : (0 < w)%nat -> wf w out0 -> wf w r -> 0 <= l < base w ->
  val w out0 + l * val w r * cap w idx < cap w (length out0) ->
  (idx + length r <= length out0)%nat ->
  let '(out, carry) := mul_inner w out0 idx l r in
  length out = length out0 /\ wf w out /\ 0 <= carry < base w /\
  val w out + carry * cap w (idx + length r) = val w out0 + l * val w r * cap w idx.
Proof.
  intros Hw Ho Hr Hl Hbound Hlen. unfold mul_inner.
  pose proof (base_pos w) as Hb.
  assert (forall k, (k <= length r)%nat -> 0 <= sumB (base w) (zget r) k <= val w r) as Hpart.
  { intros k Hk. split.
    - apply sumB_bound; auto. intros; apply wf_zget; auto.
    - rewrite val_sum. replace (length r) with (k + (length r - k))%nat by lia.
      rewrite sumB_split by lia.
      assert (0 <= sumB (base w) (fun i => zget r (k + i)) (length r - k)).
      { apply sumB_bound; auto. intros; apply wf_zget; auto. }
      pose proof (bpow_pos w k). nia. }
  pose proof (fold_seq0_ind (fun k st => (k <= length r)%nat -> length (fst st) = length out0 /\ wf w (fst st) /\
      0 <= snd st < base w /\
      val w (fst st) + snd st * cap w (idx + k) =
        val w out0 + l * sumB (base w) (zget r) k * cap w idx)
    (fun '(out, carry) offset =>
      let '(low, high) := widening_mul w l (zget r offset) carry in
      (fst (add_item w out (idx + offset) low), high)) (length r) (out0, 0)) as HI.
  cbv beta in HI.
  destruct (fold_left _ (seq 0 (length r)) (out0, 0)) as [out carry].
  cbn [fst snd] in HI. rewrite <- val_sum in HI. apply HI; clear HI out carry; auto.
  - intros _. split; auto. split; auto. split; [lia|]. cbn [sumB]. ring.
  - intros k [o c] Hk IH Hk'. cbn [fst snd] in *.
    destruct IH as (H1 & H2 & H3 & H4); [lia|].
    pose proof (wf_zget w r k Hr) as Hrk.
    destruct (widening_mul w l (zget r k) c) as [low high] eqn:E.
    apply widening_mul_spec in E; auto. destruct E as (E & Hlo & Hhi).
    pose proof (add_item_spec w o (idx + k) low Hw H2 Hlo) as HA.
    destruct (add_item w o (idx + k) low) as [o' c']. cbn [fst snd].
    destruct HA as (A1 & A2 & _ & q & Hq & A3 & _ & _).
    split; [congruence|]. split; auto. split; auto.
    cbn [sumB]. rewrite <- cap_pow. rewrite Nat.add_succ_r, cap_S, cap_add in *.
    pose proof (cap_pos w idx) as P1. pose proof (cap_pos w k) as P2.
    assert (val w o' + q * cap w (length o) + high * (base w * (cap w idx * cap w k)) =
      val w out0 + l * (sumB (base w) (zget r) k + zget r k * cap w k) * cap w idx) as Et.
    { rewrite A3. replace (low) with (l * zget r k + c - base w * high) by lia.
      transitivity (val w o + c * (cap w idx * cap w k) + l * zget r k * (cap w idx * cap w k)).
      - ring. - rewrite H4. ring. }
    assert (q = 0) as ->; [|lia].
    assert (sumB (base w) (zget r) k + zget r k * cap w k <= val w r) as Hle.
    { destruct (Hpart (S k) ltac:(lia)) as [_ H]. cbn [sumB] in H. rewrite <- cap_pow in H. auto. }
    assert (l * (sumB (base w) (zget r) k + zget r k * cap w k) * cap w idx
            <= l * val w r * cap w idx) as Hle2.
    { apply Z.mul_le_mono_nonneg_r; [lia|]. apply Z.mul_le_mono_nonneg_l; lia. }
    assert (0 <= high * (base w * (cap w idx * cap w k))) as Hn.
    { apply Z.mul_nonneg_nonneg; [lia|]. apply Z.mul_nonneg_nonneg; nia. }
    pose proof (val_nonneg w o' A2). rewrite H1 in Et.
    pose proof (cap_pos w (length out0)). nia.
Qed.

Lemma elem_mul_spec w l r : (0 < w)%nat -> wf w l -> wf w r ->
  (0 < length l + length r)%nat ->
  exists out, elem_mul w l r = Ok out /\ wf w out /\ canonical out /\
    val w out = val w l * val w r.
Proof.
  intros Hw Hl Hr Hne. unfold elem_mul.
  pose proof (base_pos w) as Hb. pose proof (val_bound w r Hr) as Hvr.
  match goal with |- context [shrink ?t] => assert (
    length t = (length l + length r)%nat /\ wf w t /\
      val w t = sumB (base w) (zget l) (length l) * val w r) as H end.
  { apply (fold_seq0_ind (fun k t => length t = (length l + length r)%nat /\ wf w t /\
      val w t = sumB (base w) (zget l) k * val w r)).
    - rewrite length_zeros, val_zeros. cbn [sumB]. split; auto. split; auto using wf_zeros.
    - intros k out Hk (H1 & H2 & H3).
      pose proof (wf_zget w l k Hl) as Hlk.
      assert (sumB (base w) (zget l) (S k) * val w r < cap w (length l + length r)) as HB.
      { assert (0 <= sumB (base w) (zget l) (S k) < base w ^ Z.of_nat (S k)) as [A B].
        { apply sumB_bound; auto. intros; apply wf_zget; auto. }
        rewrite <- cap_pow in B. rewrite cap_add.
        pose proof (cap_mono w (S k) (length l) ltac:(lia)). nia. }
      cbn [sumB] in HB |- *. rewrite <- cap_pow in HB |- *.
      pose proof (mul_inner_spec w out k (zget l k) r Hw H2 Hr Hlk) as HM.
      rewrite H3, H1 in HM. specialize (HM ltac:(nia) ltac:(lia)).
      destruct (mul_inner w out k (zget l k) r) as [o c].
      destruct HM as (M1 & M2 & M3 & M4).
      destruct (Z.eqb_spec c 0) as [->|Hc]; cbn [negb].
      + split; auto. split; auto. nia.
      + pose proof (add_item_spec w o (k + length r) c Hw M2 M3) as HA.
        destruct (add_item w o (k + length r) c) as [o' c']. cbn [fst].
        destruct HA as (A1 & A2 & _ & q & Hq & A3 & _ & _).
        split; [lia|]. split; auto.
        rewrite M1 in A3. pose proof (val_nonneg w o' A2).
        pose proof (cap_pos w (length l + length r)). rewrite M4 in A3.
        assert (q = 0) by nia. subst q. nia. }
  destruct H as (H1 & H2 & H3).
  destruct (shrink_ok w _ H2 ltac:(lia)) as (o & Eo & Wo & Co & Vo).
  exists o. split; auto. split; auto. split; auto. rewrite Vo, H3, <- val_sum. auto.
Qed.

Lemma elem_mul_empty w : elem_mul w [] [] = shrink [].
Proof. reflexivity. Qed.

(** ** mul_overflowing: in place, modulo the capacity *)

Lemma mulo_inner_spec w out0 idx l r : (0 < w)%nat -> wf w out0 -> wf w r -> 0 <= l < base w ->
  let '(out, carry, ov) := mulo_inner w out0 idx l r in
  length out = length out0 /\ wf w out /\ 0 <= carry < base w /\
  (forall i, (i < idx)%nat -> zget out i = zget out0 i) /\
  exists q, 0 <= q /\ (ov = true -> 1 <= q) /\
  val w out + carry * cap w (idx + length r) + q * cap w (length out0) =
    val w out0 + l * val w r * cap w idx.
Proof.
  intros Hw Ho Hr Hl. unfold mulo_inner.
  pose proof (base_pos w) as Hb.
  pose proof (fold_seq0_ind (fun k '(o, c, ov) => length o = length out0 /\ wf w o /\
      0 <= c < base w /\ (forall i, (i < idx)%nat -> zget o i = zget out0 i) /\
      exists q, 0 <= q /\ (ov = true -> 1 <= q) /\
      val w o + c * cap w (idx + k) + q * cap w (length out0) =
        val w out0 + l * sumB (base w) (zget r) k * cap w idx)
    (fun '(lhs, carry, ov) offset =>
      let '(low, high) := widening_mul w l (zget r offset) carry in
      let '(lhs, c) := add_item w lhs (idx + offset) low in
      (lhs, high, if c then true else ov)) (length r) (out0, 0, false)) as HI.
  cbv beta in HI. rewrite <- val_sum in HI. apply HI; clear HI.
  - split; auto. split; auto. split; [lia|]. split; auto. exists 0. cbn [sumB].
    split; [lia|]. split; [congruence|ring].
  - intros k [[o c] ov] Hk (H1 & H2 & H3 & H3' & q0 & Hq0 & Hov & H4).
    pose proof (wf_zget w r k Hr) as Hrk.
    destruct (widening_mul w l (zget r k) c) as [low high] eqn:E.
    apply widening_mul_spec in E; auto. destruct E as (E & Hlo & Hhi).
    pose proof (add_item_spec w o (idx + k) low Hw H2 Hlo) as HA.
    destruct (add_item w o (idx + k) low) as [o' c'].
    destruct HA as (A1 & A2 & A2' & q & Hq & A3 & A4 & _).
    split; [congruence|]. split; auto. split; auto.
    split. { intros i Hi. rewrite A2' by lia. auto. }
    exists (q + q0). split; [lia|]. split.
    { destruct c'; intros; [specialize (A4 eq_refl); lia|specialize (Hov H); lia]. }
    cbn [sumB]. rewrite <- cap_pow. rewrite Nat.add_succ_r, cap_S, cap_add in *.
    rewrite H1 in A3.
    replace (val w o' + high * (base w * (cap w idx * cap w k)) + (q + q0) * cap w (length out0))
      with ((val w o' + q * cap w (length out0)) + q0 * cap w (length out0)
            + high * (base w * (cap w idx * cap w k))) by ring.
    rewrite A3. replace low with (l * zget r k + c - base w * high) by lia.
    transitivity ((val w o + c * (cap w idx * cap w k) + q0 * cap w (length out0))
                  + l * zget r k * (cap w idx * cap w k)).
    + ring. + rewrite H4. ring.
Qed.

Lemma elem_mul_overflowing_spec w l r : (0 < w)%nat -> wf w l -> wf w r ->
  let '(out, ov) := elem_mul_overflowing w l r in
  length out = length l /\ wf w out /\
  val w out = (val w l * val w r) mod cap w (length l) /\
  (ov = true -> cap w (length l) <= val w l * val w r).
Proof.
  intros Hw Hl Hr. unfold elem_mul_overflowing. pose proof (base_pos w) as Hb.
  pose proof (fold_rev_seq_ind (fun k '(o, ov) => (k <= length l)%nat ->
      length o = length l /\ wf w o /\
      (forall i, (i < k)%nat -> zget o i = zget l i) /\
      exists q, 0 <= q /\ (ov = true -> 1 <= q) /\
      val w o + q * cap w (length l) =
        sumB (base w) (zget l) k + (val w l - sumB (base w) (zget l) k) * val w r)
    (fun '(lhs, overflow) idx =>
      let l := zget lhs idx in
      let lhs := upd lhs idx 0 in
      let '(lhs, carry, new_overflow) := mulo_inner w lhs idx l r in
      let '(lhs, new_overflow) :=
        if negb (carry =? 0) then
          let '(lhs, c) := add_item w lhs (idx + length r) carry in
          (lhs, if c then true else new_overflow)
        else (lhs, new_overflow) in
      (lhs, overflow || new_overflow)) (length l) (l, false)) as HI.
  cbv beta in HI.
  destruct (fold_left _ (rev (seq 0 (length l))) (l, false)) as [out ov].
  assert (length out = length l /\ wf w out /\
      exists q, 0 <= q /\ (ov = true -> 1 <= q) /\
      val w out + q * cap w (length l) = val w l * val w r) as H.
  { destruct HI as (H1 & H2 & _ & q & Hq & Hov & H3); [| |lia|].
    - intros _. split; auto. split; auto. split; auto. exists 0. rewrite <- val_sum.
      split; [lia|]. split; [congruence|]. ring.
    - clear out ov. intros k [o ov] Hk IH.
      destruct IH as (H1 & H2 & H3 & q0 & Hq0 & Hov & H4); [lia|].
      assert (zget o k = zget l k) as Ek by (apply H3; lia).
      pose proof (wf_zget w l k Hl) as Hlk.
      assert (wf w (upd o k 0)) as Hwu by (apply wf_upd; auto; lia).
      cbv zeta. rewrite Ek.
      pose proof (mulo_inner_spec w (upd o k 0) k (zget l k) r Hw Hwu Hr Hlk) as HM.
      destruct (mulo_inner w (upd o k 0) k (zget l k) r) as [[o1 c] nov].
      rewrite length_upd, val_upd, Ek in HM by lia.
      destruct HM as (M1 & M2 & M3 & M4 & q1 & Hq1 & Hov1 & M5).
      assert (let '(o2, nov2) := if negb (c =? 0) then
          let '(lhs, c) := add_item w o1 (k + length r) c in
          (lhs, if c then true else nov) else (o1, nov) in
        length o2 = length o /\ wf w o2 /\ (forall i, (i < k)%nat -> zget o2 i = zget o1 i) /\
        exists q2, 0 <= q2 /\ (nov2 = true -> 1 <= q2) /\
         val w o2 + q2 * cap w (length o) =
         val w o + (0 - zget l k) * cap w k + zget l k * val w r * cap w k) as HN.
      { destruct (Z.eqb_spec c 0) as [->|Hc]; cbn [negb].
        - split; auto. split; auto. split; auto. exists q1. split; auto. split; auto. lia.
        - pose proof (add_item_spec w o1 (k + length r) c Hw M2 M3) as HA.
          destruct (add_item w o1 (k + length r) c) as [o' c'].
          destruct HA as (A1 & A2 & A2' & q & Hq & A3 & A4 & _).
          split; [congruence|]. split; auto. split. { intros. apply A2'. lia. }
          exists (q + q1). split; [lia|]. split.
          { destruct c'; intros; [specialize (A4 eq_refl); lia|specialize (Hov1 H); lia]. }
          rewrite <- M5. rewrite M1 in A3. lia. }
      destruct (if negb (c =? 0) then _ else _) as [o2 nov2].
      destruct HN as (N1 & N2 & N3 & q2 & Hq2 & Hov2 & N4). intros _.
      split; [congruence|]. split; auto. split.
      { intros i Hi. rewrite N3, M4 by auto. rewrite zget_upd_ne by lia. apply H3. lia. }
      exists (q2 + q0). split; [lia|]. split.
      { intros HH. apply orb_prop in HH. destruct HH as [HH|HH]; [specialize (Hov HH)|specialize (Hov2 HH)]; lia. }
      cbn [sumB] in H4. rewrite <- cap_pow in H4. rewrite H1 in N4.
      replace (val w o2 + (q2 + q0) * cap w (length l))
        with ((val w o2 + q2 * cap w (length l)) + q0 * cap w (length l)) by ring.
      rewrite N4.
      transitivity ((val w o + q0 * cap w (length l)) + (0 - zget l k) * cap w k
         + zget l k * val w r * cap w k); [ring|]. rewrite H4. ring.
    - cbn [sumB] in H3. split; auto. split; auto. exists q. split; auto. split; auto. lia. }
  destruct H as (H1 & H2 & q & Hq & Hov & H3).
  pose proof (val_bound w out H2) as Hbd. rewrite H1 in Hbd.
  split; auto. split; auto. split.
  - rewrite <- H3, Z_mod_plus_full, Z.mod_small; auto.
  - intros H. specialize (Hov H). rewrite <- H3. pose proof (cap_pos w (length l)). nia.
Qed.
