(** C07 and C28 continued: exactly which products are reported as overflowing. *)
From Coq Require Import ZArith List Bool Lia.
From Verif Require Import Base Words Spec Arith BitSliceModel BitSliceProofs ElementModel ElemAddSub ElemMul
  ElemMulFlag PropBits UModel UProofs PropU.
Import ListNotations.
Local Open Scope Z_scope.

(** An overflow is reported exactly when for some limb [i] of the left operand the product of
    the limbs above it and the product of the limb itself, each reduced modulo the capacity
    first, add up to more than the capacity. *)
Theorem C07_flag_exact_partial : forall w l r, (0 < w)%nat -> wf w l -> wf w r ->
  let C := cap w (length l) in
  (elem_mul_checked w l r = None <-> snd (elem_mul_overflowing w l r) = true) /\
  (snd (elem_mul_overflowing w l r) = true <-> exists i, (i < length l)%nat /\
     C <= (val w (skipn (S i) l) * cap w (S i) * val w r) mod C + (zget l i * cap w i * val w r) mod C).
Proof.
  intros w l r Hw Hl Hr C. split; [|exact (elem_mul_flag w l r Hw Hl Hr)].
  unfold elem_mul_checked. destruct (elem_mul_overflowing w l r) as [o []]; cbn [snd]; split; auto; discriminate.
Qed.
Print Assumptions C07_flag_exact_partial.

(** So products of a left operand that is a single limb times a power of the base are never
    reported, however large. *)
Theorem C07_one_limb_silent_partial : forall w l r i, (0 < w)%nat -> wf w l -> wf w r ->
  (forall j, j <> i -> zget l j = 0) -> exists out, elem_mul_checked w l r = Some out /\
    val w out = (val w l * val w r) mod cap w (length l).
Proof.
  intros w l r i Hw Hl Hr Hz.
  destruct (C07_flag_exact_partial w l r Hw Hl Hr) as [_ H].
  assert (snd (elem_mul_overflowing w l r) <> true) as Hf.
  { rewrite H. clear H. intros (j & Hj & Hc). pose proof (cap_pos w (length l)) as HC.
    pose proof (Z.mod_pos_bound (val w (skipn (S j) l) * cap w (S j) * val w r) _ HC) as B1.
    pose proof (Z.mod_pos_bound (zget l j * cap w j * val w r) _ HC) as B2.
    destruct (Nat.eq_dec j i) as [->|Hne].
    - assert (val w (skipn (S i) l) = 0) as E.
      { rewrite val_sum. apply sumB_zero_ext. intros k _. rewrite zget_skipn.
        apply Hz. lia. }
      rewrite E, !Z.mul_0_l, Z.mod_0_l in Hc by lia. lia.
    - rewrite (Hz j Hne), !Z.mul_0_l, Z.mod_0_l in Hc by lia. lia. }
  pose proof (elem_mul_overflowing_spec w l r Hw Hl Hr) as S. unfold elem_mul_checked.
  destruct (elem_mul_overflowing w l r) as [out []]; cbn [snd] in Hf; [congruence|].
  exists out. split; auto. apply S.
Qed.
Print Assumptions C07_one_limb_silent_partial.

Example C07_flag_demo : wf 8 [3; 200] /\ wf 8 [100] /\
  snd (elem_mul_overflowing 8 [3; 200] [100]) = false /\ snd (elem_mul_overflowing 8 [200; 161] [100]) = true /\
  65536 <= (161 * 256 * 100) mod 65536 + (200 * 100) mod 65536 /\ 65536 <= (3 + 200 * 256) * 100.
Proof. split; [wf_tac|]. split; [wf_tac|]. repeat split; vm_compute; first [reflexivity|discriminate]. Qed.

(** ** C28 *)

Theorem C28_flag_exact_partial : forall a b, wf 8 a -> wf 8 b -> length b = length a ->
  let C := cap 8 (length a) in
  let reported := exists i, (i < length a)%nat /\
     C <= (val 8 (skipn (S i) a) * cap 8 (S i) * val 8 b) mod C + (zget a i * cap 8 i * val 8 b) mod C in
  (u_checked_mul a b = None <-> reported) /\ (u_mul true a b = Panic <-> reported) /\
  (~ reported -> exists c, u_checked_mul a b = Some c /\ u_mul true a b = Ok c /\ u_saturating_mul a b = c /\
     val 8 c = (val 8 a * val 8 b) mod C).
Proof.
  intros a b Ha Hb Hl C reported.
  destruct (C07_flag_exact_partial 8 a b ltac:(lia) Ha Hb) as [HN HF]. fold C in HF. fold reported in HF.
  pose proof (elem_mul_overflowing_spec 8 a b ltac:(lia) Ha Hb) as S.
  unfold u_checked_mul, u_mul, u_saturating_mul. unfold elem_mul_checked in *.
  destruct (elem_mul_overflowing 8 a b) as [out ov]. cbn [snd] in HF. destruct S as (_ & _ & V & _).
  rewrite <- HF. clear HF HN reported. destruct ov; cbn.
  - repeat split; auto; try congruence.
  - split; [split; [discriminate|congruence]|]. split; [split; [discriminate|congruence]|].
    intros _. exists out. auto.
Qed.
Print Assumptions C28_flag_exact_partial.

Example C28_flag_demo : wf 8 [200; 161] /\ u_checked_mul [200; 161] [100; 0] = None /\
  u_mul true [200; 161] [100; 0] = Panic /\ u_checked_mul [3; 200] [100; 0] = Some [44; 33].
Proof. split; [wf_tac|]. repeat split; vm_compute; reflexivity. Qed.
