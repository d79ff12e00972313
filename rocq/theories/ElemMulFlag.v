(** Proofs: exactly when the overflowing multiplication reports an overflow. *)
From Coq Require Import ZArith List Bool Lia.
From Verif Require Import Base Words Spec Arith BitSliceModel BitSliceProofs ElementModel ElemAddSub ElemMul.
Import ListNotations.
Local Open Scope Z_scope.

(** [add_item] at any index, with the flag as a number. *)
Lemma add_item_flag w l idx v : (0 < w)%nat -> wf w l -> 0 <= v < base w ->
  let '(l', c) := add_item w l idx v in
  length l' = length l /\ wf w l' /\ (forall i, (i < idx)%nat -> zget l' i = zget l i) /\
  val w l' + Z.b2z c * cap w (length l) = val w l + (if Nat.ltb idx (length l) then v * cap w idx else 0).
Proof.
  intros Hw Hl Hv. unfold add_item. pose proof (add_item_loop_spec w Hw l idx v false Hl Hv) as H.
  destruct (add_item_loop w l idx v false) as [l' c]. destruct H as (H1 & H2 & H3 & H4 & H5).
  split; auto. split; auto. split; auto. destruct (Nat.ltb_spec idx (length l)) as [Hi|Hi]; auto.
  destruct H4 as [-> ->]; auto.
Qed.

(** One digit of a row: [D] is the row so far, [m] the number of limbs above [idx]. *)
Lemma row_step w o out0 idx k v D (ov c : bool) o' : (0 < w)%nat -> (idx < length out0)%nat ->
  length o = length out0 -> wf w o' -> length o' = length o -> wf w out0 ->
  0 <= v < base w -> 0 <= D < cap w k ->
  let C := cap w (length out0) in let M := cap w (length out0 - idx) in
  val w o + Z.b2z ov * C = val w out0 + (D mod M) * cap w idx ->
  val w o' + Z.b2z c * cap w (length o) = val w o + (if Nat.ltb (idx + k) (length o) then v * cap w (idx + k) else 0) ->
  val w o' + Z.b2z (if c then true else ov) * C = val w out0 + ((D + v * cap w k) mod M) * cap w idx.
Proof.
  intros Hw Hi Lo Wo' Lo' W0 Hv HD C M H1 H2. rewrite Lo in H2. fold C in H2.
  assert (C = M * cap w idx) as EC by (unfold C, M; rewrite <- cap_add; f_equal; lia).
  assert (0 < C /\ 0 < M) as [HC HM] by (split; apply cap_pos).
  pose proof (cap_pos w k) as Pk. pose proof (cap_pos w idx) as Pi.
  pose proof (val_bound w out0 W0) as B0. fold C in B0.
  pose proof (val_bound w o' Wo') as Bo. rewrite Lo', Lo in Bo. fold C in Bo.
  assert ((D mod M + (if Nat.ltb (idx + k) (length out0) then v * cap w k else 0)) = (D + v * cap w k) mod M) as E.
  { destruct (Nat.ltb_spec (idx + k) (length out0)) as [H|H].
    - assert (cap w (S k) <= M) as HS by (apply cap_mono; lia). rewrite cap_S in HS.
      rewrite !Z.mod_small by nia. auto.
    - assert (cap w k = cap w (k - (length out0 - idx)) * M) as ->.
      { unfold M. rewrite <- cap_add. f_equal. lia. }
      rewrite Z.mul_assoc, Z_mod_plus_full. lia. }
  rewrite <- E. rewrite Z.mul_add_distr_r.
  assert (val w o' + (Z.b2z c + Z.b2z ov) * C = val w out0 + ((D + v * cap w k) mod M) * cap w idx) as T.
  { rewrite <- E. destruct (Nat.ltb (idx + k) (length out0)); [rewrite cap_add in H2|]; lia. }
  pose proof (Z.mod_pos_bound (D + v * cap w k) M HM) as BM.
  assert (((D + v * cap w k) mod M) * cap w idx < C) as BR by (rewrite EC; apply Z.mul_lt_mono_pos_r; lia).
  rewrite <- Z.mul_add_distr_r, E, <- T.
  destruct c, ov; cbn [Z.b2z] in *; lia.
Qed.

Lemma mulo_inner_flag w out0 idx l r : (0 < w)%nat -> wf w out0 -> wf w r -> 0 <= l < base w ->
  (idx < length out0)%nat ->
  let '(out, carry, ov) := mulo_inner w out0 idx l r in
  length out = length out0 /\ wf w out /\ 0 <= carry < base w /\
  (forall i, (i < idx)%nat -> zget out i = zget out0 i) /\
  0 <= l * val w r - carry * cap w (length r) < cap w (length r) /\
  val w out + Z.b2z ov * cap w (length out0) =
    val w out0 + ((l * val w r - carry * cap w (length r)) mod cap w (length out0 - idx)) * cap w idx.
Proof.
  intros Hw Ho Hr Hl Hi. unfold mulo_inner. pose proof (base_pos w) as Hb.
  pose proof (fold_seq0_ind (fun k '(o, c, ov) => length o = length out0 /\ wf w o /\
      0 <= c < base w /\ (forall i, (i < idx)%nat -> zget o i = zget out0 i) /\
      0 <= l * sumB (base w) (zget r) k - c * cap w k < cap w k /\
      val w o + Z.b2z ov * cap w (length out0) =
        val w out0 + ((l * sumB (base w) (zget r) k - c * cap w k) mod cap w (length out0 - idx)) * cap w idx)
    (fun '(lhs, carry, ov) offset =>
      let '(low, high) := widening_mul w l (zget r offset) carry in
      let '(lhs, c) := add_item w lhs (idx + offset) low in
      (lhs, high, if c then true else ov)) (length r) (out0, 0, false)) as HI.
  cbv beta in HI. rewrite <- val_sum in HI. apply HI; clear HI.
  - split; auto. split; auto. split; [lia|]. split; auto. cbn [sumB]. rewrite cap_0.
    split; [lia|]. cbn [Z.b2z]. rewrite Z.mul_0_r, Z.mul_0_l, Z.sub_0_r, Z.mod_0_l; [lia|].
    pose proof (cap_pos w (length out0 - idx)). lia.
  - intros k [[o c] ov] Hk (H1 & H2 & H3 & H3' & H4 & H5).
    pose proof (wf_zget w r k Hr) as Hrk.
    destruct (widening_mul w l (zget r k) c) as [low high] eqn:E.
    apply widening_mul_spec in E; auto. destruct E as (E & Hlo & Hhi).
    pose proof (add_item_flag w o (idx + k) low Hw H2 Hlo) as HA.
    destruct (add_item w o (idx + k) low) as [o' c'].
    destruct HA as (A1 & A2 & A2' & A3).
    split; [congruence|]. split; auto. split; auto.
    split. { intros i Hi'. rewrite A2' by lia. auto. }
    pose proof (row_step w o out0 idx k low _ ov c' o' Hw Hi H1 A2 A1 Ho Hlo H4 H5 A3) as R.
    cbn [sumB]. rewrite <- cap_pow, cap_S.
    replace (l * (sumB (base w) (zget r) k + zget r k * cap w k) - high * (base w * cap w k))
      with (l * sumB (base w) (zget r) k - c * cap w k + low * cap w k) by nia.
    split; [|exact R]. pose proof (cap_pos w k). nia.
Qed.

(** The part of the left operand from limb [i] on. *)
Definition upper (w : nat) (l : list Z) (i : nat) : Z := val w (skipn i l) * cap w i.

Lemma upper_S w l i : (i < length l)%nat -> upper w l i = zget l i * cap w i + upper w l (S i).
Proof.
  intros Hi. unfold upper.
  assert (skipn i l = zget l i :: skipn (S i) l) as ->.
  { revert i Hi. induction l as [|x l IH]; intros [|i] Hi; try (cbn in Hi; lia); [reflexivity|].
    cbn [skipn]. rewrite (IH i) by (cbn in Hi; lia). reflexivity. }
  rewrite val_cons, cap_S. ring.
Qed.

Definition crossing (w : nat) (l r : list Z) (i : nat) : Prop :=
  cap w (length l) <= (upper w l (S i) * val w r) mod cap w (length l) +
                      (zget l i * cap w i * val w r) mod cap w (length l).

Lemma elem_mul_flag w l r : (0 < w)%nat -> wf w l -> wf w r ->
  (snd (elem_mul_overflowing w l r) = true <-> exists i, (i < length l)%nat /\ crossing w l r i).
Proof.
  intros Hw Hl Hr. unfold elem_mul_overflowing. set (C := cap w (length l)).
  assert (0 < C) as HC by apply cap_pos.
  pose proof (fold_rev_seq_ind (fun k '(o, ov) => (k <= length l)%nat ->
      length o = length l /\ wf w o /\ (forall i, (i < k)%nat -> zget o i = zget l i) /\
      val w o = val w (firstn k l) + (upper w l k * val w r) mod C /\
      (ov = true <-> exists i, (k <= i < length l)%nat /\ crossing w l r i))
    (fun '(lhs, overflow) idx =>
      let l := zget lhs idx in
      let lhs := upd lhs idx 0 in
      let '(lhs, carry, new_overflow) := mulo_inner w lhs idx l r in
      let '(lhs, new_overflow) :=
        if negb (carry =? 0) then
          let '(lhs, c) := add_item w lhs (idx + length r) carry in
          (lhs, if c then true else new_overflow)
        else (lhs, new_overflow) in
      (lhs, overflow || new_overflow)) (length l) (l, false)) as HI.
  cbv beta in HI.
  destruct (fold_left _ (rev (seq 0 (length l))) (l, false)) as [out ov]. cbn [snd].
  assert (ov = true <-> exists i, (0 <= i < length l)%nat /\ crossing w l r i) as H.
  { apply HI; clear HI out ov; [| |lia].
    - intros _. split; auto. split; auto. split; auto. unfold upper. rewrite firstn_all, skipn_all.
      rewrite val_nil, !Z.mul_0_l, Z.mod_0_l by lia. split; [lia|].
      split; [discriminate|]. intros (i & Hi & _). lia.
    - intros k [o ov] Hk IH. destruct IH as (H1 & H2 & H3 & H4 & H5); [lia|].
      assert (zget o k = zget l k) as Ek by (apply H3; lia).
      pose proof (wf_zget w l k Hl) as Hlk. pose proof (base_pos w) as Hb.
      assert (wf w (upd o k 0)) as Hwu by (apply wf_upd; auto; lia).
      cbv zeta. rewrite Ek.
      pose proof (mulo_inner_flag w (upd o k 0) k (zget l k) r Hw Hwu Hr Hlk) as HM.
      rewrite length_upd in HM. specialize (HM ltac:(lia)).
      destruct (mulo_inner w (upd o k 0) k (zget l k) r) as [[o1 c] nov].
      destruct HM as (M1 & M2 & M3 & M4 & M5 & M6).
      set (row := (zget l k * val w r) mod cap w (length o - k)) in *.
      assert (let '(o2, nov2) := if negb (c =? 0) then
          let '(lhs, c) := add_item w o1 (k + length r) c in
          (lhs, if c then true else nov) else (o1, nov) in
        length o2 = length l /\ wf w o2 /\ (forall i, (i < k)%nat -> zget o2 i = zget o1 i) /\
        val w o2 + Z.b2z nov2 * C = val w (upd o k 0) + row * cap w k) as HN.
      { destruct (Z.eqb_spec c 0) as [->|Hc]; cbn [negb].
        - split; [congruence|]. split; auto. split; auto. rewrite Z.mul_0_l, Z.sub_0_r in M6.
          unfold row. rewrite H1 in *. exact M6.
        - pose proof (add_item_flag w o1 (k + length r) c Hw M2 M3) as HA.
          destruct (add_item w o1 (k + length r) c) as [o' c'].
          destruct HA as (A1 & A2 & A2' & A3).
          split; [congruence|]. split; auto. split. { intros. apply A2'. lia. }
          pose proof (row_step w o1 (upd o k 0) k (length r) c (zget l k * val w r - c * cap w (length r)) nov c' o' Hw) as R.
          rewrite length_upd in R. specialize (R ltac:(lia) M1 A2 A1 Hwu M3 M5 M6 A3).
          cbv zeta in R. rewrite Z.sub_add in R. unfold row. rewrite H1 in *. exact R. }
      destruct (if negb (c =? 0) then _ else _) as [o2 nov2].
      destruct HN as (N1 & N2 & N3 & N4). intros _.
      assert (row * cap w k = (zget l k * cap w k * val w r) mod C) as ER.
      { unfold row, C. rewrite H1. replace (length l) with ((length l - k) + k)%nat at 2 by lia.
        rewrite cap_add. pose proof (cap_pos w k). pose proof (cap_pos w (length l - k)).
        rewrite <- Z.mul_mod_distr_r by lia. f_equal. ring. }
      set (T := (upper w l (S k) * val w r) mod C) in *.
      assert (val w (firstn (S k) l) = val w (firstn k l) + zget l k * cap w k) as EF.
      { pose proof (val_split w (S k) l ltac:(lia)) as S1. pose proof (val_split w k l ltac:(lia)) as S2.
        pose proof (upper_S w l k Hk) as U. unfold upper in U. rewrite S1 in S2 at 1. lia. }
      rewrite val_upd, H4, Ek, EF in N4 by lia.
      replace (val w (firstn k l) + zget l k * cap w k + T + (0 - zget l k) * cap w k)
        with (val w (firstn k l) + T) in N4 by ring.
      pose proof (val_bound w _ (wf_firstn w k l Hl)) as BF. rewrite firstn_length, Nat.min_l in BF by lia.
      pose proof (cap_pos w k) as Pk.
      assert (exists x, C = x * cap w k) as [x EC].
      { exists (cap w (length l - k)). unfold C. rewrite <- cap_add. f_equal. lia. }
      assert (exists y, T = y * cap w k) as [y ET].
      { exists ((val w (skipn (S k) l) * base w * val w r) mod x). unfold T, upper. rewrite cap_S, EC.
        assert (x <> 0) by nia. rewrite <- Z.mul_mod_distr_r by lia. f_equal. ring. }
      pose proof (Z.mod_pos_bound (upper w l (S k) * val w r) C HC) as BT. fold T in BT.
      pose proof (Z.mod_pos_bound (zget l k * cap w k * val w r) C HC) as BR. rewrite <- ER in BR.
      pose proof (val_bound w o2 N2) as BO. rewrite N1 in BO. fold C in BO.
      assert (nov2 = true <-> crossing w l r k) as HX.
      { unfold crossing. fold C. fold T. rewrite <- ER. destruct nov2; cbn [Z.b2z] in N4.
        - split; auto. intros _. rewrite EC, ET in *. rewrite <- Z.mul_add_distr_r.
          apply Z.mul_le_mono_nonneg_r; [lia|]. 
          assert (- cap w k < (y + row - x) * cap w k) as Hd by lia.
          clear - Hd Pk. nia.
        - split; [discriminate|]. lia. }
      split; [congruence|]. split; auto. split.
      { intros i Hi. rewrite N3, M4 by auto. rewrite zget_upd_ne by lia. apply H3. lia. }
      split.
      { rewrite upper_S by lia. rewrite (Z.add_comm (zget l k * cap w k)), Z.mul_add_distr_r, Zplus_mod. fold T. rewrite <- ER.
        destruct (Z.le_gt_cases C (T + row * cap w k)) as [Hge|Hlt].
        - rewrite (proj2 HX) in N4 by (unfold crossing; fold C; fold T; rewrite <- ER; auto). cbn [Z.b2z] in N4.
          assert ((T + row * cap w k) mod C = T + row * cap w k - C) as ->.
          { symmetry. apply (Z.mod_unique_pos _ _ 1); lia. }
          lia.
        - rewrite Z.mod_small by lia.
          destruct nov2; [|cbn [Z.b2z] in N4; lia]. pose proof (proj1 HX eq_refl) as HX'.
          unfold crossing in HX'. fold C in HX'. fold T in HX'. rewrite <- ER in HX'. lia. }
      rewrite orb_true_iff, H5, HX. split.
      { intros [(i & Hi & X)|X]; [exists i|exists k]; split; auto; lia. }
      intros (i & Hi & X). destruct (Nat.eq_dec i k) as [->|]; auto. left. exists i. split; auto. lia. }
  rewrite H. split; intros (i & Hi & X); exists i; split; auto; lia.
Qed.
