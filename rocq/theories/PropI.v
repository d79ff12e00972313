(** Properties C36-C40: the fixed-width signed integer [I<N>] (crates/ints/src/i.rs).
    [sval a] is the two's-complement value of the byte list [a]; [swrap n x] is [x] reduced
    modulo [2^(8n)] into [[-2^(8n-1), 2^(8n-1))] (Spec.v). *)
From Coq Require Import ZArith List Bool Lia ZifyNat.
From Verif Require Import Base Words Spec Arith BitSliceModel BitSliceProofs ElementModel
  BitwiseModel ElemAddSub ElemMul ElemShift BitwiseProofs PropBits UModel UProofs IModel IProofs.
Import ListNotations.
Local Open Scope Z_scope.

(** ** C36 *)

Theorem C36_ring : forall a b, wf 8 a -> wf 8 b -> length b = length a -> (0 < length a)%nat ->
  let n := length a in
  sval (i_add a b) = swrap n (sval a + sval b) /\
  sval (i_sub a b) = swrap n (sval a - sval b) /\
  sval (i_mul a b) = swrap n (sval a * sval b) /\
  sval (i_neg a) = swrap n (- sval a) /\
  (forall c, In c [i_add a b; i_sub a b; i_mul a b; i_neg a] -> wf 8 c /\ length c = n) /\
  (forall x, swrap n x mod cap 8 n = x mod cap 8 n /\ - cap 8 n <= 2 * swrap n x < cap 8 n).
Proof.
  intros a b Ha Hb Hl Hn n.
  destruct (i_add_spec a b Ha Hb Hl) as (W1 & L1 & V1).
  destruct (i_sub_spec a b Ha Hb Hl) as (W2 & L2 & V2).
  destruct (i_mul_spec a b Ha Hb Hl) as (W3 & L3 & V3).
  destruct (i_neg_spec a Ha Hn) as (W4 & L4 & V4).
  fold n in L1, V1, L2, V2, L3, V3, L4, V4. pose proof (cap_pos 8 n) as Hc.
  pose proof (val_sval_mod a Ha) as Ea. pose proof (val_sval_mod b Hb) as Eb. rewrite Hl in Eb. fold n in Ea, Eb.
  split. { rewrite (sval_swrap _ (val 8 a + val 8 b)) by (auto; rewrite L1; auto). rewrite L1.
           apply swrap_congr. rewrite Ea, Eb. symmetry. apply Zplus_mod. }
  split. { rewrite (sval_swrap _ (val 8 a - val 8 b)) by (auto; rewrite L2; auto). rewrite L2.
           apply swrap_congr. rewrite Ea, Eb. symmetry. apply Zminus_mod. }
  split. { rewrite (sval_swrap _ (val 8 a * val 8 b)) by (auto; rewrite L3; auto). rewrite L3.
           apply swrap_congr. rewrite Ea, Eb. symmetry. apply Zmult_mod. }
  split. { rewrite (sval_swrap _ (- val 8 a)) by (auto; rewrite L4; auto). rewrite L4.
           apply swrap_congr. rewrite Ea. rewrite <- (Z.sub_0_l (sval a mod cap 8 n)), <- (Z.sub_0_l (sval a)).
           apply Zminus_mod_idemp_r. }
  split. { intros c [<-|[<-|[<-|[<-|[]]]]]; auto. }
  intros x. split; [|apply swrap_range; auto]. unfold swrap. cbv zeta. destruct (_ <? _).
  - apply Z.mod_mod. lia.
  - replace (x mod cap 8 n - cap 8 n) with (x mod cap 8 n + (-1) * cap 8 n) by ring.
    rewrite Z_mod_plus_full. apply Z.mod_mod. lia.
Qed.
Print Assumptions C36_ring.

(** No wrap-around: the exact results. *)
Theorem C36_exact : forall a b, wf 8 a -> wf 8 b -> length b = length a -> (0 < length a)%nat ->
  let n := length a in let fits x := - cap 8 n <= 2 * x < cap 8 n in
  (fits (sval a + sval b) -> sval (i_add a b) = sval a + sval b) /\
  (fits (sval a - sval b) -> sval (i_sub a b) = sval a - sval b) /\
  (fits (sval a * sval b) -> sval (i_mul a b) = sval a * sval b) /\
  (fits (- sval a) -> sval (i_neg a) = - sval a).
Proof.
  intros a b Ha Hb Hl Hn n fits. destruct (C36_ring a b Ha Hb Hl Hn) as (E1 & E2 & E3 & E4 & _).
  fold n in E1, E2, E3, E4. repeat split; intros H; rewrite ?E1, ?E2, ?E3, ?E4; apply swrap_small; auto.
Qed.
Print Assumptions C36_exact.

Example C36_example : wf 8 [200; 255] /\ wf 8 [100; 0] /\ sval [200; 255] = -56 /\ sval [100; 0] = 100 /\
  sval (i_mul [200; 255] [100; 0]) = -5600 /\ sval (i_neg [200; 255]) = 56 /\
  sval (i_add [255; 127] [1; 0]) = -32768.
Proof. split; [wf_tac|]. split; [wf_tac|]. repeat split; reflexivity. Qed.

(** ** C37 *)

(** [abs] clears the top bit: the identity on non-negative values, and for negative ones
    the value plus [2^(8N-1)], which is right only at [-2^(8N-2)]. *)
Theorem C37_abs_partial : forall a, wf 8 a -> (0 < length a)%nat ->
  exists c, i_abs a = Ok c /\ wf 8 c /\ length c = length a /\
    (0 <= sval a -> c = a) /\
    (sval a < 0 -> 2 * sval c = 2 * sval a + cap 8 (length a)) /\
    (sval a < 0 -> (sval c = - sval a <-> 4 * sval a = - cap 8 (length a))).
Proof.
  intros a Ha Hl. destruct (i_abs_spec a Ha Hl) as (c & E & W & L & H0 & H1 & V). exists c.
  assert (sval c = val 8 c) as Ec.
  { unfold sval. rewrite L, (proj2 (Z.ltb_lt _ _)); auto. }
  repeat (split; [assumption|]). split; [|split].
  - intros Hs. rewrite (proj2 (Z.ltb_ge _ _)) in V by lia.
    apply (val_inj 8); auto. rewrite <- (sval_nonneg a Ha Hs). lia.
  - intros Hs. rewrite (proj2 (Z.ltb_lt _ _)) in V by lia. lia.
  - intros Hs. rewrite (proj2 (Z.ltb_lt _ _)) in V by lia. lia.
Qed.
Print Assumptions C37_abs_partial.

Theorem C37_abs_refuted : exists a, wf 8 a /\ sval a = -1 /\ i_abs a = Ok [255; 127] /\
  sval [255; 127] = 32767.
Proof. exists [255; 255]. split; [wf_tac|]. repeat split; reflexivity. Qed.
Print Assumptions C37_abs_refuted.

Example C37_example : wf 8 [9; 1] /\ 0 <= sval [9; 1] /\ i_abs [9; 1] = Ok [9; 1] /\
  wf 8 [0; 192] /\ sval [0; 192] = -16384 /\ i_abs [0; 192] = Ok [0; 64] /\ sval [0; 64] = 16384.
Proof. split; [wf_tac|]. split; [vm_compute; discriminate|]. split; [reflexivity|]. split; [wf_tac|]. repeat split; reflexivity. Qed.

(** ** C38 *)

(** Opposite signs are ordered correctly; equal signs by the least significant differing
    byte, so numerically when only one byte differs (in particular for [I<1>]). *)
Theorem C38_ord_partial : forall a b i, wf 8 a -> wf 8 b -> length b = length a -> (0 < length a)%nat ->
  (sval a < 0 /\ 0 <= sval b) \/ (0 <= sval a /\ sval b < 0) \/
  (forall j, j <> i -> nth j a 0 = nth j b 0) ->
  i_cmp a b = Ok (Z.compare (sval a) (sval b)).
Proof.
  intros a b i Ha Hb Hl Hn H. unfold i_cmp.
  rewrite (proj1 (sign_spec a Ha Hn)), (proj1 (sign_spec b Hb ltac:(lia))). cbn [bind]. f_equal.
  destruct (Z.ltb_spec (sval a) 0), (Z.ltb_spec (sval b) 0); cbn [bool_cmp Z.b2z Z.compare CompOpp].
  - rewrite lex_cmp_elem by auto. destruct H as [H|[H|H]]; try lia.
    change (bool_cmp true true) with Eq.
    change (elem_cmp a b = (sval a ?= sval b)).
    rewrite (elem_cmp_one_limb 8 a b i) by auto.
    assert (sval a = val 8 a - cap 8 (length a)) as ->.
    { apply sval_neg; auto. }
    assert (sval b = val 8 b - cap 8 (length a)) as ->.
    { rewrite <- Hl. apply sval_neg; auto. }
    symmetry. destruct (Z.compare_spec (val 8 a) (val 8 b));
      [apply Z.compare_eq_iff|apply Z.compare_lt_iff|apply Z.compare_gt_iff]; lia.
  - symmetry. apply Z.compare_lt_iff. lia.
  - symmetry. apply Z.compare_gt_iff. lia.
  - rewrite lex_cmp_elem by auto. destruct H as [H|[H|H]]; try lia.
    change (bool_cmp false false) with Eq. change (elem_cmp a b = (sval a ?= sval b)).
    rewrite (elem_cmp_one_limb 8 a b i) by auto.
    rewrite (sval_nonneg a), (sval_nonneg b) by auto. auto.
Qed.
Print Assumptions C38_ord_partial.

(** Equality is numeric equality and agrees with the order. *)
Theorem C38_eq : forall a b, wf 8 a -> wf 8 b -> length b = length a -> (0 < length a)%nat ->
  (i_eqb a b = true <-> sval a = sval b) /\ (i_cmp a b = Ok Eq <-> sval a = sval b).
Proof.
  intros a b Ha Hb Hl Hn.
  assert (val 8 a = val 8 b <-> sval a = sval b) as EV.
  { split; intros E.
    - unfold sval. rewrite Hl, E. auto.
    - rewrite (val_sval_mod a), (val_sval_mod b), Hl, E by auto. auto. }
  split.
  - unfold i_eqb. rewrite u_eqb_spec, Z.eqb_eq by auto. auto.
  - rewrite <- EV. unfold i_cmp.
    rewrite (proj1 (sign_spec a Ha Hn)), (proj1 (sign_spec b Hb ltac:(lia))). cbn [bind].
    rewrite lex_cmp_elem by auto. rewrite <- (elem_cmp_eq 8 a b) by auto.
    assert (elem_cmp a b = Eq -> sval a = sval b) as EQ.
    { intros E. apply (elem_cmp_eq 8) in E; auto. apply EV; auto. }
    destruct (Z.ltb_spec (sval a) 0), (Z.ltb_spec (sval b) 0); cbn.
    + split; congruence.
    + split; [discriminate|]. intros E. specialize (EQ E). lia.
    + split; [discriminate|]. intros E. specialize (EQ E). lia.
    + split; congruence.
Qed.
Print Assumptions C38_eq.

Theorem C38_ord_refuted : exists a b, wf 8 a /\ wf 8 b /\ length b = length a /\
  sval a < sval b /\ i_cmp a b = Ok Gt.
Proof. exists [1; 0], [0; 1]. split; [wf_tac|]. split; [wf_tac|]. repeat split; reflexivity. Qed.
Print Assumptions C38_ord_refuted.

Example C38_example : wf 8 [255; 255] /\ wf 8 [0; 1] /\ sval [255; 255] < 0 /\ 0 <= sval [0; 1] /\
  i_cmp [255; 255] [0; 1] = Ok Lt /\ i_cmp [250] [251] = Ok Lt.
Proof. split; [wf_tac|]. split; [wf_tac|]. repeat split; first [reflexivity|vm_compute; discriminate]. Qed.

(** ** C39 *)

Theorem C39_bounds_signs : forall n a, (0 < n)%nat -> wf 8 a -> length a = n ->
  2 * sval (i_min n) = - cap 8 n /\ 2 * sval (i_max n) = cap 8 n - 2 /\
  sval (i_max_negative n) = -1 /\ sval (i_min_positive n) = 1 /\
  sval (i_zero n) = 0 /\ sval (i_one n) = 1 /\
  sval (i_min n) <= sval a <= sval (i_max n) /\
  i_is_negative a = Ok (sval a <? 0) /\ i_is_positive a = Ok (0 <=? sval a) /\
  (i_is_zero a = true <-> sval a = 0) /\ i_is_one a = Ok (sval a =? 1).
Proof.
  intros n a Hn Ha Hl. pose proof (cap_pos 8 n) as Hc.
  assert (exists m, n = S m) as (m & Em) by (exists (n - 1)%nat; lia).
  assert (cap 8 n = 256 * cap 8 m) as EC by (rewrite Em, cap_S, base8; auto).
  pose proof (cap_pos 8 m) as Hcm.
  assert (forall x y : Z, map (fun idx => if Nat.eqb idx (n - 1) then y else x) (seq 0 n) = repeat x m ++ [y]) as HM.
  { intros x y. rewrite Em. replace (S m - 1)%nat with m by lia. rewrite seq_S, map_app. cbn [map plus].
    rewrite Nat.eqb_refl. f_equal.
    apply (nth_ext _ _ 0 0). { rewrite map_length, seq_length, repeat_length. auto. }
    intros i Hi. rewrite map_length, seq_length in Hi.
    change (nth i (map (fun idx => if Nat.eqb idx m then y else x) (seq 0 m)) 0)
      with (zget (map (fun idx => if Nat.eqb idx m then y else x) (seq 0 m)) i).
    rewrite zget_map_seq, (proj2 (Nat.eqb_neq i m)) by lia.
    rewrite (nth_indep _ 0 x) by (rewrite repeat_length; auto). rewrite nth_repeat. auto. }
  assert (val 8 (i_min n) = 128 * cap 8 m /\ length (i_min n) = n) as [V1 L1].
  { unfold i_min. rewrite HM. change (repeat 0 m) with (zeros m). rewrite val_app, val_zeros, app_length, length_zeros.
    cbn [val length]. split; [ring|lia]. }
  assert (val 8 (i_max n) = 128 * cap 8 m - 1 /\ length (i_max n) = n) as [V2 L2].
  { unfold i_max. rewrite HM. change (repeat 255 m) with (u_max m). rewrite val_app, val_u_max, app_length.
    unfold u_max. rewrite repeat_length. cbn [val length]. split; [ring|lia]. }
  assert (2 * sval (i_min n) = - cap 8 n) as E1.
  { unfold sval. rewrite V1, L1, EC, (proj2 (Z.ltb_ge _ _)); lia. }
  assert (2 * sval (i_max n) = cap 8 n - 2) as E2.
  { unfold sval. rewrite V2, L2, EC, (proj2 (Z.ltb_lt _ _)); lia. }
  assert (sval (i_max_negative n) = -1) as E3.
  { unfold sval, i_max_negative. change (repeat 255 n) with (u_max n). rewrite val_u_max. unfold u_max.
    rewrite repeat_length, (proj2 (Z.ltb_ge _ _)); lia. }
  assert (sval (i_zero n) = 0) as E4.
  { unfold sval, i_zero. rewrite val_zeros, length_zeros, (proj2 (Z.ltb_lt _ _)); lia. }
  assert (sval (i_one n) = 1) as E5.
  { unfold sval, i_one. rewrite val_u_one, length_u_one, (proj2 (Z.ltb_lt _ _)); lia. }
  destruct (sign_spec a Ha ltac:(lia)) as [S1 S2]. pose proof (val_bound 8 a Ha) as HB. rewrite Hl in HB.
  repeat (split; [assumption|]).
  split. { assert (- cap 8 n <= 2 * sval a < cap 8 n).
    { unfold sval. rewrite Hl. destruct (Z.ltb_spec (2 * val 8 a) (cap 8 n)); lia. } lia. }
  split; auto. split; auto. unfold i_is_zero, i_is_one. rewrite u_is_zero_spec, u_is_one_spec, Z.eqb_eq by (auto; lia).
  unfold sval. rewrite Hl. destruct (Z.ltb_spec (2 * val 8 a) (cap 8 n)); [split; auto; reflexivity|].
  split; [lia|]. f_equal. destruct (Z.eqb_spec (val 8 a) 1), (Z.eqb_spec (val 8 a - cap 8 n) 1); auto; lia.
Qed.
Print Assumptions C39_bounds_signs.

Example C39_example : wf 8 [0; 128] /\ i_min 2 = [0; 128] /\ i_max 2 = [255; 127] /\
  i_is_negative [0; 128] = Ok true /\ i_is_positive [255; 127] = Ok true.
Proof. split; [wf_tac|]. repeat split; reflexivity. Qed.

(** ** C40 *)

(** Both operands non-negative and the divisor at most 128 (or the dividend below 256). *)
Theorem C40_div_partial : forall dbg a b, wf 8 a -> wf 8 b -> length b = length a ->
  (0 < length a)%nat -> Z.of_nat (8 * length a) < 2 ^ 64 ->
  0 <= sval a -> 0 < sval b < 256 -> sval b <= 128 \/ sval a < 256 ->
  exists q r, i_div dbg a b = Ok q /\ i_rem dbg a b = Ok r /\
    wf 8 q /\ wf 8 r /\ length q = length a /\ length r = length a /\
    sval q = Z.quot (sval a) (sval b) /\ sval r = Z.rem (sval a) (sval b).
Proof.
  intros dbg a b Ha Hb Hl Hn H64 Sa Sb Hc.
  pose proof (sval_nonneg a Ha Sa) as Ea. pose proof (sval_nonneg b Hb ltac:(lia)) as Eb.
  destruct (i_div_rem_nonneg dbg a b) as (q & r & E1 & E2 & W1 & L1 & W2 & L2 & V1 & V2); auto; try lia.
  { split; rewrite base8; lia. }
  exists q, r. repeat (split; [assumption|]).
  rewrite Z.quot_div_nonneg, Z.rem_mod_nonneg, Ea, Eb by lia. rewrite <- V1, <- V2.
  assert (2 * sval a < cap 8 (length a)) as HS.
  { unfold sval. pose proof (val_bound 8 a Ha). destruct (Z.ltb_spec (2 * val 8 a) (cap 8 (length a))); lia. }
  pose proof (Z.div_le_upper_bound (val 8 a) (val 8 b) (val 8 a) ltac:(lia) ltac:(nia)) as HQ.
  pose proof (Z.mod_le (val 8 a) (val 8 b) ltac:(lia) ltac:(lia)) as HR.
  unfold sval. rewrite L1, L2, !(proj2 (Z.ltb_lt _ _)); auto; lia.
Qed.
Print Assumptions C40_div_partial.

Theorem C40_div_refuted : exists a b q r, wf 8 a /\ wf 8 b /\ length b = length a /\
  sval a = -7 /\ sval b = 2 /\ i_div true a b = Ok q /\ i_rem true a b = Ok r /\
  sval q = -60 /\ Z.quot (-7) 2 = -3 /\ sval r = -1.
Proof.
  exists [249], [2], [196], [255]. split; [wf_tac|]. split; [wf_tac|]. repeat split; reflexivity.
Qed.
Print Assumptions C40_div_refuted.

(** The remainder takes its sign from both operands instead of from the dividend. *)
Theorem C40_rem_sign_refuted : exists a b r, wf 8 a /\ wf 8 b /\ length b = length a /\
  sval a = 7 /\ sval b = -64 /\ i_rem true a b = Ok r /\ sval r = -7 /\ Z.rem 7 (-64) = 7.
Proof.
  exists [7], [192], [249]. split; [wf_tac|]. split; [wf_tac|]. repeat split; reflexivity.
Qed.
Print Assumptions C40_rem_sign_refuted.

Example C40_example : wf 8 [57; 48] /\ wf 8 [100; 0] /\ 0 <= sval [57; 48] /\ 0 < sval [100; 0] < 256 /\
  sval [100; 0] <= 128 /\ i_div true [57; 48] [100; 0] = Ok [123; 0] /\ i_rem true [57; 48] [100; 0] = Ok [45; 0].
Proof. split; [wf_tac|]. split; [wf_tac|]. repeat split; first [reflexivity|vm_compute; discriminate]. Qed.
