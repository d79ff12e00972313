(** C49, C99 and C100 continued: conversions of a BigInt to primitive types, for every value
    (vocabulary as in PropBigInt.v). *)
From Coq Require Import ZArith List Bool Lia.
From Verif Require Import Base Words Spec TextSpec Arith BitSliceModel BitSliceProofs ElementModel ElemAddSub BitwiseProofs
  InternModel BigIntModel BigIntSpec BigIntProofs BigIntOps BigIntConv BigIntText BigIntMore BigIntRun BigIntHist PropBigInt
  BigIntOrder BigIntI128 PropBigInt3.
Import ListNotations.
Local Open Scope Z_scope.

(** ** C49: [i128::try_from] *)

(** Right for 0 <= x < 2^127 and for the minimum.  Between 2^127 and 2^128 the bits are
    reinterpreted (unless the low limb is all ones); negative numbers lose their sign up to
    2^64 and whenever their low limb is zero, and are rejected otherwise. *)
Theorem C49_i128_partial : forall dbg P st hs a x,
  consistent P st hs -> room P hs 0 -> proper st hs a x ->
  let gives := returns P hs (bi_try_from dbg I128 a) st in
  (0 <= x < 2 ^ 127 -> gives (inl x)) /\
  (2 ^ 127 <= x < 2 ^ 128 -> x mod 2 ^ 64 <> 2 ^ 64 - 1 -> gives (inl (x - 2 ^ 128))) /\
  (2 ^ 127 <= x < 2 ^ 128 -> x mod 2 ^ 64 = 2 ^ 64 - 1 -> gives (inr Above)) /\
  (2 ^ 128 <= x -> gives (inr Above)) /\
  (- 2 ^ 64 < x < 0 -> gives (inl (- x))) /\
  (- 2 ^ 127 < x <= - 2 ^ 64 -> x mod 2 ^ 64 = 0 -> gives (inl (- x))) /\
  (- 2 ^ 127 < x <= - 2 ^ 64 -> x mod 2 ^ 64 <> 0 -> gives (inr Below)) /\
  (x = - 2 ^ 127 -> gives (inl x)) /\
  (x < - 2 ^ 127 -> gives (inr Below)).
Proof.
  intros dbg P st hs a x Hc Hr (Ia & Da & Na) gives.
  pose proof (try_from_i128 dbg P st hs a x Hc Hr Ia Da Na) as R. fold gives in R.
  unfold i128_try_from in R.
  assert (x mod 2 ^ 64 = 0 <-> - x mod 2 ^ 64 = 0) as HM.
  { split; intros H.
    - apply Z_mod_zero_opp_full in H. auto.
    - apply Z_mod_zero_opp_full in H. rewrite Z.opp_involutive in H. auto. }
  split; [|split; [|split; [|split; [|split; [|split; [|split; [|split]]]]]]]; intros.
  - rewrite (proj2 (Z.leb_le 0 x)), (proj2 (Z.ltb_lt x (2 ^ 127))) in R by lia. auto.
  - rewrite (proj2 (Z.leb_le 0 x)), (proj2 (Z.ltb_ge x (2 ^ 127))), (proj2 (Z.ltb_lt x (2 ^ 128))), (proj2 (Z.eqb_neq _ _)) in R by lia. auto.
  - rewrite (proj2 (Z.leb_le 0 x)), (proj2 (Z.ltb_ge x (2 ^ 127))), (proj2 (Z.ltb_lt x (2 ^ 128))), (proj2 (Z.eqb_eq (x mod 2 ^ 64) _)) in R by lia. auto.
  - rewrite (proj2 (Z.leb_le 0 x)), (proj2 (Z.ltb_ge x (2 ^ 127))), (proj2 (Z.ltb_ge x (2 ^ 128))) in R by lia. auto.
  - rewrite (proj2 (Z.leb_gt 0 x)), (proj2 (Z.ltb_lt (- x) (2 ^ 64))) in R by lia. auto.
  - rewrite (proj2 (Z.leb_gt 0 x)), (proj2 (Z.ltb_ge (- x) (2 ^ 64))), (proj2 (Z.eqb_eq (- x mod 2 ^ 64) 0)), (proj2 (Z.ltb_lt (- x) (2 ^ 127))) in R by tauto || lia. auto.
  - rewrite (proj2 (Z.leb_gt 0 x)), (proj2 (Z.ltb_ge (- x) (2 ^ 64))), (proj2 (Z.eqb_neq (- x mod 2 ^ 64) 0)), (proj2 (Z.eqb_neq x (- 2 ^ 127))) in R by tauto || lia. auto.
  - subst x. exact R.
  - rewrite (proj2 (Z.leb_gt 0 x)), (proj2 (Z.ltb_ge (- x) (2 ^ 64))), (proj2 (Z.ltb_ge (- x) (2 ^ 127))), andb_false_r, (proj2 (Z.eqb_neq x (- 2 ^ 127))) in R by lia. auto.
Qed.
Print Assumptions C49_i128_partial.

(** [i128::try_from(&(i128::MAX + 1))] is [Ok(i128::MIN)]; [-(2^64 + 1)] is rejected as too low. *)
Theorem C49_i128_refuted : exists e st p h h',
  run false [From U128 (2 ^ 127); From I128 (- (2 ^ 64 + 1))] [] interner_new 0 = Ok (e, st, p) /\
  nth_error e 0 = Some (Some h) /\ nth_error e 1 = Some (Some h') /\
  denotes st h (2 ^ 127) /\ denotes st h' (- (2 ^ 64 + 1)) /\
  (exists st', bi_try_from false I128 h st = Ok (inl (- 2 ^ 127), st')) /\
  (exists st', bi_try_from false I128 h' st = Ok (inr Below, st')).
Proof.
  do 5 eexists. split; [vm_compute; reflexivity|]. repeat (split; [reflexivity|]).
  split; [demo_den|]. split; [demo_den|].
  split; eexists; vm_compute; reflexivity.
Qed.
Print Assumptions C49_i128_refuted.

Example C49_i128_demo : returns 11 ord_hs (bi_try_from true I128 4) ord_st (inl (2 * 2 ^ 64 + 3)).
Proof.
  refine (proj1 (C49_i128_partial true 11 ord_st ord_hs 4 _ ord_consistent ltac:(vm_compute; discriminate) ord_b) _).
  lia.
Qed.

(** ** C99: saturating conversion to signed types, for every value *)

Theorem C99_signed_partial : forall dbg t P st hs a x,
  consistent P st (a :: hs) -> room P (a :: hs) 0 -> denotes st a x -> a <> neg_zero -> std_ty t -> isigned t = true ->
  let gives := returns P hs (bi_saturate dbg t a) st in
  ((ibits t <= 64)%nat -> gives (if x <? imin t then imin t else Z.min (Z.abs x) (imax t))) /\
  (ibits t = 128%nat ->
    (0 <= x < 2 ^ 127 -> gives x) /\
    (2 ^ 127 <= x -> gives (if (x <? 2 ^ 128) && negb (x mod 2 ^ 64 =? 2 ^ 64 - 1) then x - 2 ^ 128 else imax t)) /\
    (- 2 ^ 64 < x < 0 -> gives (- x)) /\
    (- 2 ^ 127 <= x <= - 2 ^ 64 -> gives (if (x mod 2 ^ 64 =? 0) && negb (x =? - 2 ^ 127) then - x else imin t)) /\
    (x < - 2 ^ 127 -> gives (imin t))).
Proof.
  intros dbg t P st hs a x Hc Hr Da Na Ht Hs gives. split.
  - intros Hb. apply saturate_signed64; auto.
  - intros Hb. assert (t = I128) as -> by (destruct t as [b s]; cbn in *; subst; reflexivity).
    pose proof (saturate_i128 dbg P st hs a x Hc Hr Da Na) as R. fold gives in R.
    unfold i128_try_from in R.
    assert (x mod 2 ^ 64 = 0 <-> - x mod 2 ^ 64 = 0) as HM.
    { split; intros H.
      - apply Z_mod_zero_opp_full in H. auto.
      - apply Z_mod_zero_opp_full in H. rewrite Z.opp_involutive in H. auto. }
    split; [|split; [|split; [|split]]]; intros.
    + rewrite (proj2 (Z.leb_le 0 x)), (proj2 (Z.ltb_lt x (2 ^ 127))) in R by lia. auto.
    + rewrite (proj2 (Z.leb_le 0 x)), (proj2 (Z.ltb_ge x (2 ^ 127))) in R by lia.
      destruct ((x <? 2 ^ 128) && _); auto.
    + rewrite (proj2 (Z.leb_gt 0 x)), (proj2 (Z.ltb_lt (- x) (2 ^ 64))) in R by lia. auto.
    + rewrite (proj2 (Z.leb_gt 0 x)), (proj2 (Z.ltb_ge (- x) (2 ^ 64))) in R by lia.
      destruct (Z.eqb_spec x (- 2 ^ 127)) as [->|Hne]; [rewrite andb_false_r; exact R|].
      rewrite (proj2 (Z.ltb_lt (- x) (2 ^ 127))), andb_true_r in R by lia. cbn [negb]. rewrite andb_true_r.
      destruct (Z.eqb_spec (x mod 2 ^ 64) 0), (Z.eqb_spec (- x mod 2 ^ 64) 0); auto; tauto.
    + rewrite (proj2 (Z.leb_gt 0 x)), (proj2 (Z.ltb_ge (- x) (2 ^ 64))), (proj2 (Z.ltb_ge (- x) (2 ^ 127))), andb_false_r, (proj2 (Z.eqb_neq x (- 2 ^ 127))) in R by lia. auto.
Qed.
Print Assumptions C99_signed_partial.

Example C99_signed_demo : returns 11 [0; 8] (bi_saturate true I128 4) ord_st (2 * 2 ^ 64 + 3).
Proof.
  refine (proj1 (proj2 (C99_signed_partial true I128 11 ord_st [0; 8] 4 (2 * 2 ^ 64 + 3) _ ltac:(vm_compute; discriminate)
    (proj1 (proj2 ord_b)) ltac:(vm_compute; discriminate) ltac:(vm_compute; auto 10) eq_refl) eq_refl) ltac:(lia)).
  eapply con_perm; [|apply ord_consistent]. apply Permutation.perm_swap.
Qed.

(** ** C100: truncating conversion, for every value *)

(** Unsigned types and types up to 64 bits saturate (in magnitude); [i128] wraps between 2^127
    and 2^128 in magnitude, except that the least value of [i128] panics in a debug build. *)
Theorem C100_exact_partial : forall dbg t P st hs a x,
  consistent P st (a :: hs) -> denotes st a x -> std_ty t ->
  let gives := returns P hs (bi_truncate dbg t a) st in
  (isigned t = false -> gives (Z.min (Z.abs x) (imax t))) /\
  (isigned t = true -> (ibits t <= 64)%nat -> gives (Z.sgn x * Z.min (Z.abs x) (imax t))) /\
  (isigned t = true -> ibits t = 128%nat ->
    (Z.abs x < 2 ^ 127 -> gives x) /\
    (2 ^ 128 <= Z.abs x -> gives (Z.sgn x * imax t)) /\
    (2 ^ 127 <= x < 2 ^ 128 -> gives (x - 2 ^ 128)) /\
    (- 2 ^ 128 < x < - 2 ^ 127 -> gives (x + 2 ^ 128)) /\
    (x = - 2 ^ 127 -> if dbg then bi_truncate dbg t a st = Panic else gives x)).
Proof.
  intros dbg t P st hs a x Hc Da Ht gives.
  pose proof (truncate_exact dbg t P st hs a x Hc Da Ht) as R. fold gives in R. cbv zeta in R.
  destruct (info _ _ _ _ _ Hc ltac:(left; reflexivity) Da) as (la & Sa & Wa & Ca & La & Va & _).
  pose proof (denotes_sign _ _ _ _ _ _ Hc ltac:(left; reflexivity) Sa Da) as Ex. rewrite Va in Ex.
  assert (x <> 0 -> (if Z.odd a then -1 else 1) = Z.sgn x) as Es.
  { intros N. destruct (Z.odd a); lia. }
  unfold magnitude_as in R.
  split; [|split].
  - intros Hu. rewrite Hu in R. cbn [andb] in R.
    replace (Z.min (Z.abs x) (imax t)) with (match (if Z.abs x <=? imax t then Some (Z.abs x) else None) with Some v => v | None => imax t end); auto.
    destruct (Z.leb_spec (Z.abs x) (imax t)); lia.
  - intros Hu Hb. destruct (signed_bounds t Ht Hu) as (B1 & B2 & _). rewrite Hu, (proj2 (Nat.eqb_neq (ibits t) 128)) in R by lia. cbn [andb] in R.
    assert (match (if Z.abs x <=? imax t then Some (Z.abs x) else None) with Some v => v | None => imax t end = Z.min (Z.abs x) (imax t)) as Em.
    { destruct (Z.leb_spec (Z.abs x) (imax t)); lia. }
    rewrite Em in R.
    assert (Z.min (Z.abs x) (imax t) * (if Z.odd a then -1 else 1) = Z.sgn x * Z.min (Z.abs x) (imax t)) as Ep.
    { destruct (Z.eq_dec x 0) as [->|N]; [rewrite Z.min_l by lia; reflexivity|]. rewrite Es by auto. ring. }
    rewrite Ep in R. assert (in_range t (Z.sgn x * Z.min (Z.abs x) (imax t)) = true) as Ei.
    { apply in_range_iff. lia. }
    rewrite Ei in R. auto.
  - intros Hu Hb. assert (t = I128) as -> by (destruct t as [b s]; cbn in *; subst; reflexivity).
    change (isigned I128) with true in R. change (Nat.eqb (ibits I128) 128) with true in R. cbn [andb] in R.
    assert (imax I128 = 2 ^ 127 - 1) as Emx by reflexivity. assert (imin I128 = - 2 ^ 127) as Emn by reflexivity.
    assert (forall p, - 2 ^ 127 <= p < 2 ^ 127 -> in_range I128 p = true) as Hin.
    { intros p Hp. apply in_range_iff. lia. }
    rewrite Emx in *. split; [|split; [|split; [|split]]]; intros Hx.
    + rewrite (proj2 (Z.leb_le _ _)) in R by lia.
      assert (Z.abs x * (if Z.odd a then -1 else 1) = x) as Ep by (destruct (Z.odd a); lia).
      rewrite Ep, Hin in R by lia. auto.
    + rewrite (proj2 (Z.leb_gt _ _)), (proj2 (Z.ltb_ge _ _)), Es, Hin in R by lia. cbn [negb andb] in R.
      replace (Z.sgn x * (2 ^ 127 - 1)) with ((2 ^ 127 - 1) * Z.sgn x) by ring. auto.
    + rewrite (proj2 (Z.leb_gt _ _)), (proj2 (Z.ltb_lt _ _)), Es, Z.sgn_pos, Z.abs_eq, Z.mul_1_r, Hin in R by lia. auto.
    + rewrite (proj2 (Z.leb_gt _ _)), (proj2 (Z.ltb_lt _ _)), Es, Z.sgn_neg, Z.abs_neq, Hin in R by lia. cbn [negb andb] in R.
      replace (x + 2 ^ 128) with ((- x - 2 ^ 128) * -1) by ring. auto.
    + rewrite Es in R by lia. subst x. destruct dbg; exact R.
Qed.
Print Assumptions C100_exact_partial.

Example C100_exact_demo : returns 11 [0; 8] (bi_truncate true I64 4) ord_st (2 ^ 63 - 1).
Proof.
  refine (proj1 (proj2 (C100_exact_partial true I64 11 ord_st [0; 8] 4 (2 * 2 ^ 64 + 3) _ (proj1 (proj2 ord_b)) ltac:(vm_compute; auto 10))) eq_refl _).
  - eapply con_perm; [|apply ord_consistent]. apply Permutation.perm_swap.
  - cbn. lia.
Qed.

(** ** C56: comparison with the least value of a signed type *)

(** In a debug build every negative number panics, also those that are not equal to it. *)
Theorem C56_least_partial : forall t P st hs a x,
  consistent P st hs -> proper st hs a x -> isigned t = true -> (0 < ibits t)%nat ->
  bi_eq_int true t st a (imin t) = if x <? 0 then Panic else Ok false.
Proof.
  intros t P st hs a x Hc (Ia & Da & Na) Hs Hb.
  destruct (info _ _ _ _ _ Hc Ia Da) as (la & _ & _ & _ & _ & _ & _ & _ & Oa). specialize (Oa Na).
  unfold bi_eq_int. rewrite Hs, is_negative_odd, Oa.
  assert (imin t <? 0 = true) as ->.
  { apply Z.ltb_lt. unfold imin. rewrite Hs. pose proof (Z.pow_pos_nonneg 2 (Z.of_nat (ibits t) - 1) ltac:(lia) ltac:(lia)). lia. }
  destruct (x <? 0); cbn [Bool.eqb negb]; auto. rewrite Z.eqb_refl. reflexivity.
Qed.
Print Assumptions C56_least_partial.

Example C56_least_demo : bi_eq_int true I8 demo_st 31 (-128) = Panic /\ bi_eq_int true I8 demo_st 38 (-128) = Ok false.
Proof.
  split.
  - exact (C56_least_partial I8 11 demo_st demo_hs 31 (-7) demo_consistent demo_b' eq_refl ltac:(cbn; lia)).
  - exact (C56_least_partial I8 11 demo_st demo_hs 38 9 demo_consistent demo_d' eq_refl ltac:(cbn; lia)).
Qed.

(** ** C51: amounts that are no [usize] *)

(** A negative amount, or one of at least 2^64, panics, although no bit would be left. *)
Theorem C51_beyond_partial : forall dbg P st hs a b x y,
  consistent P st hs -> room P hs 0 -> is_int st hs a x -> proper st hs b y -> y < 0 \/ 2 ^ 64 <= y ->
  bi_shr dbg a b st = Panic.
Proof.
  intros dbg P st hs a b x y Hc Hr (Ia & Da) (Ib & Db & Nb) H.
  destruct (bi_shl_panic dbg P st hs a b x y Hc Hr Ia Ib Da Db Nb H). auto.
Qed.
Print Assumptions C51_beyond_partial.

Example C51_beyond_demo : bi_shr false 38 31 demo_st = Panic /\ bi_shr false 38 0 demo_st = Panic.
Proof.
  split.
  - apply (C51_beyond_partial false 11 demo_st demo_hs 38 31 _ _ demo_consistent demo_room0 demo_d demo_b'). left. vm_compute. reflexivity.
  - apply (C51_beyond_partial false 11 demo_st demo_hs 38 0 _ _ demo_consistent demo_room0 demo_d demo_a'). right. vm_compute. discriminate.
Qed.

(** ** C98: all signs, and Not *)

(** The operators for all signs: the bits are those of the magnitudes, the sign is that of the left operand. *)
Theorem C98_signs_partial : forall dbg P st hs a b x y,
  consistent P st hs -> room P hs 0 -> proper st hs a x -> is_int st hs b y ->
  let s := if x <? 0 then -1 else 1 in
  yields P hs (bi_bitand dbg a b) st (s * Z.land (Z.abs x) (Z.abs y)) /\
  yields P hs (bi_bitor dbg a b) st (s * Z.lor (Z.abs x) (Z.abs y)) /\
  yields P hs (bi_bitxor dbg a b) st (s * Z.lxor (Z.abs x) (Z.abs y)).
Proof.
  intros dbg P st hs a b x y Hc Hr Ha Hb s. destruct (Z.eq_dec x 0) as [->|Hx].
  - destruct Ha as (Ia & Da & Na). destruct Hb as (Ib & Db).
    destruct (info P st hs a 0 Hc Ia Da) as (la & _ & _ & _ & _ & _ & _ & _ & A3). specialize (A3 Na).
    pose proof (bi_bitop_spec dbg Z.land andb P st hs a b 0 y Hc Hr Ia Ib Da Db ltac:(intros; apply land_range; auto) ltac:(intros; apply Z.land_spec) eq_refl) as H1.
    pose proof (bi_bitop_spec dbg Z.lor orb P st hs a b 0 y Hc Hr Ia Ib Da Db ltac:(intros; apply lor_range; auto) ltac:(intros; apply Z.lor_spec) eq_refl) as H2.
    pose proof (bi_bitop_spec dbg Z.lxor xorb P st hs a b 0 y Hc Hr Ia Ib Da Db ltac:(intros; apply lxor_range; auto) ltac:(intros; apply Z.lxor_spec) eq_refl) as H3.
    rewrite A3 in H1, H2, H3. unfold signed in H1, H2, H3. auto.
  - assert (s = Z.sgn x) as -> by (unfold s; destruct (Z.ltb_spec x 0); lia).
    apply C98_bitwise_magnitudes_partial; auto.
Qed.

(** [!a] for every BigInt: the magnitude is complemented in its whole limbs and the sign stays, so the
    result is never [-a - 1]. *)
Theorem C98_not_partial : forall dbg P st hs a x,
  consistent P st (a :: hs) -> room P (a :: hs) 0 -> denotes st a x -> a <> neg_zero ->
  let w := 2 ^ (64 * (Z.log2 (Z.abs x) / 64 + 1)) in
  let r := (if x <? 0 then -1 else 1) * (w - 1 - Z.abs x) in
  yields P hs (bi_not dbg a) st r /\ r <> - x - 1.
Proof.
  intros dbg P st hs a x C R D Na w r. split.
  - destruct (info P st (a :: hs) a x C (or_introl eq_refl) D) as (l & Sl & Wl & Cl & Ll & Vl & _ & _ & O).
    specialize (O Na).
    apply (yields_after P st st hs _ (let! c := new_slice dbg (elem_not 64 l) (is_negative a) in let! _ := bi_drop a in ret c)).
    { unfold bi_not. destruct Sl as (Sl & _). rewrite (mbind_ok _ _ _ _ _ (reads_ok (fun st => bi_slice st a) _ _ Sl)). reflexivity. }
    { apply keeps_refl. }
    apply yields_drop_last.
    assert (r = (if is_negative a then -1 else 1) * val 64 (elem_not 64 l)) as ->.
    { rewrite is_negative_odd, O, val_elem_not, Vl by auto. unfold r, w, cap. do 4 f_equal.
      rewrite (canonical_len l Wl Cl), Vl. lia. }
    apply new_slice_spec; auto; [apply wf_elem_not|].
    intros E. apply (f_equal (@length Z)) in E. rewrite length_elem_not in E. cbn in E. lia.
  - assert (2 ^ 64 <= w).
    { apply Z.pow_le_mono_r; [lia|]. assert (0 <= Z.log2 (Z.abs x) / 64) by (apply Z.div_pos; [apply Z.log2_nonneg|lia]). lia. }
    subst r. clearbody w. destruct (Z.ltb_spec x 0); lia.
Qed.

Example C98_not_demo :
  yields 11 [0; 5; 38] (bi_not true 31) demo_st (- (2 ^ 64 - 1 - 7)) /\
  yields 11 demo_hs (bi_bitxor true 38 31) demo_st (Z.lxor 9 7) /\ - (2 ^ 64 - 1 - 7) <> 7 - 1.
Proof.
  split; [|split; [|discriminate]].
  - apply (C98_not_partial true 11 demo_st [0; 5; 38] 31 (-7)).
    + eapply con_perm; [|exact demo_consistent]. apply Permutation.perm_swap.
    + exact demo_room0.
    + exact (proj1 (proj2 demo_b')).
    + discriminate.
  - apply (C98_signs_partial true 11 demo_st demo_hs 38 31 9 (-7) demo_consistent demo_room0).
    + split; [exact (proj1 demo_d)|]. split; [exact (proj2 demo_d)|discriminate].
    + split; [exact (proj1 demo_b')|exact (proj1 (proj2 demo_b'))].
Qed.
Print Assumptions C98_signs_partial.
Print Assumptions C98_not_partial.
