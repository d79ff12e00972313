(** More on C75, C76 and C78, and C134: fixed-point types at the edge of their backing integer. *)
From Coq Require Import ZArith QArith Qround Qabs List Bool Lia.
From Verif Require Import Base Words Spec Arith BitSliceModel BitSliceProofs PrimModel PrimProofs PropPrim
  FixedModel RealSpec RealProofs PropReals.
Import ListNotations.
Local Open Scope Z_scope.

(** ** C75: [from_val] loses high bits in every build *)

Theorem C75_from_val_wraps : forall dbg t N v, (0 < ibits t)%nat -> (N < ibits t)%nat ->
  exists r, fx_from_val dbg t N v = Ok r /\ fits t r /\
    (r - v * 2 ^ Z.of_nat N) mod 2 ^ Z.of_nat (ibits t) = 0.
Proof.
  intros dbg t N v Hb HN. unfold fx_from_val, prim_shl. rewrite (proj2 (Nat.ltb_lt _ _) HN).
  eexists. split; [reflexivity|]. split; [apply wrap_range; auto|].
  rewrite Z.shiftl_mul_pow2, Zminus_mod, wrap_mod, Z.sub_diag by (auto; lia). apply Z.mod_0_l.
  pose proof (two_pow_pos (ibits t)). lia.
Qed.
Print Assumptions C75_from_val_wraps.

Example C75_from_val_demo : (* 40 with two fraction bits in an i8 becomes -24, in a debug build too *)
  fx_from_val true i8 2 40 = Ok (-96) /\ (fixed_val 2 (-96) == -24 # 1)%Q /\ ~ fits i8 (40 * 2 ^ Z.of_nat 2).
Proof. unfold fits. repeat split; try reflexivity. vm_compute. intuition discriminate. Qed.

(** ** C76: overflow *)

Theorem C76_overflow_partial : forall t N a b,
  (~ fits t (a * b) -> (0 < ibits t)%nat -> fx_mul true t a b = Panic /\
     exists r, fx_mul false t a b = Ok r /\ fits t r /\ (r - a * b) mod 2 ^ Z.of_nat (ibits t) = 0) /\
  (b <> 0 -> ~ fits t (toward_zero (fixed_val N a / fixed_val N b)) -> fits t a -> fits t b ->
     (0 < ibits t)%nat -> fx_div t a b = Panic).
Proof.
  intros t N a b. unfold fits. split.
  - intros H Hb. unfold fx_mul. rewrite !arith_out by lia. split; auto. eexists. split; [reflexivity|].
    split; [apply wrap_range; auto|]. rewrite Zminus_mod, wrap_mod, Z.sub_diag by auto. apply Z.mod_0_l.
    pose proof (two_pow_pos (ibits t)). lia.
  - intros Hb H Ha Hb' Ht.
    assert (toward_zero (fixed_val N a / fixed_val N b) = Z.quot a b) as E.
    { rewrite <- frac_toward_zero by auto. apply toward_zero_proper.
      unfold frac, fixed_val. pose proof (two_pow_pos N). field. split; apply inj_nz; lia. }
    rewrite E in H. unfold fx_div, prim_div. rewrite (proj2 (Z.eqb_neq _ _)) by auto.
    destruct (isigned t && (a =? imin t) && (b =? -1)) eqn:F; auto. exfalso. apply H.
    apply quot_repr; auto.
    + intros Hs [E1 E2]. rewrite Hs, E1, E2, !Z.eqb_refl in F. discriminate F.
    + intros Hs. unfold imin in Hb'. rewrite Hs in Hb'. lia.
Qed.
Print Assumptions C76_overflow_partial.

Example C76_overflow_demo : ~ fits i8 (16 * 8) /\ fx_mul true i8 16 8 = Panic /\ fx_mul false i8 16 8 = Ok (-128) /\
  fx_div i8 (-128) (-1) = Panic.
Proof. unfold fits. split; [vm_compute; intuition discriminate|]. vm_compute. auto. Qed.

(** ** C78: 2 is not representable *)

(** With overflow checks [round] panics; without them it panics for unsigned types and is the
    ceiling for signed ones. *)
Theorem C78_two_partial : forall t N x, (0 < ibits t)%nat -> one_fits t N -> ~ fits t (2 * 2 ^ Z.of_nat N) -> fits t x ->
  fx_round true t N x = Panic /\
  (isigned t = false -> fx_round false t N x = Panic) /\
  (isigned t = true -> exact false t N (inject_Z (Qceiling (fixed_val N x))) (fx_round false t N x)).
Proof.
  intros t N x Hb H1 H2 Hx. unfold one_fits, fits in *. pose proof (two_pow_pos N) as HP.
  pose proof (pow_half _ Hb) as [EH PH]. pose proof (imin_le0 t Hb) as Hm.
  assert (2 * 2 ^ Z.of_nat N < imin t \/ imax t < 2 * 2 ^ Z.of_nat N) as H2' by lia.
  pose proof (N_lt t N Hb H1) as HN.
  assert (2 * 2 ^ Z.of_nat N = if isigned t then 2 ^ (Z.of_nat (ibits t) - 1) else 2 ^ Z.of_nat (ibits t)) as E2.
  { assert (Z.of_nat N + 1 = if isigned t then Z.of_nat (ibits t) - 1 else Z.of_nat (ibits t)) as EN.
    { unfold imin, imax in *. replace (2 * 2 ^ Z.of_nat N) with (2 ^ (Z.of_nat N + 1)) in H2'
        by (rewrite Z.pow_add_r by lia; change (2 ^ 1) with 2; lia).
      destruct (isigned t).
      - assert (2 ^ (Z.of_nat N) < 2 ^ (Z.of_nat (ibits t) - 1)) as L by lia. apply Z.pow_lt_mono_r_iff in L; [|lia|lia].
        assert (2 ^ (Z.of_nat (ibits t) - 1) <= 2 ^ (Z.of_nat N + 1)) as L2 by lia.
        apply Z.pow_le_mono_r_iff in L2; lia.
      - assert (2 ^ (Z.of_nat (ibits t)) <= 2 ^ (Z.of_nat N + 1)) as L2 by lia.
        apply Z.pow_le_mono_r_iff in L2; lia. }
    replace (2 * 2 ^ Z.of_nat N) with (2 ^ (Z.of_nat N + 1)) by (rewrite Z.pow_add_r by lia; change (2 ^ 1) with 2; lia).
    rewrite EN. destruct (isigned t); auto. }
  assert (forall dbg, fx_round dbg t N x = bind (arith dbg t (2 * 2 ^ Z.of_nat N)) (fun two =>
    do half <- fx_div t (2 ^ Z.of_nat N) two ;; do f0 <- fx_fract dbg t N x ;;
    do f <- (if 0 <=? f0 then Ok f0 else do o <- fx_one dbg t N ;; fx_sub dbg t o f0) ;;
    if half <? f then fx_ceil dbg t N x else fx_floor dbg t N x)) as ER.
  { intros dbg. unfold fx_round. rewrite !(one_ok dbg t N Hb H1). cbn [bind]. unfold fx_add.
    replace (2 ^ Z.of_nat N + 2 ^ Z.of_nat N) with (2 * 2 ^ Z.of_nat N) by lia. reflexivity. }
  rewrite !ER, !arith_out by auto. cbn [bind]. split; [auto|]. split; intros Hs; rewrite Hs in E2.
  - replace (wrap t (2 * 2 ^ Z.of_nat N)) with 0; [reflexivity|]. rewrite E2. unfold wrap. rewrite Z_mod_same_full, Hs. reflexivity.
  - assert (wrap t (2 * 2 ^ Z.of_nat N) = - (2 * 2 ^ Z.of_nat N)) as ->.
    { apply wrap_unique; auto.
      - unfold imin, imax. rewrite Hs. lia.
      - rewrite EH, <- E2. replace (- (2 * 2 ^ Z.of_nat N)) with (2 * 2 ^ Z.of_nat N + (-1) * (2 * (2 * 2 ^ Z.of_nat N))) by lia.
        apply Z.mod_add. lia. }
    unfold fx_div. rewrite prim_div_ok by (try lia; intros; lia). cbn [bind].
    assert (Z.quot (2 ^ Z.of_nat N) (- (2 * 2 ^ Z.of_nat N)) = 0) as ->.
    { rewrite Z.quot_opp_r by lia. rewrite Z.quot_small by lia. reflexivity. }
    rewrite (fract_ok false t N Hb H1). cbn [bind].
    assert (Z.rem x (2 ^ Z.of_nat N) = 0 <-> x mod 2 ^ Z.of_nat N = 0) as Hz.
    { rewrite Z.rem_divide, Z.mod_divide by lia. tauto. }
    pose proof (Z.rem_bound_abs x (2 ^ Z.of_nat N) ltac:(lia)) as Hr.
    replace (do f <- (if 0 <=? Z.rem x (2 ^ Z.of_nat N) then Ok (Z.rem x (2 ^ Z.of_nat N))
      else do o <- fx_one false t N ;; fx_sub false t o (Z.rem x (2 ^ Z.of_nat N))) ;;
      if 0 <? f then fx_ceil false t N x else fx_floor false t N x) with (fx_ceil false t N x); [apply C77_ceil; auto|].
    destruct (Z.leb_spec 0 (Z.rem x (2 ^ Z.of_nat N))) as [L|L]; cbn [bind].
    + destruct (Z.ltb_spec 0 (Z.rem x (2 ^ Z.of_nat N))); auto.
      unfold fx_ceil. rewrite whole_ok by auto. cbn [bind].
      rewrite (proj2 (Z.eqb_eq _ _)) by (apply Hz; lia). auto.
    + rewrite (one_ok false t N Hb H1). cbn [bind]. unfold fx_sub. rewrite arith_in.
      2:{ unfold imin, imax. rewrite Hs. lia. }
      cbn [bind]. rewrite (proj2 (Z.ltb_lt _ _)) by lia. auto.
Qed.
Print Assumptions C78_two_partial.

Example C78_two_demo : one_fits i8 6 /\ ~ fits i8 (2 * 2 ^ Z.of_nat 6) /\ fx_round true i8 6 (-5) = Panic /\
  fx_round false i8 6 (-5) = Ok 0 /\ one_fits u8 7 /\ ~ fits u8 (2 * 2 ^ Z.of_nat 7) /\ fx_round false u8 7 9 = Panic.
Proof. unfold one_fits, fits. repeat split; try reflexivity; vm_compute; intuition discriminate. Qed.

(** ** C134 *)

(** A signed type whose bits but the sign are all fraction bits. *)
Definition all_fraction (t : ity) (N : nat) : Prop := isigned t = true /\ ibits t = S N /\ (0 < N)%nat.

Section AllFraction.
Variables (dbg : bool) (t : ity) (N : nat).
Hypothesis H : all_fraction t N.
Let P := 2 ^ Z.of_nat N.

Lemma af_facts : 1 < P /\ imin t = - P /\ imax t = P - 1 /\ 2 ^ Z.of_nat (ibits t) = 2 * P /\ (0 < ibits t)%nat /\
  Nat.ltb N (ibits t) = true.
Proof.
  destruct H as (Hs & Hn & H0). unfold P, imin, imax. rewrite Hs, Hn.
  replace (Z.of_nat (S N) - 1) with (Z.of_nat N) by lia. split; [apply Z.pow_gt_1; lia|].
  rewrite Nat2Z.inj_succ, Z.pow_succ_r by lia. repeat split; try lia. apply Nat.ltb_lt. lia.
Qed.

Lemma af_one : fx_one dbg t N = Ok (- P).
Proof.
  destruct af_facts as (HP & Hm & HM & HB & Hb & HL). unfold fx_one, prim_shl. rewrite HL, Z.shiftl_1_l. fold P. f_equal.
  apply wrap_unique; [auto|lia|]. rewrite HB. replace (- P) with (P + (-1) * (2 * P)) by lia. apply Z.mod_add. lia.
Qed.

Lemma af_floor x : fits t x -> fx_floor dbg t N x = Ok (x / P * P).
Proof.
  intros Hx. destruct af_facts as (HP & Hm & HM & HB & Hb & HL). unfold fx_floor, prim_shr, prim_shl. rewrite HL. cbn [bind].
  rewrite Z.shiftr_div_pow2, Z.shiftl_mul_pow2 by lia. fold P. rewrite wrap_id; auto. unfold fits in Hx.
  assert (-1 <= x / P) by (apply Z.div_le_lower_bound; lia). assert (x / P < 1) by (apply Z.div_lt_upper_bound; lia). nia.
Qed.

Lemma af_fract x : fx_fract dbg t N x = Ok (Z.rem x P).
Proof.
  destruct af_facts as (HP & Hm & HM & HB & Hb & HL). unfold fx_fract. rewrite af_one. cbn [bind]. unfold fx_rem.
  rewrite prim_rem_ok by (try lia; intros; lia). rewrite Z.rem_opp_r by lia. reflexivity.
Qed.

Lemma af_trunc x : fits t x -> fx_trunc dbg t N x = Ok (Z.quot x P * P).
Proof.
  intros Hx. destruct af_facts as (HP & Hm & HM & HB & Hb & HL). unfold fx_trunc. rewrite af_fract. cbn [bind]. unfold fx_sub.
  pose proof (Z.quot_rem' x P). replace (x - Z.rem x P) with (Z.quot x P * P) by lia.
  apply arith_in. unfold fits in Hx. destruct (Z_lt_le_dec x 0).
  - pose proof (Z.rem_nonpos x P ltac:(lia) ltac:(lia)). pose proof (Z.rem_opp_l x P ltac:(lia)) as E.
    pose proof (Z.rem_le (- x) P ltac:(lia) ltac:(lia)). lia.
  - pose proof (Z.rem_nonneg x P ltac:(lia) ltac:(lia)). pose proof (Z.rem_le x P ltac:(lia) ltac:(lia)). lia.
Qed.
End AllFraction.

(** There [floor], [trunc] and [fract] are right. *)
Theorem C134_floor_trunc_fract_partial : forall dbg t N x, all_fraction t N -> fits t x ->
  exists fl w f, fx_floor dbg t N x = Ok fl /\ fx_trunc dbg t N x = Ok w /\ fx_fract dbg t N x = Ok f /\
    (fixed_val N fl == inject_Z (Qfloor (fixed_val N x)))%Q /\
    (fixed_val N w == inject_Z (toward_zero (fixed_val N x)))%Q /\
    (fixed_val N x == fixed_val N w + fixed_val N f)%Q.
Proof.
  intros dbg t N x H Hx. pose proof (two_pow_pos N) as HP. do 3 eexists.
  split; [apply af_floor; auto|]. split; [apply af_trunc; auto|]. split; [apply af_fract; auto|]. split; [|split].
  - rewrite val_mul, fixed_frac, frac_floor. reflexivity.
  - rewrite val_mul, fixed_frac, frac_toward_zero by lia. reflexivity.
  - unfold fixed_val. rewrite (Z.quot_rem' x (2 ^ Z.of_nat N)) at 1.
    rewrite inject_Z_plus, !inject_Z_mult. field. apply inj_nz. lia.
Qed.
Print Assumptions C134_floor_trunc_fract_partial.

(** With overflow checks [ceil] always panics there, even where the answer is 0 or -1; without them it
    is the ceiling reduced modulo 2 to the range (1 becomes -1).  [round] panics in every build. *)
Theorem C134_ceil_round_partial : forall t N x, all_fraction t N -> fits t x ->
  fx_ceil true t N x = Panic /\
  (exists r, fx_ceil false t N x = Ok r /\ fits t r /\
     (fixed_val N r == inject_Z (if Qceiling (fixed_val N x) =? 1 then -1 else Qceiling (fixed_val N x)))%Q) /\
  forall dbg, fx_round dbg t N x = Panic.
Proof.
  intros t N x H Hx. destruct (af_facts t N H) as (HP & Hm & HM & HB & Hb & HL). set (P := 2 ^ Z.of_nat N) in *.
  assert (forall dbg, prim_shl dbg t 1 N = Ok (- P)) as E1 by (intros dbg; apply (af_one dbg t N H)).
  split; [|split].
  - unfold fx_ceil, fx_is_whole, fx_mask. rewrite E1. cbn [bind]. rewrite arith_out by lia. reflexivity.
  - assert (fx_is_whole false t N x = Ok (x mod P =? 0)) as EW.
    { unfold fx_is_whole, fx_mask. rewrite E1. cbn [bind]. rewrite arith_out by lia. cbn [bind].
      assert (wrap t (- P - 1) = P - 1) as ->.
      { apply wrap_unique; [auto|lia|]. rewrite HB. replace (P - 1) with (- P - 1 + 1 * (2 * P)) by lia. apply Z.mod_add. lia. }
      unfold prim_not. rewrite wrap_id by (auto; unfold Z.lnot; lia). rewrite <- Z.ldiff_land.
      replace (P - 1) with (Z.ones (Z.of_nat N)) by (rewrite Z.ones_equiv; unfold P; lia).
      rewrite Z.ldiff_ones_r, Z.shiftl_mul_pow2, Z.shiftr_div_pow2 by lia. fold P. f_equal.
      pose proof (Z.div_mod x P ltac:(lia)). destruct (Z.eqb_spec (x mod P) 0); [apply Z.eqb_eq|apply Z.eqb_neq]; lia. }
    unfold fx_ceil. rewrite EW. cbn [bind].
    assert (-1 <= x / P < 1) as HD.
    { unfold fits in Hx. split; [apply Z.div_le_lower_bound; lia|apply Z.div_lt_upper_bound; lia]. }
    pose proof (Z.div_mod x P ltac:(lia)) as DM. rewrite fixed_frac, frac_ceil. fold P.
    destruct (Z.eqb_spec (x mod P) 0) as [E0|E0].
    + rewrite (af_floor false t N H) by auto. fold P. eexists. split; [reflexivity|]. split; [unfold fits; nia|].
      rewrite Z.div_opp_l_z by lia. replace (- - (x / P)) with (x / P) by lia.
      destruct (Z.eqb_spec (x / P) 1); [lia|]. apply val_mul.
    + rewrite (af_floor false t N H) by auto. cbn [bind]. unfold fx_one. rewrite E1. cbn [bind]. fold P. unfold fx_add.
      rewrite Z.div_opp_l_nz by lia. replace (- (- (x / P) - 1)) with (x / P + 1) by lia.
      assert (x / P = -1 \/ x / P = 0) as [Eq|Eq] by lia; rewrite Eq.
      * replace (-1 * P + - P) with (- (2 * P)) by lia. rewrite arith_out by lia. exists 0. split; [f_equal|].
        -- apply wrap_unique; [auto|lia|]. rewrite HB. replace (- (2 * P)) with (-1 * (2 * P)) by lia.
           rewrite Z.mod_mul, Z.mod_0_l by lia. reflexivity.
        -- split; [unfold fits; lia|]. reflexivity.
      * replace (0 * P + - P) with (-1 * P) by lia. rewrite arith_in by lia. eexists. split; [reflexivity|].
        split; [unfold fits; lia|]. apply (val_mul N (-1)).
  - intros dbg. unfold fx_round, fx_one. rewrite !E1. cbn [bind]. unfold fx_add. rewrite arith_out by lia.
    destruct dbg; [reflexivity|]. cbn [bind]. replace (wrap t (- P + - P)) with 0; [reflexivity|].
    symmetry. apply wrap_unique; [auto|lia|]. rewrite HB. replace (- P + - P) with (-1 * (2 * P)) by lia.
    rewrite Z.mod_mul, Z.mod_0_l by lia. reflexivity.
Qed.
Print Assumptions C134_ceil_round_partial.

(** As many fraction bits as the type has, or more: with overflow checks everything that needs the
    position of the point panics; without them the number of fraction bits is reduced modulo the
    number of bits. *)
Theorem C134_too_many_bits_partial : forall t N x, (ibits t <= N)%nat -> (0 < ibits t)%nat ->
  (fx_from_val true t N x = Panic /\ fx_one true t N = Panic /\ fx_is_one true t N x = Panic /\
   fx_is_whole true t N x = Panic /\ fx_floor true t N x = Panic /\ fx_ceil true t N x = Panic /\
   fx_fract true t N x = Panic /\ fx_trunc true t N x = Panic /\ fx_round true t N x = Panic) /\
  let M := Nat.modulo N (ibits t) in
  fx_from_val false t N x = fx_from_val false t M x /\ fx_one false t N = fx_one false t M /\
  fx_is_one false t N x = fx_is_one false t M x /\ fx_is_whole false t N x = fx_is_whole false t M x /\
  fx_floor false t N x = fx_floor false t M x /\ fx_ceil false t N x = fx_ceil false t M x /\
  fx_fract false t N x = fx_fract false t M x /\ fx_trunc false t N x = fx_trunc false t M x /\
  fx_round false t N x = fx_round false t M x.
Proof.
  intros t N x HN Hb.
  assert (forall y, prim_shl true t y N = Panic) as EL.
  { intros y. unfold prim_shl. rewrite (proj2 (Nat.ltb_ge _ _)) by lia. reflexivity. }
  assert (forall y, prim_shr true t y N = Panic) as ER.
  { intros y. unfold prim_shr. rewrite (proj2 (Nat.ltb_ge _ _)) by lia. reflexivity. }
  split.
  - repeat split; unfold fx_from_val, fx_is_one, fx_trunc, fx_round, fx_ceil, fx_is_whole, fx_mask, fx_floor, fx_fract, fx_one;
      rewrite ?EL, ?ER; reflexivity.
  - cbv zeta. set (M := Nat.modulo N (ibits t)).
    assert ((M < ibits t)%nat) as HM by (apply Nat.mod_upper_bound; lia).
    assert (forall y, prim_shl false t y N = prim_shl false t y M) as EL'.
    { intros y. unfold prim_shl. rewrite (proj2 (Nat.ltb_ge _ _)), (proj2 (Nat.ltb_lt _ _)) by lia.
      unfold M. rewrite Nat2Z.inj_mod by lia. reflexivity. }
    assert (forall y, prim_shr false t y N = prim_shr false t y M) as ER'.
    { intros y. unfold prim_shr. rewrite (proj2 (Nat.ltb_ge _ _)), (proj2 (Nat.ltb_lt _ _)) by lia.
      unfold M. rewrite Nat2Z.inj_mod by lia. reflexivity. }
    assert (fx_one false t N = fx_one false t M) as E1 by apply EL'.
    assert (forall y, fx_floor false t N y = fx_floor false t M y) as EF.
    { intros y. unfold fx_floor. rewrite ER'. destruct (prim_shr false t y M); cbn [bind]; auto. }
    assert (forall y, fx_is_whole false t N y = fx_is_whole false t M y) as EW.
    { intros y. unfold fx_is_whole, fx_mask. rewrite EL'. reflexivity. }
    assert (forall y, fx_ceil false t N y = fx_ceil false t M y) as EC.
    { intros y. unfold fx_ceil. rewrite EW, EF, E1. reflexivity. }
    assert (forall y, fx_fract false t N y = fx_fract false t M y) as EX.
    { intros y. unfold fx_fract. rewrite E1. reflexivity. }
    split; [apply EL'|]. split; [auto|]. split; [unfold fx_is_one; rewrite E1; reflexivity|]. split; [apply EW|].
    split; [apply EF|]. split; [apply EC|]. split; [apply EX|]. split; [unfold fx_trunc; rewrite EX; reflexivity|].
    unfold fx_round. rewrite E1, EX, EC, EF. reflexivity.
Qed.
Print Assumptions C134_too_many_bits_partial.

(** -0.5 with seven fraction bits in an i8: the ceiling 0 is representable, yet [ceil] panics with
    overflow checks; 0.5 has ceiling -1 without them.  0.5 with eight fraction bits in a u8: the
    floor is 0.5 without overflow checks. *)
Theorem C134_refuted :
  (fixed_val 7 (-64) == -(1 # 2))%Q /\ fits i8 0 /\ (fixed_val 7 0 == 0)%Q /\ fx_ceil true i8 7 (-64) = Panic /\
  fx_ceil false i8 7 64 = Ok (-128) /\ (fixed_val 8 128 == 1 # 2)%Q /\ fx_floor false u8 8 128 = Ok 128.
Proof. unfold fits. repeat split; try reflexivity; vm_compute; discriminate. Qed.
Print Assumptions C134_refuted.

Example C134_demo : all_fraction i8 7 /\ fits i8 (-64) /\ fx_floor true i8 7 (-64) = Ok (-128) /\
  fx_fract true i8 7 (-64) = Ok (-64) /\ fx_ceil false i8 7 (-64) = Ok 0 /\ fx_round false i8 7 (-64) = Panic /\
  fx_from_val true u8 9 1 = Panic /\ fx_from_val false u8 9 1 = Ok 2.
Proof. unfold all_fraction, fits. repeat split; try reflexivity; try lia; vm_compute; discriminate. Qed.
