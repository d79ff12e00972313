(** More on C79, C81 and C82: rationals. *)
From Coq Require Import ZArith QArith Qround Qabs List Bool Lia.
From Verif Require Import Base Words Spec Arith BitSliceModel BitSliceProofs PrimModel PrimProofs PropPrim
  FixedModel RatModel RealSpec RealProofs RatProofs PropReals PropReals3.
Import ListNotations.
Local Open Scope Z_scope.

(** ** C79: with overflow checks *)

Lemma arith_true t v r : arith true t v = Ok r -> r = v /\ fits t v.
Proof.
  unfold arith. destruct (in_range t v) eqn:E; [|discriminate]. intros H. inversion H. split; auto.
  apply in_range_iff. subst; auto.
Qed.

(** Whatever is returned is exact; and something is returned unless an intermediate product or sum
    does not fit, the minimum of a signed type comes up, or the divisor is zero. *)
Theorem C79_checked_exact : forall fuel t a b r, setting t fuel -> rat_ok t a -> rat_ok t b ->
  (rat_add true fuel t a b = Ok r -> rat_ok t r /\ (rat_val r == rat_val a + rat_val b)%Q) /\
  (rat_sub true fuel t a b = Ok r -> rat_ok t r /\ (rat_val r == rat_val a - rat_val b)%Q) /\
  (rat_mul true fuel t a b = Ok r -> rat_ok t r /\ (rat_val r == rat_val a * rat_val b)%Q) /\
  (rat_div true fuel t a b = Ok r -> rat_ok t r /\ ~ (rat_val b == 0)%Q /\ (rat_val r == rat_val a / rat_val b)%Q) /\
  (rat_neg true t a = Ok r -> rat_ok t r /\ (rat_val r == - rat_val a)%Q).
Proof.
  intros fuel t a b r (Hb & H1 & He) (Ha1 & Ha2 & Ha3) (Hb1 & Hb2 & Hb3).
  assert (forall n d, (do x <- arith true t n ;; do y <- arith true t d ;; rat_new_unwrap fuel t x y) = Ok r ->
    rat_ok t r /\ d <> 0 /\ (rat_val r == frac n d)%Q) as K.
  { intros n d E. destruct (arith true t n) as [x| |] eqn:Ex; cbn [bind] in E; try discriminate.
    destruct (arith true t d) as [y| |] eqn:Ey; cbn [bind] in E; try discriminate.
    apply arith_true in Ex, Ey. destruct Ex as [-> Fn], Ey as [-> Fd].
    apply (new_unwrap_good fuel t Hb H1 He) in E; auto. }
  unfold rat_val at 2 3 5 6 8 9 10 12 13 15. unfold frac at 1 2 3 4 5 6 7 8 9 10.
  unfold rat_add, rat_sub, rat_mul, rat_div, rat_neg.
  split; [|split; [|split; [|split]]].
  - destruct (arith true t (num a * denom b)) eqn:E1; cbn [bind]; try discriminate.
    destruct (arith true t (num b * denom a)) eqn:E2; cbn [bind]; try discriminate.
    apply arith_true in E1, E2. destruct E1 as [-> _], E2 as [-> _]. intros E. apply K in E.
    destruct E as (G & D & V). split; auto. rewrite V. unfold frac. rewrite inject_Z_plus, !inject_Z_mult.
    field. split; apply inj_nz; auto.
  - destruct (arith true t (num a * denom b)) eqn:E1; cbn [bind]; try discriminate.
    destruct (arith true t (num b * denom a)) eqn:E2; cbn [bind]; try discriminate.
    apply arith_true in E1, E2. destruct E1 as [-> _], E2 as [-> _]. intros E. apply K in E.
    destruct E as (G & D & V). split; auto. rewrite V. unfold frac, Z.sub.
    rewrite inject_Z_plus, inject_Z_opp, !inject_Z_mult. field. split; apply inj_nz; auto.
  - intros E. apply K in E. destruct E as (G & D & V). split; auto. rewrite V. unfold frac. rewrite !inject_Z_mult.
    field. split; apply inj_nz; auto.
  - intros E. apply K in E. destruct E as (G & D & V). assert (num b <> 0) as Hn by (intros E0; apply D; rewrite E0; lia).
    split; auto. split.
    + assert (0 == frac 0 1)%Q as -> by reflexivity. unfold frac. fold (frac (num b) (denom b)) (frac 0 1).
      rewrite frac_eq by (auto; lia). lia.
    + rewrite V. unfold frac. rewrite !inject_Z_mult. field. repeat split; apply inj_nz; auto.
  - destruct (arith true t (- num a)) eqn:E1; cbn [bind]; try discriminate. apply arith_true in E1. destruct E1 as [-> F].
    intros E. inversion E; subst. split; [repeat split; cbn; try apply F; try apply Ha2; auto|].
    unfold rat_val, frac. cbn [num denom]. rewrite inject_Z_opp. field. apply inj_nz; auto.
Qed.
Print Assumptions C79_checked_exact.

Lemma gcd_with_one t x f : x <= -2 -> prim_gcd (S (S (S f))) t x 1 = Ok 1 /\ prim_gcd (S (S (S f))) t 1 x = Ok 1.
Proof.
  intros H. assert (Z.rem 1 x = 1) as R. { pose proof (Z.rem_small 1 (- x)). rewrite Z.rem_opp_r in H0 by lia. lia. }
  assert (gcd_loop (S (S (S f))) t x 1 = Ok 1) as E.
  { cbn [gcd_loop]. replace (x =? 0) with false by lia. unfold prim_rem at 1. replace (x =? 0) with false by lia.
    replace (x =? -1) with false by lia. rewrite andb_false_r. cbn [bind]. rewrite R. cbn [Z.eqb].
    unfold prim_rem. cbn [Z.eqb]. rewrite andb_false_r. cbn [bind]. rewrite Z.rem_1_r. reflexivity. }
  unfold prim_gcd. cbn [Z.eqb]. rewrite andb_false_r. cbn [andb]. replace (x <=? 1) with true by lia. replace (1 <=? x) with false by lia. auto.
Qed.

Lemma rem_coprime x y : y <> 0 -> Z.gcd x y = 1 -> Z.rem x y = 0 -> Z.abs y = 1.
Proof.
  intros H G R. apply Z.rem_divide in R; auto. assert (Z.divide y (Z.gcd x y)) as D by (apply Z.gcd_greatest; auto; apply Z.divide_refl).
  rewrite G in D. apply Z.divide_1_r in D. lia.
Qed.

(** Exactly when [Rat::new] panics on a signed type: one of the two is the minimum, and they have no common factor but the one
    found is -1.  This includes every such pair of negative numbers. *)
Theorem C79_new_panic_partial : forall fuel t n d, setting t fuel -> isigned t = true -> fits t n -> fits t d -> d <> 0 ->
  (rat_new fuel t n d = Panic <-> (n = imin t \/ d = imin t) /\ (n = -1 \/ d = -1 \/ prim_gcd fuel t n d = Ok (-1))) /\
  ((n = imin t \/ d = imin t) -> n < 0 -> d < 0 -> Z.gcd n d = 1 -> rat_new fuel t n d = Panic).
Proof.
  intros fuel t n d (Hb & H1 & He) Hs Hn Hd Hd0.
  assert (imin t <= -2 /\ fits t (imin t)) as [Hm Fm].
  { unfold fits, repr, imin, imax in *. rewrite Hs in *. destruct (Z.eq_dec (Z.of_nat (ibits t)) 1) as [E|E]; [rewrite E in *; cbn in *; lia|].
    assert (2 ^ 1 <= 2 ^ (Z.of_nat (ibits t) - 1)) by (apply Z.pow_le_mono_r; lia). lia. }
  assert (rat_new fuel t n d = Panic <-> (n = imin t \/ d = imin t) /\ (n = -1 \/ d = -1 \/ prim_gcd fuel t n d = Ok (-1))) as K.
  { assert (rat_new fuel t n d = Panic <-> rat_reduce fuel t n d = Panic) as ->.
    { unfold rat_new. rewrite (proj2 (Z.eqb_neq _ _)) by auto. destruct (rat_reduce fuel t n d); cbn [bind]; split; intros; auto; discriminate. }
    split.
    - intros P. split; [apply (reduce_panic fuel t Hb He n d); auto|].
      destruct (Z.eq_dec n (-1)); auto. destruct (Z.eq_dec d (-1)); auto. right. right.
      revert P. unfold rat_reduce. destruct (Z.eqb_spec n 0) as [|Hn0]; [discriminate|].
      rewrite (prim_rem_ok t n d), (prim_rem_ok t d n) by (auto; intros; tauto). cbn [bind].
      destruct (gcd_cases fuel t n d) as (g & Eg & Rg & Ag); auto; [lia|intros; split; intros [? ?]; lia|].
      rewrite Eg. cbn [bind]. pose proof (gcd_nz g n d Ag Hd0) as Hg0. destruct (Z.eq_dec g (-1)) as [->|Hg]; auto.
      rewrite !prim_div_ok by (auto; intros; tauto). cbn [bind].
      destruct ((n =? 1) && (d =? 1)); [discriminate|]. cbn [bind].
      destruct (_ =? 0); [discriminate|]. cbn [bind]. destruct (_ =? 0); discriminate.
    - intros [M G]. unfold rat_reduce.
      destruct (Z.eq_dec d (-1)) as [->|D1].
      { destruct M as [->|M]; [|lia]. replace (imin t =? 0) with false by lia. replace (imin t =? 1) with false by lia. cbn [andb].
        unfold prim_rem. rewrite Hs, Z.eqb_refl. reflexivity. }
      destruct (Z.eq_dec n (-1)) as [->|N1].
      { destruct M as [M| ->]; [lia|]. cbn [Z.eqb andb]. rewrite prim_rem_ok by (auto; intros; lia). cbn [bind].
        destruct (Z.eqb_spec (Z.rem (-1) (imin t)) 0) as [R|R].
        - apply Z.rem_divide in R; [|lia]. apply Z.divide_opp_r in R. apply Z.divide_1_r in R. lia.
        - unfold prim_rem. rewrite Hs, Z.eqb_refl. reflexivity. }
      destruct G as [G|[G|G]]; try contradiction.
      assert (forall x, x <= -2 -> prim_gcd fuel t x 1 = Ok 1 /\ prim_gcd fuel t 1 x = Ok 1) as K1.
      { intros x Hx. assert (4 <= 2 ^ (Z.of_nat (ibits t) + 1)) by (change 4 with (2 ^ 2); apply Z.pow_le_mono_r; lia).
        destruct fuel as [|[|[|f]]]; try lia. apply gcd_with_one; auto. }
      assert (Z.gcd n d = 1 /\ n <> 0) as [C N0].
      { destruct (gcd_cases fuel t n d) as (g & Eg & Rg & Ag); auto; [lia|intros; split; intros [? ?]; lia|].
        rewrite Eg in G. injection G as ->. assert (Z.gcd n d = 1) as C by (rewrite <- Ag; reflexivity).
        split; auto. intros ->. rewrite Z.gcd_0_l in C. lia. }
      rewrite (proj2 (Z.eqb_neq n 0) N0). replace ((n =? 1) && (d =? 1)) with false by lia.
      rewrite (prim_rem_ok t n d), (prim_rem_ok t d n) by (auto; intros; tauto). cbn [bind].
      destruct (Z.eqb_spec (Z.rem n d) 0) as [R|R].
      { apply rem_coprime in R; auto. exfalso. assert (d = 1) as -> by lia. destruct M as [->|M]; [|lia].
        rewrite (proj1 (K1 (imin t) Hm)) in G. discriminate. }
      cbn [bind]. destruct (Z.eqb_spec (Z.rem d n) 0) as [R2|R2].
      { apply rem_coprime in R2; [|auto|rewrite Z.gcd_comm; auto]. exfalso. assert (n = 1) as -> by lia. destruct M as [M| ->]; [lia|].
        rewrite (proj2 (K1 (imin t) Hm)) in G. discriminate. }
      rewrite G. cbn [bind]. unfold prim_div. change (-1 =? 0) with false. cbn [Z.eqb]. rewrite Hs. cbn [andb].
      destruct M as [->| ->]; rewrite Z.eqb_refl; cbn [andb]; [reflexivity|]. destruct (n =? imin t); reflexivity. }
  split; [exact K|]. intros M Nn Dn C. apply K. split; auto.
  destruct (Z.eq_dec n (-1)); auto. destruct (Z.eq_dec d (-1)); auto. right. right.
  assert (Z.abs n + Z.abs d < Z.of_nat fuel) as Hf.
  { unfold fits, repr, imin in *. rewrite Hs in *. rewrite Z.pow_add_r, Z.pow_1_r in He by lia.
    replace (Z.of_nat (ibits t)) with (Z.of_nat (ibits t) - 1 + 1) in He by lia. rewrite Z.pow_add_r in He by lia. lia. }
  rewrite (C67_gcd_nonpos_partial t n d fuel) by (auto; lia). rewrite C. reflexivity.
Qed.
Print Assumptions C79_new_panic_partial.

Example C79_new_panic_demo : setting i8 1000 /\ fits i8 (-128) /\ rat_new 1000 i8 (-128) 5 = Panic /\ prim_gcd 1000 i8 (-128) 5 = Ok (-1) /\
  rat_new 1000 i8 (-128) (-3) = Panic /\ rat_new 1000 i8 (-128) 3 = Ok (Some (mkRat (-128) 3)).
Proof. ex_tac. Qed.

Example C79_checked_demo : setting i8 1000 /\ rat_ok i8 (mkRat 7 10) /\ rat_ok i8 (mkRat (-9) 8) /\
  rat_add true 1000 i8 (mkRat 7 10) (mkRat (-9) 8) = Ok (mkRat (-17) 40) /\
  rat_mul true 1000 i8 (mkRat 7 10) (mkRat (-9) 8) = Ok (mkRat (-63) 80) /\
  rat_div true 1000 i8 (mkRat 7 10) (mkRat (-9) 8) = Ok (mkRat (-28) 45).
Proof.
  unfold setting, rat_ok, fits. cbn [num denom ibits].
  repeat split; try reflexivity; try lia; try (vm_compute; discriminate). cbn. lia.
Qed.

(** ** C81: rounding, all signs *)

(** [round] truncates and adds one when the remainder exceeds half the denominator, both with their
    signs: right for positive fractions only.  For two negative operands it goes up for fractions
    below one half. *)
Theorem C81_round_exact_partial : forall dbg fuel t a, (0 < ibits t)%nat -> fits t 2 -> rat_ok t a ->
  ~ (isigned t = true /\ num a = imin t /\ denom a = -1) ->
  exists r, rat_round dbg fuel t a = Ok r /\ denom r = 1 /\
    num r = toward_zero (rat_val a) + (if Z.quot (denom a) 2 <? Z.rem (num a) (denom a) then 1 else 0) /\
    (num a < 0 -> denom a < 0 -> let fraction := (rat_val a - inject_Z (toward_zero (rat_val a)))%Q in
       (fraction < 1 # 2)%Q -> Z.even (denom a) = true -> num r = toward_zero (rat_val a) + 1).
Proof.
  intros dbg fuel t a Hb H2 (Hn & Hd & H0) HM. pose proof (imin_le0 t Hb) as Hm. unfold rat_val.
  rewrite frac_toward_zero by auto. unfold rat_round. rewrite arith_in by exact H2. cbn [bind].
  rewrite prim_rem_ok by (auto; intros; tauto). cbn [bind].
  rewrite prim_div_ok by (try lia; intros; lia). cbn [bind].
  rewrite prim_div_ok by (auto; intros; tauto). cbn [bind]. change (1 + 1) with 2.
  set (add := if Z.quot (denom a) 2 <? Z.rem (num a) (denom a) then 1 else 0).
  assert (fits t (Z.quot (num a) (denom a))) as FQ.
  { apply quot_repr; auto. intros Hs. unfold fits, imin in Hd. rewrite Hs in Hd. lia. }
  assert (fits t (Z.quot (num a) (denom a) + add)) as F.
  { unfold add. destruct (Z.ltb_spec (Z.quot (denom a) 2) (Z.rem (num a) (denom a))) as [L|L]; [|rewrite Z.add_0_r; auto].
    assert (Z.abs (denom a) <> 1) as Hd1.
    { intros E. assert (denom a = 1 \/ denom a = -1) as [E1|E1] by lia; rewrite E1 in L.
      - rewrite Z.rem_1_r in L. vm_compute in L. discriminate L.
      - change (-1) with (- (1)) in L. rewrite Z.rem_opp_r, Z.rem_1_r in L by lia. vm_compute in L. discriminate L. }
    pose proof (Z.quot_rem' (num a) (denom a)) as QR. pose proof (Z.rem_bound_abs (num a) (denom a) H0) as RB.
    unfold fits in *. split; [lia|].
    assert (2 * Z.abs (Z.quot (num a) (denom a)) <= Z.abs (num a)) as B.
    { rewrite <- Z.quot_abs by auto. pose proof (Z.mul_quot_le (Z.abs (num a)) (Z.abs (denom a)) ltac:(lia) ltac:(lia)).
      assert (0 <= Z.quot (Z.abs (num a)) (Z.abs (denom a))) by (apply Z.quot_pos; lia). nia. }
    assert (- imax t - 1 <= imin t) by (unfold imin, imax in *; destruct (isigned t); lia). lia. }
  rewrite arith_in by exact F. cbn [bind].
  destruct (new_int fuel t (Z.quot (num a) (denom a) + add)) as (r & -> & _ & D & V).
  exists r. split; [auto|]. split; [auto|]. split; [auto|].
  intros N1 D1. cbv zeta. intros FR EV. rewrite V. f_equal. unfold add.
  assert (frac (num a) (denom a) - inject_Z (Z.quot (num a) (denom a)) == frac (Z.rem (num a) (denom a)) (denom a))%Q as EF.
  { unfold frac. rewrite (Z.rem_eq (num a)) by auto. unfold Z.sub.
    rewrite inject_Z_plus, inject_Z_opp, inject_Z_mult. field. apply inj_nz; auto. }
  rewrite EF in FR. rewrite <- frac_sgn in FR by auto. assert (1 # 2 == frac 1 2)%Q as E12 by reflexivity.
  rewrite E12, frac_lt in FR by lia.
  apply Z.even_spec in EV. destruct EV as [k EV]. rewrite EV in *. rewrite Z.mul_comm, Z.quot_mul by lia.
  rewrite (proj2 (Z.ltb_lt _ _)); auto. rewrite (Z.mul_comm k). lia.
Qed.
Print Assumptions C81_round_exact_partial.

Example C81_round_demo : (* 5/4 stored as -5/-4 rounds to 2, 7/4 stored as -7/-4 rounds to 1 *)
  rat_ok i8 (mkRat (-5) (-4)) /\ rat_round true 1000 i8 (mkRat (-5) (-4)) = Ok (mkRat 2 1) /\
  rat_round true 1000 i8 (mkRat (-7) (-4)) = Ok (mkRat 1 1).
Proof. unfold rat_ok, fits. cbn [num denom]. repeat split; try reflexivity; vm_compute; discriminate. Qed.

(** ** C82: negative denominators *)

(** Sign and absolute value are exactly the opposite. *)
Theorem C82_negative_denominator_partial : forall dbg t a, rat_ok t a -> denom a < 0 ->
  (rat_is_negative a = true <-> (0 < rat_val a)%Q) /\
  (rat_is_positive a = true <-> (rat_val a < 0)%Q) /\
  (rat_is_zero a = true <-> (rat_val a == 0)%Q) /\
  (fits t (Z.abs (num a)) -> gives t (- Qabs (rat_val a)) (rat_abs dbg t a)) /\
  (~ fits t (Z.abs (num a)) -> rat_abs true t a = Panic).
Proof.
  intros dbg t a (Hn & Hd & H0) HN. unfold rat_val.
  assert (frac (num a) (denom a) == frac (- num a) (- denom a))%Q as E by (symmetry; apply frac_sgn; auto).
  unfold rat_is_negative, rat_is_positive, prim_is_negative, prim_is_positive, rat_is_zero.
  split; [rewrite E, frac_pos_iff, Z.ltb_lt by lia; lia|]. split; [rewrite E, frac_neg_iff, Z.ltb_lt by lia; lia|].
  split.
  { assert (0 == frac 0 1)%Q as -> by reflexivity. rewrite frac_eq, Z.eqb_eq by lia. lia. }
  split.
  - intros F. unfold rat_abs, prim_abs. rewrite arith_in by exact F. cbn [bind]. eexists. split; [reflexivity|].
    split; [repeat split; cbn [num denom]; auto; apply F || apply Hd|]. unfold rat_val. cbn [num denom]. rewrite E.
    pose proof (frac_dist (- num a) (- denom a) 0 ltac:(lia)) as D. rewrite Z.mul_0_l, Z.sub_0_r in D.
    assert (Qabs (frac (- num a) (- denom a)) == frac (Z.abs (- num a)) (- denom a))%Q as ->.
    { rewrite <- D. apply Qabs_wd. change (inject_Z 0) with 0%Q. ring. }
    rewrite Z.abs_opp. unfold frac. rewrite inject_Z_opp. field. apply inj_nz; auto.
  - intros F. unfold rat_abs, prim_abs. rewrite arith_out by (unfold fits in F; lia). reflexivity.
Qed.
Print Assumptions C82_negative_denominator_partial.

Example C82_negative_demo : rat_ok i8 (mkRat 3 (-2)) /\ rat_is_positive (mkRat 3 (-2)) = true /\
  rat_abs true i8 (mkRat (-3) (-2)) = Ok (mkRat 3 (-2)) /\ (rat_val (mkRat (-3) (-2)) == 3 # 2)%Q.
Proof. unfold rat_ok, fits. cbn [num denom]. repeat split; try reflexivity; vm_compute; discriminate. Qed.
