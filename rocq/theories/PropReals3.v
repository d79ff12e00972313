(** C80, C81 and C104 continued: which of its representations a rational keeps, rounding of negative
    rationals, and what overflow does to rounding and to printing. *)
From Coq Require Import ZArith QArith Qround Qabs List Bool Lia Znumtheory.
From Verif Require Import Base Words Spec TextSpec Arith BitSliceModel BitSliceProofs PrimModel PrimProofs PropPrim
  FixedModel RatModel RealSpec RealProofs RatProofs PropReals.
Import ListNotations.
Local Open Scope Z_scope.

(** ** C80 *)

(** The loop of [gcd] without its overflow test. *)
Fixpoint loop (fuel : nat) (mn mx : Z) : option Z :=
  match fuel with
  | O => None
  | S f => if mn =? 0 then Some mx else loop f (Z.rem mx mn) mn
  end.

Lemma gcd_loop_loop t : forall fuel mn mx g, gcd_loop fuel t mn mx = Ok g -> loop fuel mn mx = Some g.
Proof.
  induction fuel as [|fuel IH]; intros mn mx g; cbn [gcd_loop loop]; [discriminate|].
  destruct (Z.eqb_spec mn 0) as [|H]; [intros X; injection X as <-; auto|].
  unfold prim_rem. rewrite (proj2 (Z.eqb_neq _ _)) by auto. destruct (_ && _ && _); [discriminate|].
  cbn [bind]. apply IH.
Qed.

Lemma loop_more : forall f mn mx g k, loop f mn mx = Some g -> loop (k + f) mn mx = Some g.
Proof.
  induction f as [|f IH]; intros mn mx g k; cbn [loop]; [discriminate|].
  rewrite Nat.add_succ_r. cbn [loop]. destruct (mn =? 0); auto.
Qed.

Lemma loop_det f1 f2 mn mx g1 g2 : loop f1 mn mx = Some g1 -> loop f2 mn mx = Some g2 -> g1 = g2.
Proof.
  intros A B. apply (loop_more _ _ _ _ f2) in A. apply (loop_more _ _ _ _ f1) in B.
  rewrite Nat.add_comm in A. congruence.
Qed.

Lemma loop_scale k : k <> 0 -> forall f mn mx, loop f (k * mn) (k * mx) = option_map (Z.mul k) (loop f mn mx).
Proof.
  intros Hk. induction f as [|f IH]; intros mn mx; cbn [loop option_map]; auto.
  destruct (Z.eqb_spec mn 0) as [->|H].
  - rewrite Z.mul_0_r. reflexivity.
  - rewrite (proj2 (Z.eqb_neq _ _)) by nia. rewrite Z.mul_rem_distr_l by auto. apply IH.
Qed.

(** The operand of smaller and of larger absolute value. *)
Definition small (n d : Z) : Z := if Z.abs n <? Z.abs d then n else d.
Definition large (n d : Z) : Z := if Z.abs n <? Z.abs d then d else n.

Lemma small_scale k n d : k <> 0 -> small (n * k) (d * k) = k * small n d /\ large (n * k) (d * k) = k * large n d.
Proof.
  intros Hk. unfold small, large. rewrite !Z.abs_mul.
  destruct (Z.ltb_spec (Z.abs n * Z.abs k) (Z.abs d * Z.abs k)), (Z.ltb_spec (Z.abs n) (Z.abs d)); try nia; lia.
Qed.

Lemma gcd_order fuel t n d g : Z.abs n <> Z.abs d -> n <> 0 -> d <> 0 -> prim_gcd fuel t n d = Ok g ->
  exists f, loop f (small n d) (large n d) = Some g.
Proof.
  intros Ha Hn Hd. unfold prim_gcd. rewrite (proj2 (Z.eqb_neq n 0)) by auto. cbn [andb].
  assert (forall a b f, Z.abs b < Z.abs a -> loop (S f) a b = loop f b a) as Sw.
  { intros a b f H. cbn [loop]. rewrite (proj2 (Z.eqb_neq a 0)) by lia.
    rewrite (proj2 (Z.rem_small_iff b a ltac:(lia))) by auto. reflexivity. }
  unfold small, large.
  destruct (n <=? d) eqn:E; intros X; apply gcd_loop_loop in X; destruct (Z.ltb_spec (Z.abs n) (Z.abs d)); eauto.
  - destruct fuel as [|f]; [discriminate|]. rewrite Sw in X by lia. eauto.
  - destruct fuel as [|f]; [discriminate|]. rewrite Sw in X by lia. eauto.
Qed.

(** The number both parts are divided by. *)
Lemma stored_gcd fuel t n d r : setting t fuel -> fits t n -> fits t d -> n <> 0 ->
  rat_new fuel t n d = Ok (Some r) ->
  (((n | d) \/ (d | n)) -> num r = n /\ denom r = d) /\
  (~ (n | d) -> ~ (d | n) -> exists g, g <> 0 /\ prim_gcd fuel t n d = Ok g /\ n = num r * g /\ d = denom r * g /\
     Z.gcd (num r) (denom r) = 1).
Proof.
  intros (Hb & H1 & He) Hn Hd Hn0. unfold rat_new.
  destruct (Z.eqb_spec d 0) as [|Hd0]; [discriminate|]. unfold rat_reduce.
  rewrite (proj2 (Z.eqb_neq n 0)) by auto.
  destruct (if (n =? 1) && (d =? 1) then Ok true else _) as [w| |] eqn:Ew; [|discriminate|discriminate].
  cbn [bind].
  assert (w = true <-> ((n | d) \/ (d | n))) as Hw.
  { destruct ((n =? 1) && (d =? 1)) eqn:E1.
    - injection Ew as <-. apply andb_true_iff in E1. rewrite !Z.eqb_eq in E1. destruct E1 as [-> ->].
      split; auto. intros _. left. exists 1. auto.
    - destruct (prim_rem t n d) as [r1| |] eqn:R1; try discriminate. cbn [bind] in Ew.
      unfold prim_rem in R1. rewrite (proj2 (Z.eqb_neq d 0)) in R1 by auto.
      destruct (_ && _ && _); [discriminate|]. injection R1 as <-.
      destruct (Z.eqb_spec (Z.rem n d) 0) as [E|E].
      + injection Ew as <-. split; auto. intros _. right. apply Z.rem_divide; auto.
      + destruct (prim_rem t d n) as [r2| |] eqn:R2; try discriminate. cbn [bind] in Ew.
        unfold prim_rem in R2. rewrite (proj2 (Z.eqb_neq n 0)) in R2 by auto.
        destruct (_ && _ && _); [discriminate|]. injection R2 as <-. injection Ew as <-.
        rewrite Z.eqb_eq, (Z.rem_divide d n) by auto. split; auto.
        intros [H|H]; auto. apply Z.rem_divide in H; auto. contradiction. }
  destruct w.
  - cbn [bind]. intros X. injection X as <-. cbn [num denom]. split; auto. intros A B. exfalso. tauto.
  - intros X. split; [intros H; apply Hw in H; discriminate|]. intros A B.
    assert (isigned t = true -> ~ (n = imin t /\ d = -1) /\ ~ (n = -1 /\ d = imin t)) as Hex.
    { intros _. split; intros [-> ->]; [apply B; exists (- imin t); lia|apply A; exists (- imin t); lia]. }
    destruct (gcd_cases fuel t n d) as (g & Eg & Rg & Ag); auto; [lia|].
    rewrite Eg in X. cbn [bind] in X.
    destruct (prim_div t n g) as [n'| |] eqn:En'; try discriminate. cbn [bind] in X.
    destruct (prim_div t d g) as [d'| |] eqn:Ed'; try discriminate. cbn [bind] in X. injection X as <-.
    apply prim_div_inv in En'. apply prim_div_inv in Ed'.
    destruct En' as (_ & -> & _), Ed' as (_ & -> & _). cbn [num denom].
    pose proof (gcd_nz g n d Ag Hd0) as Hg0.
    pose proof (divide_quot _ _ Hg0 (gcd_div_l _ _ _ Ag)) as En.
    pose proof (divide_quot _ _ Hg0 (gcd_div_r _ _ _ Ag)) as Ed.
    exists g. do 2 (split; [assumption|]). split; [assumption|]. split; [assumption|].
    set (p := Z.quot n g) in *. set (q := Z.quot d g) in *. clearbody p q.
    rewrite En, Ed, Z.gcd_mul_mono_r in Ag. pose proof (Z.gcd_nonneg p q). nia.
Qed.

(** What [Rat::new] stores, for any signs: the two numbers as given when one of them divides
    the other, and otherwise lowest terms (up to a common sign). *)
Theorem C80_stored_partial : forall fuel t n d r, setting t fuel -> fits t n -> fits t d -> n <> 0 ->
  rat_new fuel t n d = Ok (Some r) ->
  (((n | d) \/ (d | n)) -> num r = n /\ denom r = d) /\
  (~ (n | d) -> ~ (d | n) -> Z.gcd (num r) (denom r) = 1 /\ num r * d = n * denom r).
Proof.
  intros fuel t n d r S Hn Hd Hn0 E. destruct (stored_gcd fuel t n d r S Hn Hd Hn0 E) as [A B].
  split; auto. intros N1 N2. destruct (B N1 N2) as (g & _ & _ & E1 & E2 & G). split; auto.
  rewrite E2, E1 at 1. ring.
Qed.
Print Assumptions C80_stored_partial.

(** Of the two ways to write lowest terms with a sign, [Rat::new] always picks the same, so
    that `==` is exact for all signs unless one number divides the other. *)
Theorem C80_eq_signed_partial : forall fuel t n1 d1 n2 d2 a b, setting t fuel ->
  fits t n1 -> fits t d1 -> fits t n2 -> fits t d2 -> n1 <> 0 -> n2 <> 0 ->
  ~ (n1 | d1) -> ~ (d1 | n1) -> ~ (n2 | d2) -> ~ (d2 | n2) ->
  rat_new fuel t n1 d1 = Ok (Some a) -> rat_new fuel t n2 d2 = Ok (Some b) ->
  (rat_eq a b = true <-> (frac n1 d1 == frac n2 d2)%Q).
Proof.
  intros fuel t n1 d1 n2 d2 a b S F1 F2 F3 F4 N1 N2 A1 A2 B1 B2 Ea Eb.
  destruct (proj2 (stored_gcd fuel t n1 d1 a S F1 F2 N1 Ea) A1 A2) as (g1 & G1 & P1 & X1 & Y1 & Ca).
  destruct (proj2 (stored_gcd fuel t n2 d2 b S F3 F4 N2 Eb) B1 B2) as (g2 & G2 & P2 & X2 & Y2 & Cb).
  assert (d1 <> 0) as D1 by (intros ->; apply A1; exists 0; lia).
  assert (d2 <> 0) as D2 by (intros ->; apply B1; exists 0; lia).
  assert (Z.abs n1 <> Z.abs d1) as Q1.
  { intros E. apply A1. apply Z.divide_abs_l. rewrite E. apply Z.divide_abs_l. apply Z.divide_refl. }
  assert (Z.abs n2 <> Z.abs d2) as Q2.
  { intros E. apply B1. apply Z.divide_abs_l. rewrite E. apply Z.divide_abs_l. apply Z.divide_refl. }
  destruct (gcd_order _ _ _ _ _ Q1 N1 D1 P1) as (f1 & L1). destruct (gcd_order _ _ _ _ _ Q2 N2 D2 P2) as (f2 & L2).
  rewrite X1, Y1 in L1. rewrite X2, Y2 in L2.
  destruct (small_scale g1 (num a) (denom a) G1) as [S1 S2]. destruct (small_scale g2 (num b) (denom b) G2) as [S3 S4].
  rewrite S1, S2, loop_scale in L1 by auto. rewrite S3, S4, loop_scale in L2 by auto.
  destruct (loop f1 (small (num a) (denom a)) _) as [u|] eqn:M1; [|discriminate].
  destruct (loop f2 (small (num b) (denom b)) _) as [v|] eqn:M2; [|discriminate].
  cbn [option_map] in L1, L2. injection L1 as L1. injection L2 as L2.
  assert (u = 1) as -> by nia. assert (v = 1) as -> by nia.
  rewrite frac_eq by auto. unfold rat_eq. rewrite andb_true_iff, !Z.eqb_eq. split.
  - intros [E1 E2]. rewrite X1, Y1, X2, Y2, E1, E2. ring.
  - intros E. assert (num a * denom b = num b * denom a) as E'.
    { apply (Z.mul_reg_r _ _ (g1 * g2)); [apply Z.neq_mul_0; auto|]. rewrite X1, Y1, X2, Y2 in E. lia. }
    assert (num a <> 0) as Na by (intros Z0; rewrite Z0 in X1; lia).
    assert (num b <> 0) as Nb by (intros Z0; rewrite Z0 in X2; lia).
    assert (num a | num b) as V1 by (apply (Z.gauss (num a) (denom a)); auto; exists (denom b); lia).
    assert (num b | num a) as V2 by (apply (Z.gauss (num b) (denom b)); auto; exists (denom a); lia).
    destruct (Z.divide_antisym _ _ V1 V2) as [X|X].
    + split; [auto|]. rewrite X in E'. apply (Z.mul_reg_l _ _ (num b) Nb). auto.
    + exfalso. assert (denom b = - denom a) as Y by (apply (Z.mul_reg_l _ _ (num b) Nb); rewrite X in E'; lia).
      destruct (small_scale (-1) (num a) (denom a) ltac:(lia)) as [T1 T2].
      replace (num a * -1) with (num b) in T1, T2 by lia. replace (denom a * -1) with (denom b) in T1, T2 by lia.
      rewrite T1, T2, loop_scale in M2 by lia.
      destruct (loop f2 (small (num a) (denom a)) _) as [u|] eqn:M3; [|discriminate].
      cbn [option_map] in M2. assert (-1 * u = 1) as M4 by congruence. pose proof (loop_det _ _ _ _ _ _ M1 M3) as M5. clear - M4 M5. lia.
Qed.
Print Assumptions C80_eq_signed_partial.

Example C80_signed_demo : setting i8 1000 /\ ~ (9 | -6) /\ ~ (-6 | 9) /\ ~ (-3 | 2) /\ ~ (2 | -3) /\
  rat_new 1000 i8 9 (-6) = Ok (Some (mkRat 3 (-2))) /\ rat_new 1000 i8 (-3) 2 = Ok (Some (mkRat 3 (-2))) /\
  rat_new 1000 i8 5 (-3) = Ok (Some (mkRat (-5) 3)) /\ rat_new 1000 i8 4 8 = Ok (Some (mkRat 4 8)).
Proof.
  split; [unfold setting, fits; cbn; repeat split; try lia; vm_compute; discriminate|].
  do 4 (split; [intros [k Hk]; lia|]). repeat split; vm_compute; reflexivity.
Qed.

Definition divides_either (n d : Z) : Prop := (n | d) \/ (d | n).

Lemma same_shape n1 d1 n2 d2 : n1 <> 0 -> n2 <> 0 -> d1 <> 0 -> d2 <> 0 -> n1 * d2 = n2 * d1 ->
  (divides_either n1 d1 -> divides_either n2 d2).
Proof.
  intros N1 N2 D1 D2 E [[k K]|[k K]]; [left|right]; exists k; subst.
  - apply (Z.mul_reg_l _ _ n1 N1). lia.
  - apply (Z.mul_reg_l _ _ d1 D1). lia.
Qed.

(** Exactly when two rationals made by [new] are equal: the fractions are, and, if one part divides the other, they were given
    by the same pair (or are zero). *)
Theorem C80_exact_partial : forall fuel t n1 d1 n2 d2 a b, setting t fuel ->
  fits t n1 -> fits t d1 -> fits t n2 -> fits t d2 ->
  rat_new fuel t n1 d1 = Ok (Some a) -> rat_new fuel t n2 d2 = Ok (Some b) ->
  (rat_eq a b = true <->
   (frac n1 d1 == frac n2 d2)%Q /\ ((n1 | d1) \/ (d1 | n1) -> n1 = 0 \/ n1 = n2 /\ d1 = d2)).
Proof.
  intros fuel t n1 d1 n2 d2 a b S F1 F2 F3 F4 Ea Eb.
  assert (forall n d r, rat_new fuel t n d = Ok (Some r) -> d <> 0) as Nd.
  { intros n d r E ->. discriminate E. }
  pose proof (Nd _ _ _ Ea) as D1. pose proof (Nd _ _ _ Eb) as D2.
  assert (forall d r, rat_new fuel t 0 d = Ok (Some r) -> r = mkRat 0 1) as Z0.
  { intros d r E. unfold rat_new in E. destruct (d =? 0); [discriminate|]. cbn in E. unfold rat_zero in E. congruence. }
  rewrite frac_eq by auto. unfold rat_eq. rewrite andb_true_iff, !Z.eqb_eq.
  destruct (Z.eq_dec n1 0) as [-> |N1]; destruct (Z.eq_dec n2 0) as [-> |N2].
  - rewrite (Z0 _ _ Ea), (Z0 _ _ Eb). split; auto.
  - rewrite (Z0 _ _ Ea). destruct (C80_stored_partial fuel t n2 d2 b S F3 F4 N2 Eb) as [A B]. cbn [num denom].
    split; [|intros [X _]; exfalso; apply N2; rewrite Z.mul_0_l in X; symmetry in X; apply Z.eq_mul_0_l in X; auto].
    intros [X Y]. exfalso. destruct (Znumtheory.Zdivide_dec n2 d2) as [V1|V1]; [destruct A; auto; lia|].
    destruct (Znumtheory.Zdivide_dec d2 n2) as [V2|V2]; [destruct A; auto; lia|].
    destruct (B V1 V2) as [_ W]. rewrite <- X, <- Y in W. lia.
  - rewrite (Z0 _ _ Eb). destruct (C80_stored_partial fuel t n1 d1 a S F1 F2 N1 Ea) as [A B]. cbn [num denom].
    split; [|intros [X _]; exfalso; apply N1; rewrite Z.mul_0_l in X; apply Z.eq_mul_0_l in X; auto].
    intros [X Y]. exfalso. destruct (Znumtheory.Zdivide_dec n1 d1) as [V1|V1]; [destruct A; auto; lia|].
    destruct (Znumtheory.Zdivide_dec d1 n1) as [V2|V2]; [destruct A; auto; lia|].
    destruct (B V1 V2) as [_ W]. rewrite X, Y in W. lia.
  - destruct (C80_stored_partial fuel t n1 d1 a S F1 F2 N1 Ea) as [A1 B1].
    destruct (C80_stored_partial fuel t n2 d2 b S F3 F4 N2 Eb) as [A2 B2].
    assert (forall n d, divides_either n d \/ ~ (n | d) /\ ~ (d | n)) as Dec.
    { intros n d. unfold divides_either. destruct (Znumtheory.Zdivide_dec n d), (Znumtheory.Zdivide_dec d n); tauto. }
    assert (num a = num b /\ denom a = denom b -> n1 * d2 = n2 * d1) as Sound.
    { intros [X Y]. assert (rat_eq a b = true) as Q by (unfold rat_eq; rewrite X, Y, !Z.eqb_refl; reflexivity).
      assert (forall n d r, divides_either n d \/ ~ (n | d) /\ ~ (d | n) ->
                ((n | d) \/ (d | n) -> num r = n /\ denom r = d) ->
                (~ (n | d) -> ~ (d | n) -> Z.gcd (num r) (denom r) = 1 /\ num r * d = n * denom r) -> num r * d = n * denom r) as V.
      { intros n d r [H|[H1 H2]] A B; [destruct (A H) as [-> ->]; ring|apply B; auto]. }
      pose proof (V _ _ _ (Dec n1 d1) A1 B1) as V1. pose proof (V _ _ _ (Dec n2 d2) A2 B2) as V2. rewrite <- X, <- Y in V2.
      assert (num a <> 0 \/ denom a <> 0) as Na.
      { destruct (Z.eq_dec (num a) 0) as [E|]; [|auto]. right. intros E'.
        destruct (Dec n1 d1) as [H|[H1 H2]]; [destruct (A1 H); lia|]. destruct (B1 H1 H2) as [G _]. rewrite E, E' in G. discriminate G. }
      assert (denom a <> 0) as Da.
      { intros E. rewrite E, Z.mul_0_r in V1. apply Z.eq_mul_0_l in V1; lia. }
      apply (Z.mul_reg_l _ _ (denom a) Da). transitivity (num a * d1 * d2); [rewrite V1; ring|].
      transitivity (num a * d2 * d1); [ring|]. rewrite V2. ring. }
    destruct (Dec n1 d1) as [H1|[H1 H1']].
    + split.
      * intros XY. split; [auto|]. intros _. right.
        assert (divides_either n2 d2) as H2 by (apply (same_shape n1 d1); auto). destruct (A1 H1) as [X1 Y1]. destruct (A2 H2) as [X2 Y2]. lia.
      * intros [E Imp]. destruct (Imp H1) as [|[-> ->]]; [contradiction|]. destruct (A1 H1) as [-> ->]. destruct (A2 H1) as [-> ->]. auto.
    + split; [intros XY; split; [auto|]; intros [|]; contradiction|]. intros [E _].
      destruct (Dec n2 d2) as [H2|[H2 H2']].
      * exfalso. destruct (same_shape n2 d2 n1 d1 N2 N1 D2 D1 ltac:(lia) H2); contradiction.
      * pose proof (C80_eq_signed_partial fuel t n1 d1 n2 d2 a b S F1 F2 F3 F4 N1 N2 H1 H1' H2 H2' Ea Eb) as Q.
        rewrite frac_eq in Q by auto. unfold rat_eq in Q. rewrite andb_true_iff, !Z.eqb_eq in Q. apply Q. exact E.
Qed.
Print Assumptions C80_exact_partial.

(** 0/5 and 0/7 are equal, 9/-6 and -3/2 are, 4/8 and 4/8 are, 4/8 and 1/2 are not. *)
Example C80_exact_demo :
  rat_new 1000 i8 0 5 = Ok (Some (mkRat 0 1)) /\ rat_new 1000 i8 0 7 = Ok (Some (mkRat 0 1)) /\ ((4 | 8) \/ (8 | 4)) /\
  rat_new 1000 i8 4 8 = Ok (Some (mkRat 4 8)) /\ rat_new 1000 i8 1 2 = Ok (Some (mkRat 1 2)) /\ rat_eq (mkRat 4 8) (mkRat 1 2) = false.
Proof. do 2 (split; [vm_compute; reflexivity|]). split; [left; exists 2; lia|]. repeat split; vm_compute; reflexivity. Qed.

(** ** C81 *)

(** [ceil] is one plus the truncation, whatever the signs, whenever its intermediate results
    fit: right only for positive fractions that are not whole. *)
Theorem C81_ceil_exact_partial : forall dbg fuel t a, (0 < ibits t)%nat -> rat_ok t a ->
  fits t (denom a - Z.rem (num a) (denom a)) -> fits t (num a + (denom a - Z.rem (num a) (denom a))) ->
  ~ (isigned t = true /\ denom a = -1 /\ (num a = imin t \/ num a = imin t + 1)) ->
  exists r, rat_ceil dbg fuel t a = Ok r /\ denom r = 1 /\ num r = toward_zero (rat_val a) + 1.
Proof.
  intros dbg fuel t a Hb (Hn & Hd & H0) F1 F2 Hx. unfold rat_ceil.
  rewrite prim_rem_ok by (auto; intros; tauto). cbn [bind].
  rewrite arith_in by auto. cbn [bind]. rewrite arith_in by auto. cbn [bind].
  pose proof (Z.quot_rem' (num a) (denom a)) as QR.
  rewrite prim_div_ok; auto.
  - cbn [bind]. replace (num a + (denom a - Z.rem (num a) (denom a)))
      with ((Z.quot (num a) (denom a) + 1) * denom a) by lia.
    rewrite Z.quot_mul by auto. destruct (new_int fuel t (Z.quot (num a) (denom a) + 1)) as (r & -> & _ & D & V).
    exists r. split; auto. split; auto. rewrite V. unfold rat_val. rewrite frac_toward_zero; auto.
  - intros Hs [E1 E2]. apply Hx. rewrite E2 in *.
    assert (Z.rem (num a) (-1) = 0) as R0 by (apply Z.rem_divide; [lia|]; exists (- num a); lia).
    rewrite R0 in E1. split; auto. split; auto. right. lia.
Qed.
Print Assumptions C81_ceil_exact_partial.


(** With overflow checks [ceil] panics when an intermediate result does not fit; without them
    it divides a numerator that is wrong by a multiple of 2^bits. *)
Theorem C81_ceil_overflow_partial : forall fuel t a, (0 < ibits t)%nat -> rat_ok t a -> denom a <> -1 ->
  ~ fits t (denom a - Z.rem (num a) (denom a)) \/ ~ fits t (num a + (denom a - Z.rem (num a) (denom a))) ->
  rat_ceil true fuel t a = Panic /\
  exists r n, rat_ceil false fuel t a = Ok r /\ denom r = 1 /\ fits t n /\
    (n - (num a + (denom a - Z.rem (num a) (denom a)))) mod 2 ^ Z.of_nat (ibits t) = 0 /\
    num r = toward_zero (frac n (denom a)).
Proof.
  intros fuel t a Hb (Hn & Hd & H0) Hm1 Hf. unfold rat_ceil.
  rewrite prim_rem_ok by (auto; intros; tauto). cbn [bind].
  set (x := denom a - Z.rem (num a) (denom a)) in *. split.
  - destruct (Z_lt_dec x (imin t)); [rewrite (arith_out true t x) by lia; auto|].
    destruct (Z_lt_dec (imax t) x); [rewrite (arith_out true t x) by lia; auto|].
    rewrite (arith_in true t x) by lia. cbn [bind].
    unfold fits in Hf. rewrite arith_out by lia. auto.
  - assert (forall v, arith false t v = Ok (wrap t v)) as W.
    { intros v. unfold arith. destruct (in_range t v) eqn:E; auto.
      apply in_range_iff in E. rewrite wrap_id; auto. }
    rewrite W. cbn [bind]. rewrite W. cbn [bind]. rewrite prim_div_ok by (auto; intros; tauto). cbn [bind].
    destruct (new_int fuel t (Z.quot (wrap t (num a + wrap t x)) (denom a))) as (r & -> & _ & D & V).
    exists r, (wrap t (num a + wrap t x)). split; auto. split; auto. split; [apply wrap_range; auto|].
    split; [|rewrite V, frac_toward_zero; auto].
    assert (num a + wrap t x - (num a + x) = wrap t x - x) as E by lia.
    pose proof (two_pow_pos (ibits t)).
    assert (forall u v, (wrap t u - v) mod 2 ^ Z.of_nat (ibits t) = (u - v) mod 2 ^ Z.of_nat (ibits t)) as WM.
    { intros u v. rewrite Zminus_mod, wrap_mod, <- Zminus_mod by auto. auto. }
    rewrite WM, E, WM, Z.sub_diag, Z.mod_0_l by lia. auto.
Qed.
Print Assumptions C81_ceil_overflow_partial.

(** [round] of a negative numerator over a positive denominator is the truncation; of a
    non-negative numerator over a denominator below -1 it is one plus the truncation. *)
Theorem C81_round_signs_partial : forall dbg fuel t a, (0 < ibits t)%nat -> fits t 2 -> rat_ok t a ->
  (num a < 0 -> 0 < denom a ->
     exists r, rat_round dbg fuel t a = Ok r /\ denom r = 1 /\ num r = toward_zero (rat_val a)) /\
  (0 <= num a -> denom a < -1 ->
     exists r, rat_round dbg fuel t a = Ok r /\ denom r = 1 /\ num r = toward_zero (rat_val a) + 1).
Proof.
  intros dbg fuel t a Hb H2 (Hn & Hd & H0). pose proof (imin_le0 t Hb) as Hm. unfold rat_val.
  rewrite frac_toward_zero by auto.
  split; intros A B; unfold rat_round; rewrite arith_in by exact H2; cbn [bind].
  - rewrite prim_rem_ok by (auto; intros; lia). cbn [bind].
    rewrite prim_div_ok by (try lia; intros; lia). cbn [bind].
    rewrite prim_div_ok by (auto; intros; lia). cbn [bind]. change (1 + 1) with 2.
    assert (0 <= Z.quot (denom a) 2) by (apply Z.quot_pos; lia).
    assert (Z.rem (num a) (denom a) <= 0) by (apply Z.rem_nonpos; lia).
    rewrite (proj2 (Z.ltb_ge _ _)) by lia. rewrite Z.add_0_r.
    assert (fits t (Z.quot (num a) (denom a))) as F.
    { unfold fits in *. assert (num a <= Z.quot (num a) (denom a) <= 0); [|lia].
      pose proof (Z.quot_rem' (num a) (denom a)). pose proof (Z.rem_bound_pos_neg (num a) (denom a) ltac:(lia) ltac:(lia)).
      set (q := Z.quot (num a) (denom a)) in *. nia. }
    rewrite arith_in by exact F. cbn [bind].
    destruct (new_int fuel t (Z.quot (num a) (denom a))) as (r & -> & _ & D & V). eauto.
  - rewrite prim_rem_ok by (auto; intros; lia). cbn [bind].
    rewrite prim_div_ok by (try lia; intros; lia). cbn [bind].
    rewrite prim_div_ok by (auto; intros; lia). cbn [bind]. change (1 + 1) with 2.
    assert (Z.quot (denom a) 2 < 0).
    { replace (denom a) with (- - denom a) by lia. rewrite Z.quot_opp_l by lia.
      pose proof (Z.quot_le_lower_bound (- denom a) 2 1 ltac:(lia) ltac:(lia)). lia. }
    assert (0 <= Z.rem (num a) (denom a)) by (apply Z.rem_nonneg; lia).
    rewrite (proj2 (Z.ltb_lt _ _)) by lia.
    assert (fits t (Z.quot (num a) (denom a) + 1)) as F.
    { unfold fits in *. pose proof (Z.quot_rem' (num a) (denom a)).
      pose proof (Z.rem_bound_neg_pos (num a) (denom a) ltac:(lia) ltac:(lia)).
      set (q := Z.quot (num a) (denom a)) in *. assert (q <= 0) by nia. 
      assert (imin t = - imax t - 1).
      { unfold imin, imax in *. destruct (isigned t); lia. }
      assert (- num a <= 2 * q); nia. }
    rewrite arith_in by exact F. cbn [bind].
    destruct (new_int fuel t (Z.quot (num a) (denom a) + 1)) as (r & -> & _ & D & V). eauto.
Qed.
Print Assumptions C81_round_signs_partial.

Example C81_signs_demo :
  rat_ceil true 1000 i8 (mkRat (-7) 2) = Ok (mkRat (-2) 1) /\ toward_zero (rat_val (mkRat (-7) 2)) = -3 /\
  rat_round true 1000 i8 (mkRat (-7) 2) = Ok (mkRat (-3) 1) /\
  rat_round true 1000 i8 (mkRat 7 (-4)) = Ok (mkRat 0 1) /\
  rat_ceil true 1000 i8 (mkRat 127 2) = Panic /\ rat_ceil false 1000 i8 (mkRat 127 2) = Ok (mkRat (-64) 1).
Proof. repeat split; vm_compute; reflexivity. Qed.

(** ** C104 *)

Definition is_digit (c : Z) : bool := negb (c =? 46).

Lemma filter_emit N : forall ds idx, Forall (fun d => 0 <= d < 10) ds ->
  filter is_digit (emit N idx ds) = map (Z.add 48) ds.
Proof.
  induction ds as [|d ds IH]; intros idx H; cbn [emit map]; auto.
  rewrite !filter_app, IH by (inversion H; auto).
  assert (filter is_digit (if Nat.eqb idx N then [46] else []) = []) as -> by (destruct (Nat.eqb idx N); reflexivity).
  cbn [filter app]. unfold is_digit at 1. inversion H; subst.
  rewrite (proj2 (Z.eqb_neq (48 + d) 46)) by lia. reflexivity.
Qed.

Lemma filter_rev {A} (f : A -> bool) l : filter f (rev l) = rev (filter f l).
Proof.
  induction l as [|x l IH]; auto. cbn [rev filter]. rewrite filter_app, IH. cbn [filter].
  destruct (f x); cbn [rev]; auto. apply app_nil_r.
Qed.

Lemma debug_tail t N n fuel : (0 < ibits t)%nat -> fits t n -> 2 ^ Z.of_nat (ibits t) < Z.of_nat fuel ->
  exists s, (do r <- fx_debug_loop t N fuel (Z.quot n (2 ^ Z.of_nat N)) 0 [] ;;
       let '(idx, buf) := r in Ok (rev (if Nat.eqb idx N then buf ++ [46] else buf))) = Ok s /\
     (n < 0 -> filter is_digit s = []) /\
     (0 <= n -> digits_val 10 (map (fun c => c - 48) (filter is_digit s)) = n / 2 ^ Z.of_nat N).
Proof.
  intros Hb Hn Hfuel. unfold fits in Hn. pose proof (two_pow_pos N) as P2. pose proof (two_pow_pos (ibits t)) as PB.
  destruct (Z_lt_ge_dec n 0) as [Neg|Pos].
    - assert (Z.quot n (2 ^ Z.of_nat N) <= 0) as Q.
      { replace n with (- - n) by lia. rewrite Z.quot_opp_l by lia.
        pose proof (Z.quot_pos (- n) (2 ^ Z.of_nat N)). lia. }
      destruct fuel as [|fuel]; [lia|]. cbn [fx_debug_loop].
      rewrite (proj2 (Z.ltb_ge _ _)) by lia. cbn [bind]. eexists. split; [reflexivity|].
      split; [|lia]. intros _. destruct (Nat.eqb 0 N); reflexivity.
    - rewrite Z.quot_div_nonneg by lia.
      assert (n / 2 ^ Z.of_nat N < Z.of_nat fuel) as HF.
      { apply Z.le_lt_trans with n; [apply Z.div_le_upper_bound; nia|].
        unfold imax in Hn. pose proof (pow_half _ Hb). destruct (isigned t); lia. }
      destruct (debug_loop_spec t N fuel (n / 2 ^ Z.of_nat N) 0 []) as (ds & E & F & V).
      { split; [apply Z.div_pos; lia|auto]. }
      rewrite E. cbn [bind Nat.add app]. eexists. split; [reflexivity|]. split; [lia|]. intros _.
      rewrite filter_rev.
      assert (filter is_digit (if Nat.eqb (length ds) N then emit N 0 ds ++ [46] else emit N 0 ds) = map (Z.add 48) ds) as ->.
      { destruct (Nat.eqb (length ds) N); rewrite ?filter_app, filter_emit by auto; auto. cbn. apply app_nil_r. }
      rewrite <- map_rev, map_map. rewrite <- V. f_equal. rewrite <- map_id. apply map_ext. intros; lia.
Qed.

(** When [raw * 10^N] does not fit, printing panics with overflow checks; without them it
    prints the digits of a number wrong by a multiple of 2^bits, and nothing when that number
    is negative. *)
Theorem C104_overflow_partial : forall t N x fuel, (0 < ibits t)%nat -> Z.of_nat N < 2 ^ 32 ->
  fits t 10 -> fits t (10 ^ Z.of_nat N) -> 2 ^ Z.of_nat (ibits t) < Z.of_nat fuel ->
  ~ fits t (x * 10 ^ Z.of_nat N) ->
  fx_debug true t N fuel x = Panic /\
  exists n s, fits t n /\ (n - x * 10 ^ Z.of_nat N) mod 2 ^ Z.of_nat (ibits t) = 0 /\
    fx_debug false t N fuel x = Ok s /\
    (n < 0 -> filter is_digit s = []) /\
    (0 <= n -> digits_val 10 (map (fun c => c - 48) (filter is_digit s)) = n / 2 ^ Z.of_nat N).
Proof.
  intros t N x fuel Hb HN H10 HP Hfuel Hf.
  pose proof (imin_le0 t Hb) as Hm. pose proof (two_pow_pos N) as P2.
  assert (10 ^ Z.of_nat N = 5 ^ Z.of_nat N * 2 ^ Z.of_nat N) as E10 by (rewrite <- Z.pow_mul_l; auto).
  assert (0 < 5 ^ Z.of_nat N) as P5 by (apply Z.pow_pos_nonneg; lia).
  assert (Z.of_nat N < 10 ^ Z.of_nat N) as NP by (apply Z.pow_gt_lin_r; lia).
  assert (2 ^ Z.of_nat N <= 10 ^ Z.of_nat N) as LP by nia.
  unfold fits in *. unfold fx_debug, truncate_from.
  rewrite !(wrap_id t) by (auto; lia). unfold prim_pow. rewrite as_u32_small by lia.
  rewrite !(arith_in _ t (10 ^ Z.of_nat N)) by lia. cbn [bind].
  rewrite !(arith_out _ t (x * _)) by lia. cbn [bind]. split; auto.
  rewrite (arith_in _ t (2 ^ Z.of_nat N)) by lia. cbn [bind].
  set (n := wrap t (x * 10 ^ Z.of_nat N)). assert (imin t <= n <= imax t) as Hn by (apply wrap_range; auto).
  rewrite prim_div_ok by (try lia; intros; lia). cbn [bind].
  pose proof (two_pow_pos (ibits t)) as PB.
  assert ((n - x * 10 ^ Z.of_nat N) mod 2 ^ Z.of_nat (ibits t) = 0) as Hc.
  { unfold n. rewrite Zminus_mod, wrap_mod, <- Zminus_mod, Z.sub_diag by auto. apply Z.mod_0_l. lia. }
  destruct (debug_tail t N n fuel Hb Hn Hfuel) as (s & Es & S1 & S2).
  exists n, s. auto.
Qed.
Print Assumptions C104_overflow_partial.

(** When [10^N] does not fit and nothing is checked: division by zero when [N] is at least the width; else the digits of a number wrong
    by a multiple of 2^bits; and for a signed type with [N] one less than the width, where [2^N] wraps to the least number,
    "1" for an odd raw value and nothing for an even one. *)
Theorem C104_power_unchecked_partial : forall t N x fuel, (0 < ibits t)%nat -> Z.of_nat N < 2 ^ 32 ->
  fits t 10 -> fits t (Z.of_nat N) -> ~ fits t (10 ^ Z.of_nat N) -> 2 ^ Z.of_nat (ibits t) < Z.of_nat fuel ->
  ((ibits t <= N)%nat -> fx_debug false t N fuel x = Panic) /\
  (fits t (2 ^ Z.of_nat N) ->
   exists n s, fits t n /\ (n - x * 10 ^ Z.of_nat N) mod 2 ^ Z.of_nat (ibits t) = 0 /\
    fx_debug false t N fuel x = Ok s /\
    (n < 0 -> filter is_digit s = []) /\
    (0 <= n -> digits_val 10 (map (fun c => c - 48) (filter is_digit s)) = n / 2 ^ Z.of_nat N)) /\
  (isigned t = true -> S N = ibits t -> fx_debug false t N fuel x = Ok (if Z.even x then [] else [49])).
Proof.
  intros t N x fuel Hb HN H10 HNf HP Hfuel.
  pose proof (imin_le0 t Hb) as Hm. pose proof (two_pow_pos N) as P2. pose proof (two_pow_pos (ibits t)) as PB.
  assert (forall v, arith false t v = Ok (wrap t v)) as AR.
  { intros v. destruct (Z_le_gt_dec (imin t) v) as [H1|H1]; [destruct (Z_le_gt_dec v (imax t)) as [H2|H2]|].
    - rewrite arith_in, wrap_id by (auto; lia). reflexivity.
    - rewrite arith_out by lia. reflexivity.
    - rewrite arith_out by lia. reflexivity. }
  unfold fits in *. unfold fx_debug, truncate_from.
  rewrite !(wrap_id t 10), !(wrap_id t 2), !(wrap_id t (Z.of_nat N)) by (auto; lia). unfold prim_pow. rewrite as_u32_small by lia.
  rewrite !AR. cbn [bind]. rewrite !AR. cbn [bind].
  rewrite (Z.mul_comm x), wrap_wrap_mul, (Z.mul_comm _ x) by auto.
  set (n := wrap t (x * 10 ^ Z.of_nat N)). assert (imin t <= n <= imax t) as Hn by (apply wrap_range; auto).
  split; [|split].
  - intros Hw. assert (wrap t (2 ^ Z.of_nat N) = 0) as ->.
    { apply wrap_unique; [auto|lia|]. replace (Z.of_nat N) with (Z.of_nat (N - ibits t) + Z.of_nat (ibits t)) by lia.
      rewrite Z.pow_add_r by lia. rewrite Z.mod_mul, Z.mod_0_l by lia. reflexivity. }
    reflexivity.
  - intros H2. rewrite (wrap_id t (2 ^ _)) by auto. rewrite prim_div_ok by (try lia; intros; lia). cbn [bind].
    destruct (debug_tail t N n fuel Hb Hn Hfuel) as (s & Es & S1 & S2). exists n, s.
    split; [exact Hn|]. split; [unfold n; rewrite Zminus_mod, wrap_mod, <- Zminus_mod, Z.sub_diag by auto; apply Z.mod_0_l; lia|].
    split; [exact Es|]. split; [exact S1|exact S2].
  - intros Sg HB.
    assert (imin t = - 2 ^ Z.of_nat N /\ imax t = 2 ^ Z.of_nat N - 1) as [Emin Emax].
    { unfold imin, imax. rewrite Sg. replace (Z.of_nat (ibits t) - 1) with (Z.of_nat N) by lia. auto. }
    assert (2 ^ Z.of_nat (ibits t) = 2 * 2 ^ Z.of_nat N) as EB by (rewrite <- HB, Nat2Z.inj_succ, Z.pow_succ_r by lia; auto).
    assert (2 <= N)%nat as N2.
    { destruct N as [|[|N]]; [cbn in Emax; lia|cbn in Emax; lia|lia]. }
    assert (wrap t (2 ^ Z.of_nat N) = imin t) as ->.
    { apply wrap_unique; [auto|lia|]. rewrite EB, Emin.
      replace (2 ^ Z.of_nat N) with (- 2 ^ Z.of_nat N + 1 * (2 * 2 ^ Z.of_nat N)) at 3 by lia. rewrite Z_mod_plus_full. reflexivity. }
    assert (n = if Z.even x then 0 else imin t) as En.
    { apply wrap_unique; [auto|destruct (Z.even x); lia|]. rewrite EB.
      assert (10 ^ Z.of_nat N = 5 ^ Z.of_nat N * 2 ^ Z.of_nat N) as -> by (rewrite <- Z.pow_mul_l; auto).
      assert (Z.odd (5 ^ Z.of_nat N) = true) as O5 by (rewrite Z.odd_pow by lia; reflexivity).
      apply Z.odd_spec in O5. destruct O5 as [f Ef]. rewrite Ef.
      destruct (Z.even x) eqn:Ev.
      - apply Z.even_spec in Ev. destruct Ev as [h ->].
        replace (2 * h * ((2 * f + 1) * 2 ^ Z.of_nat N)) with (h * (2 * f + 1) * (2 * 2 ^ Z.of_nat N)) by ring.
        rewrite Z.mod_mul, Z.mod_0_l by lia. reflexivity.
      - rewrite <- Z.negb_odd in Ev. apply negb_false_iff, Z.odd_spec in Ev. destruct Ev as [h ->]. rewrite Emin.
        replace ((2 * h + 1) * ((2 * f + 1) * 2 ^ Z.of_nat N)) with (- 2 ^ Z.of_nat N + (2 * h * f + h + f + 1) * (2 * 2 ^ Z.of_nat N)) by ring.
        rewrite Z_mod_plus_full. reflexivity. }
    unfold prim_div. rewrite (proj2 (Z.eqb_neq (imin t) 0)), (proj2 (Z.eqb_neq (imin t) (-1))), andb_false_r by lia. cbn [bind].
    destruct fuel as [|[|fuel]]; [lia|lia|]. rewrite En. destruct (Z.even x).
    + rewrite Z.quot_0_l by lia. cbn. destruct N; [lia|reflexivity].
    + rewrite Z.quot_same by lia. cbn [fx_debug_loop]. change (0 <? 1) with true. cbv iota.
      unfold prim_rem, prim_div. change (10 =? 0) with false. change (10 =? -1) with false. rewrite !andb_false_r. cbn [bind].
      change (Z.quot 1 10) with 0. change (Z.rem 1 10) with 1. change (0 <? 0) with false. cbv iota. cbn [bind].
      destruct N as [|[|N]]; [lia|lia|reflexivity].
Qed.
Print Assumptions C104_power_unchecked_partial.

Example C104_power_unchecked_demo : fits i8 10 /\ fits i8 (Z.of_nat 3) /\ ~ fits i8 (10 ^ Z.of_nat 3) /\ fits i8 (2 ^ Z.of_nat 3) /\
  fx_debug false i8 3 300 (-1) = Ok [51] /\ (* -0.125 printed as 3 *)
  fx_debug false i8 7 300 5 = Ok [49] /\ fx_debug false i8 7 300 4 = Ok [] /\ fx_debug false i8 8 300 5 = Panic.
Proof.
  unfold fits. repeat split; try (vm_compute; reflexivity); try (vm_compute; discriminate).
  intros [_ H]. vm_compute in H. apply H. reflexivity.
Qed.
Example C104_overflow_demo : fx_debug true i8 1 300 100 = Panic /\ fx_debug false i8 1 300 100 = Ok [] /\
  fx_debug false i8 1 300 30 = Ok [50; 46; 50] /\ fixed_val 1 30 = (30 # 2)%Q. (* 15.0 printed as 2.2 *)
Proof. repeat split; vm_compute; reflexivity. Qed.
