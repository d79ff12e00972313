(** Lemmas about [Rat] over primitive integers. *)
From Coq Require Import ZArith QArith Qround Qabs List Bool Lia Znumtheory.
From Verif Require Import Base Words Spec Arith BitSliceModel BitSliceProofs PrimModel PrimProofs
  FixedModel RatModel RealSpec RealProofs.
Import ListNotations.
Local Open Scope Z_scope.

Lemma divide_quot n g : g <> 0 -> (g | n) -> n = Z.quot n g * g.
Proof.
  intros Hg [k ->]. rewrite Z.quot_mul by auto. auto.
Qed.

Lemma gcd_div_l g n d : Z.abs g = Z.gcd n d -> (g | n).
Proof. intros E. apply Z.divide_abs_l. rewrite E. apply Z.gcd_divide_l. Qed.

Lemma gcd_div_r g n d : Z.abs g = Z.gcd n d -> (g | d).
Proof. intros E. apply Z.divide_abs_l. rewrite E. apply Z.gcd_divide_r. Qed.

Lemma gcd_nz g n d : Z.abs g = Z.gcd n d -> d <> 0 -> g <> 0.
Proof. intros E Hd ->. cbn in E. symmetry in E. apply Z.gcd_eq_0_r in E. auto. Qed.

Section R.
Variables (dbg : bool) (fuel : nat) (t : ity).
Hypothesis Hb : (0 < ibits t)%nat.
Hypothesis H1 : repr t 1.
Hypothesis He : enough t fuel.

Definition good (r : rat) : Prop := repr t (num r) /\ repr t (denom r) /\ denom r <> 0.

Lemma zero_repr : repr t 0.
Proof. pose proof (imin_le0 t Hb). unfold repr. lia. Qed.

Lemma zero_good : good rat_zero.
Proof. unfold good, rat_zero. cbn. repeat split; try apply zero_repr; try apply H1; lia. Qed.

Lemma unsigned_nonneg v : repr t v -> isigned t = false -> 0 <= v.
Proof. unfold repr, imin. intros H E. rewrite E in H. lia. Qed.

(** [reduce] is sound: it panics or denotes the same fraction. *)
Lemma reduce_sound n d : repr t n -> repr t d -> d <> 0 ->
  rat_reduce fuel t n d = Panic \/
  exists r, rat_reduce fuel t n d = Ok r /\ good r /\ (val r == frac n d)%Q.
Proof.
  intros Hn Hd Hd0. unfold rat_reduce. destruct (Z.eqb_spec n 0) as [->|Hn0].
  { right. exists rat_zero. split; auto. split; [apply zero_good|]. unfold val. cbn [num denom rat_zero].
    apply frac_eq; auto; lia. }
  assert (forall w : bool, w = true \/ w = false) as Hw by (intros []; auto).
  destruct (if (n =? 1) && (d =? 1) then Ok true else _) as [w| |] eqn:Ew; cbn [bind]; auto.
  2:{ exfalso. revert Ew. destruct ((n =? 1) && (d =? 1)); [discriminate|].
      unfold prim_rem. destruct (d =? 0); [discriminate|]. destruct (isigned t && (n =? imin t) && (d =? -1)); [discriminate|].
      cbn [bind]. destruct (Z.rem n d =? 0); [discriminate|]. destruct (n =? 0); [discriminate|].
      destruct (isigned t && (d =? imin t) && (n =? -1)); discriminate. }
  destruct w.
  { right. exists (mkRat n d). split; auto. split; [repeat split; cbn; try apply Hn; try apply Hd; auto|]. reflexivity. }
  assert (isigned t = true -> ~ (n = imin t /\ d = -1) /\ ~ (n = -1 /\ d = imin t)) as Hex.
  { intros Hs. split; intros [-> ->]; revert Ew; destruct ((_ =? 1) && (_ =? 1)); try discriminate.
    - unfold prim_rem. rewrite Hs, Z.eqb_refl. discriminate.
    - unfold prim_rem at 1. destruct (imin t =? 0); [discriminate|]. destruct (_ && _ && _); [discriminate|].
      cbn [bind]. destruct (_ =? 0); [discriminate|]. unfold prim_rem. rewrite Hs, Z.eqb_refl. discriminate. }
  destruct (gcd_cases fuel t n d) as (g & Eg & Rg & Ag); auto; [lia|].
  rewrite Eg. cbn [bind]. pose proof (gcd_nz g n d Ag Hd0) as Hg0.
  pose proof (divide_quot _ _ Hg0 (gcd_div_l _ _ _ Ag)) as En.
  pose proof (divide_quot _ _ Hg0 (gcd_div_r _ _ _ Ag)) as Ed.
  destruct (prim_div t n g) as [n'| |] eqn:En'; cbn [bind]; auto.
  2:{ exfalso. revert En'. unfold prim_div. destruct (g =? 0); [discriminate|]. destruct (_ && _ && _); discriminate. }
  destruct (prim_div t d g) as [d'| |] eqn:Ed'; cbn [bind]; auto.
  2:{ exfalso. revert Ed'. unfold prim_div. destruct (g =? 0); [discriminate|]. destruct (_ && _ && _); discriminate. }
  apply prim_div_inv in En'. apply prim_div_inv in Ed'.
  destruct En' as (_ & -> & Xn), Ed' as (_ & -> & Xd).
  right. eexists. split; [reflexivity|]. unfold good, val. cbn [num denom].
  assert (Z.quot d g <> 0) by (intros E; rewrite E in Ed; lia).
  split; [split; [|split]|].
  - apply quot_repr; auto. intros. apply unsigned_nonneg; auto.
  - apply quot_repr; auto. intros. apply unsigned_nonneg; auto.
  - auto.
  - apply frac_eq; auto. rewrite En at 2. rewrite Ed at 1. ring.
Qed.

(** ... and it panics only on operands equal to the minimum of a signed type. *)
Lemma reduce_panic n d : repr t n -> repr t d -> d <> 0 -> rat_reduce fuel t n d = Panic ->
  isigned t = true /\ (n = imin t \/ d = imin t).
Proof.
  intros Hn Hd Hd0 HP. destruct (isigned t) eqn:Hs.
  - split; auto. destruct (Z.eq_dec n (imin t)); auto. destruct (Z.eq_dec d (imin t)); auto.
    exfalso. revert HP. unfold rat_reduce. destruct (Z.eqb_spec n 0) as [|Hn0]; [discriminate|].
    rewrite (prim_rem_ok t n d), (prim_rem_ok t d n) by (auto; intros; tauto). cbn [bind].
    destruct (gcd_cases fuel t n d) as (g & Eg & Rg & Ag); auto; [lia|intros; tauto|].
    rewrite Eg. cbn [bind]. pose proof (gcd_nz g n d Ag Hd0) as Hg0.
    rewrite !prim_div_ok by (auto; intros; tauto). cbn [bind].
    destruct ((n =? 1) && (d =? 1)); [discriminate|]. cbn [bind].
    destruct (_ =? 0); [discriminate|]. cbn [bind]. destruct (_ =? 0); discriminate.
  - exfalso. revert HP. unfold rat_reduce. destruct (Z.eqb_spec n 0) as [|Hn0]; [discriminate|].
    rewrite (prim_rem_ok t n d), (prim_rem_ok t d n) by (auto; congruence). cbn [bind].
    destruct (gcd_cases fuel t n d) as (g & Eg & Rg & Ag); auto; [lia|intros; congruence|].
    rewrite Eg. cbn [bind]. pose proof (gcd_nz g n d Ag Hd0) as Hg0.
    rewrite !prim_div_ok by (auto; congruence). cbn [bind].
    destruct ((n =? 1) && (d =? 1)); [discriminate|]. cbn [bind].
    destruct (_ =? 0); [discriminate|]. cbn [bind]. destruct (_ =? 0); discriminate.
Qed.

Lemma new_unwrap_ok n d : repr t n -> repr t d -> d <> 0 ->
  (isigned t = true -> n <> imin t /\ d <> imin t) ->
  exists r, rat_new_unwrap fuel t n d = Ok r /\ good r /\ (val r == frac n d)%Q.
Proof.
  intros Hn Hd Hd0 Hm. unfold rat_new_unwrap, rat_new. rewrite (proj2 (Z.eqb_neq _ _)) by auto.
  destruct (reduce_sound n d) as [E|(r & E & G & V)]; auto.
  - destruct (reduce_panic n d) as [Hs [->| ->]]; auto; destruct (Hm Hs); congruence.
  - exists r. rewrite E. cbn. auto.
Qed.

Lemma new_unwrap_good n d r : repr t n -> repr t d -> rat_new_unwrap fuel t n d = Ok r ->
  good r /\ d <> 0 /\ (val r == frac n d)%Q.
Proof.
  intros Hn Hd. unfold rat_new_unwrap, rat_new. destruct (Z.eqb_spec d 0) as [->|Hd0]; [discriminate|].
  destruct (reduce_sound n d) as [E|(r' & E & G & V)]; auto; rewrite E; [discriminate|].
  cbn. intros X. inversion X; subst. auto.
Qed.

Lemma arith_repr v r : arith dbg t v = Ok r -> repr t r.
Proof.
  unfold arith. destruct (in_range t v) eqn:E.
  - intros X; inversion X; subst. apply in_range_iff; auto.
  - destruct dbg; intros X; inversion X. apply wrap_range; auto.
Qed.

Lemma arith_over v : ~ repr t v -> arith true t v = Panic.
Proof.
  intros H. unfold arith. destruct (in_range t v) eqn:E; auto.
  apply in_range_iff in E. contradiction.
Qed.

(** Integers. *)
Lemma new_int q : exists r, rat_new_unwrap fuel t q 1 = Ok r /\ (val r == inject_Z q)%Q /\
  denom r = 1 /\ num r = q.
Proof.
  clear Hb H1 He.
  unfold rat_new_unwrap, rat_new, rat_reduce. change (1 =? 0) with false. cbv iota.
  destruct (Z.eqb_spec q 0) as [->|Hq].
  { exists rat_zero. cbn. repeat split. }
  exists (mkRat q 1). unfold val. cbn [num denom]. split; [|split; [apply frac_int|auto]].
  destruct ((q =? 1) && (1 =? 1)); [reflexivity|].
  rewrite prim_rem_ok by (try lia; intros; lia). rewrite Z.rem_1_r. reflexivity.
Qed.

Lemma floor_rat a : good a -> (isigned t = true -> ~ (num a = imin t /\ denom a = -1)) ->
  exists r, rat_floor dbg fuel t a = Ok r /\ denom r = 1 /\ num r = Z.quot (num a) (denom a).
Proof.
  clear H1 He.
  intros (Hn & Hd & Hd0) Hx. unfold rat_floor. rewrite prim_rem_ok by auto. cbn [bind].
  pose proof (Z.quot_rem' (num a) (denom a)) as QR.
  assert (num a - Z.rem (num a) (denom a) = Z.quot (num a) (denom a) * denom a) as E by lia.
  assert (Z.abs (num a - Z.rem (num a) (denom a)) <= Z.abs (num a) /\
          0 <= num a * (num a - Z.rem (num a) (denom a))) as [A S].
  { assert (0 <= num a * Z.rem (num a) (denom a)) as S.
    { destruct (Z_le_gt_dec 0 (num a)).
      - pose proof (Z.rem_nonneg (num a) (denom a) Hd0 ltac:(lia)). nia.
      - pose proof (Z.rem_nonpos (num a) (denom a) Hd0 ltac:(lia)). nia. }
    assert (Z.abs (Z.rem (num a) (denom a)) <= Z.abs (num a)).
    { rewrite <- Z.rem_abs by auto. apply Z.rem_le; lia. }
    split; [|nia]. nia. }
  rewrite arith_in.
  2:{ unfold repr in *. pose proof (imin_le0 t Hb). destruct (Z.eq_dec (num a) 0) as [E0|]; [rewrite E0 in *; cbn in *; lia|].
      destruct (Z_le_gt_dec 0 (num a)); nia. }
  cbn [bind]. rewrite E, prim_div_ok; auto.
  - rewrite Z.quot_mul by auto. cbn [bind]. destruct (new_int (Z.quot (num a) (denom a))) as (r & -> & _ & D & N).
    exists r. auto.
  - intros Hs [X Y]. apply (Hx Hs). split; auto. rewrite Y in X.
    pose proof (Z.rem_opp_r (num a) 1 ltac:(lia)) as Z1. rewrite Z.rem_1_r in Z1.
    rewrite Y in E. change (- (1)) with (-1) in Z1. rewrite Z1 in E. lia.
Qed.

End R.
