(** Lemmas about the reals crate: fixed-point numbers and rationals over primitives. *)
From Coq Require Import ZArith QArith Qround Qabs List Bool Lia Znumtheory.
From Verif Require Import Base Words Spec TextSpec Arith BitSliceModel BitSliceProofs PrimModel PrimProofs
  FixedModel RatModel PositModel RealSpec.
Import ListNotations.
Local Open Scope Z_scope.

(** ** Fractions *)

Lemma inj_nz d : d <> 0 -> ~ (inject_Z d == 0)%Q.
Proof. intros H E. apply H. unfold Qeq, inject_Z in E. cbn in E. lia. Qed.

Lemma frac_eq n d n' d' : d <> 0 -> d' <> 0 -> (frac n d == frac n' d')%Q <-> n * d' = n' * d.
Proof.
  intros H H'. unfold frac. split; intros E.
  - assert (inject_Z (n * d') == inject_Z (n' * d))%Q as F.
    { rewrite !inject_Z_mult. apply inj_nz in H. apply inj_nz in H'.
      transitivity ((inject_Z n / inject_Z d) * inject_Z d * inject_Z d')%Q; [field; auto|].
      rewrite E. field; auto. }
    unfold Qeq, inject_Z in F. cbn in F. lia.
  - apply inj_nz in H. apply inj_nz in H'.
    transitivity (inject_Z (n * d') / (inject_Z d * inject_Z d'))%Q.
    { rewrite inject_Z_mult. field; auto. }
    rewrite E, inject_Z_mult. field; auto.
Qed.

Lemma frac_int n : (frac n 1 == inject_Z n)%Q.
Proof. unfold frac. field. Qed.

Lemma frac_floor n d : Qfloor (frac n d) = n / d.
Proof. symmetry. apply Zdiv_Qdiv. Qed.

Lemma frac_opp n d : (- frac n d == frac (- n) d)%Q.
Proof.
  unfold frac. rewrite inject_Z_opp. destruct (Z.eq_dec d 0) as [->|H].
  - unfold Qdiv. ring.
  - field. apply inj_nz; auto.
Qed.

Lemma frac_ceil n d : Qceiling (frac n d) = - ((- n) / d).
Proof. unfold Qceiling. rewrite frac_opp, frac_floor. auto. Qed.

Lemma frac_le n d n' d' : 0 < d -> 0 < d' -> (frac n d <= frac n' d')%Q <-> n * d' <= n' * d.
Proof.
  intros H H'. unfold frac. destruct d as [|d|d], d' as [|d'|d']; try lia.
  unfold Qle, Qdiv, Qinv, Qmult, inject_Z. cbn. lia.
Qed.

Lemma frac_lt n d n' d' : 0 < d -> 0 < d' -> (frac n d < frac n' d')%Q <-> n * d' < n' * d.
Proof.
  intros H H'. unfold frac. destruct d as [|d|d], d' as [|d'|d']; try lia.
  unfold Qlt, Qdiv, Qinv, Qmult, inject_Z. cbn. lia.
Qed.

Lemma frac_neg_iff n d : 0 < d -> (frac n d < 0)%Q <-> n < 0.
Proof.
  intros H. change 0%Q with (inject_Z 0). rewrite <- (frac_int 0), frac_lt by lia. lia.
Qed.

Lemma frac_pos_iff n d : 0 < d -> (0 < frac n d)%Q <-> 0 < n.
Proof.
  intros H. change 0%Q with (inject_Z 0). rewrite <- (frac_int 0), frac_lt by lia. lia.
Qed.

Lemma frac_cmp n n' d : 0 < d -> (frac n d ?= frac n' d)%Q = (n ?= n').
Proof.
  intros H. destruct (Z.compare_spec n n') as [E|E|E].
  - subst. apply Qeq_alt. reflexivity.
  - apply Qlt_alt. apply frac_lt; auto. nia.
  - apply Qgt_alt. apply frac_lt; auto. nia.
Qed.

Lemma frac_sgn n d : d <> 0 -> (frac (- n) (- d) == frac n d)%Q.
Proof. intros H. apply frac_eq; lia. Qed.

Lemma quot_div_pos n d : 0 < d -> Z.quot n d = if n <? 0 then - ((- n) / d) else n / d.
Proof.
  intros H. destruct (Z.ltb_spec n 0).
  - rewrite <- (Z.opp_involutive n) at 1. rewrite Z.quot_opp_l by lia.
    rewrite Z.quot_div_nonneg by lia. auto.
  - apply Z.quot_div_nonneg; lia.
Qed.

Lemma toward_zero_proper p q : (p == q)%Q -> toward_zero p = toward_zero q.
Proof.
  intros E. unfold toward_zero.
  destruct (Qlt_le_dec p 0) as [A|A], (Qlt_le_dec q 0) as [B|B]; try (rewrite E; auto; fail).
  - rewrite E in A. apply Qle_not_lt in B. tauto.
  - rewrite E in A. apply Qle_not_lt in A. tauto.
Qed.

Lemma away_proper p q : (p == q)%Q -> away_from_zero p = away_from_zero q.
Proof.
  intros E. unfold away_from_zero.
  destruct (Qlt_le_dec p 0) as [A|A], (Qlt_le_dec q 0) as [B|B]; try (rewrite E; auto; fail).
  - rewrite E in A. apply Qle_not_lt in B. tauto.
  - rewrite E in A. apply Qle_not_lt in A. tauto.
Qed.

Lemma frac_toward_zero n d : d <> 0 -> toward_zero (frac n d) = Z.quot n d.
Proof.
  assert (forall n d, 0 < d -> toward_zero (frac n d) = Z.quot n d) as P.
  { clear. intros n d H. rewrite quot_div_pos by auto. unfold toward_zero.
    destruct (Qlt_le_dec (frac n d) 0) as [A|A].
    - apply (proj1 (frac_neg_iff _ _ H)) in A. rewrite (proj2 (Z.ltb_lt _ _)) by auto. apply frac_ceil.
    - apply Qle_not_lt in A. rewrite frac_neg_iff in A by auto.
      rewrite (proj2 (Z.ltb_ge _ _)) by lia. apply frac_floor. }
  intros H. destruct (Z_lt_le_dec 0 d); [auto|].
  rewrite (toward_zero_proper _ _ (Qeq_sym _ _ (frac_sgn n d H))), P by lia.
  rewrite Z.quot_opp_opp by auto. auto.
Qed.

(** ** Fixed point *)

Lemma fixed_frac N raw : fixed_val N raw = frac raw (2 ^ Z.of_nat N).
Proof. reflexivity. Qed.

Definition repr (t : ity) (v : Z) : Prop := imin t <= v <= imax t.

Section Fx.
Variables (dbg : bool) (t : ity) (N : nat).
Let P := 2 ^ Z.of_nat N.
Hypothesis Hb : (0 < ibits t)%nat.
Hypothesis H1 : repr t P.

Lemma P_pos : 0 < P.
Proof. apply two_pow_pos. Qed.

Lemma N_lt : (N < ibits t)%nat.
Proof.
  destruct (Nat.lt_ge_cases N (ibits t)) as [|H]; auto. exfalso.
  assert (2 ^ Z.of_nat (ibits t) <= P) by (apply Z.pow_le_mono_r; lia).
  pose proof (pow_half (ibits t) Hb). unfold repr, imax in H1. destruct (isigned t); lia.
Qed.

Lemma imin_div : exists k, imin t = k * P.
Proof.
  unfold imin. pose proof N_lt. destruct (isigned t); [|exists 0; lia].
  exists (- 2 ^ (Z.of_nat (ibits t) - 1 - Z.of_nat N)). unfold P.
  rewrite Z.mul_opp_l, <- Z.pow_add_r by lia. do 2 f_equal. lia.
Qed.

Lemma one_ok : fx_one dbg t N = Ok P.
Proof.
  unfold fx_one, prim_shl. rewrite (proj2 (Nat.ltb_lt _ _) N_lt), Z.shiftl_1_l.
  rewrite wrap_id; auto.
Qed.

Lemma mask_ok : fx_mask dbg t N = Ok (P - 1).
Proof.
  unfold fx_mask. change (prim_shl dbg t 1 N) with (fx_one dbg t N). rewrite one_ok. cbn [bind].
  apply arith_in. pose proof (imin_le0 t Hb). pose proof P_pos. unfold repr in H1. lia.
Qed.

Lemma whole_ok x : repr t x -> fx_is_whole dbg t N x = Ok (x mod P =? 0).
Proof.
  intros Hx. unfold fx_is_whole. rewrite mask_ok. cbn [bind]. f_equal.
  assert (Z.land x (prim_not t (P - 1)) = x - x mod P) as E.
  { assert (Z.ldiff x (P - 1) = x - x mod P) as L.
    { replace (P - 1) with (Z.ones (Z.of_nat N)) by (rewrite Z.ones_equiv; unfold P; lia).
      rewrite Z.ldiff_ones_r, Z.shiftl_mul_pow2, Z.shiftr_div_pow2 by lia. fold P.
      pose proof (Z.div_mod x P). pose proof P_pos. lia. }
    rewrite <- L. unfold prim_not. destruct (isigned t) eqn:Hs.
    - rewrite wrap_id, Z.ldiff_land; auto. unfold Z.lnot.
      pose proof P_pos. unfold repr, imin, imax in *. rewrite Hs in *. lia.
    - unfold wrap. rewrite Hs. cbn [andb]. rewrite <- Z.land_ones by lia.
      rewrite (Z.land_comm (Z.lnot _)), Z.land_assoc, (Z.land_ones x), Z.mod_small by
        (unfold repr, imin, imax in Hx; rewrite Hs in Hx; lia).
      symmetry. apply Z.ldiff_land. }
  rewrite E. destruct (Z.eqb_spec (x mod P) 0) as [F|F]; [rewrite F; apply Z.eqb_eq|apply Z.eqb_neq]; lia.
Qed.

Lemma floor_repr x : repr t x -> repr t (x / P * P).
Proof.
  intros Hx. pose proof P_pos. destruct imin_div as [k Ek].
  assert (k <= x / P) by (apply Z.div_le_lower_bound; unfold repr in Hx; lia).
  pose proof (Z.mul_div_le x P). unfold repr in *. nia.
Qed.

Lemma floor_ok x : repr t x -> fx_floor dbg t N x = Ok (x / P * P).
Proof.
  intros Hx. unfold fx_floor, prim_shr, prim_shl. rewrite !(proj2 (Nat.ltb_lt _ _) N_lt). cbn [bind].
  rewrite Z.shiftr_div_pow2, Z.shiftl_mul_pow2 by lia. fold P. rewrite wrap_id; auto.
  apply floor_repr; auto.
Qed.

Lemma ceil_div x : x mod P <> 0 -> - ((- x) / P) = x / P + 1.
Proof. intros H. pose proof P_pos. rewrite Z.div_opp_l_nz by lia. lia. Qed.

Lemma ceil_div0 x : x mod P = 0 -> - ((- x) / P) = x / P.
Proof. intros H. pose proof P_pos. rewrite Z.div_opp_l_z by lia. lia. Qed.

Lemma ceil_ok x : repr t x -> fx_ceil dbg t N x = arith dbg t (- ((- x) / P) * P).
Proof.
  intros Hx. unfold fx_ceil. rewrite whole_ok by auto. cbn [bind].
  destruct (Z.eqb_spec (x mod P) 0) as [E|E].
  - rewrite floor_ok by auto. rewrite ceil_div0 by auto. symmetry. apply arith_in. apply floor_repr; auto.
  - rewrite floor_ok, one_ok by auto. cbn [bind]. unfold fx_add. f_equal. rewrite ceil_div by auto. lia.
Qed.

Lemma fract_ok x : fx_fract dbg t N x = Ok (Z.rem x P).
Proof.
  unfold fx_fract. rewrite one_ok. cbn [bind]. unfold fx_rem, prim_rem. pose proof P_pos.
  rewrite !(proj2 (Z.eqb_neq P _)) by lia. rewrite andb_false_r. auto.
Qed.

Lemma trunc_repr x : repr t x -> repr t (Z.quot x P * P).
Proof.
  intros Hx. pose proof P_pos. pose proof (imin_le0 t Hb). unfold repr in *.
  destruct (Z_le_gt_dec 0 x).
  - rewrite Z.quot_div_nonneg by lia. pose proof (Z.mul_div_le x P). pose proof (Z.div_pos x P). nia.
  - replace x with (- (- x)) by lia. rewrite Z.quot_opp_l, Z.quot_div_nonneg by lia.
    pose proof (Z.mul_div_le (- x) P). pose proof (Z.div_pos (- x) P). nia.
Qed.

Lemma trunc_ok x : repr t x -> fx_trunc dbg t N x = Ok (Z.quot x P * P).
Proof.
  intros Hx. unfold fx_trunc. rewrite fract_ok. cbn [bind]. unfold fx_sub.
  pose proof (Z.quot_rem' x P). replace (x - Z.rem x P) with (Z.quot x P * P) by lia.
  apply arith_in. apply trunc_repr; auto.
Qed.

Lemma round_ok x : repr t x -> repr t (2 * P) -> fx_round dbg t N x = fx_ceil dbg t N x.
Proof.
  intros Hx H2. unfold fx_round. rewrite !one_ok. cbn [bind]. unfold fx_add.
  replace (P + P) with (2 * P) by lia. rewrite arith_in by auto. cbn [bind].
  pose proof P_pos as HP. unfold fx_div, prim_div.
  rewrite !(proj2 (Z.eqb_neq (2 * P) _)) by lia. rewrite andb_false_r.
  rewrite Z.quot_small by lia. cbn [bind]. rewrite fract_ok. cbn [bind].
  assert (Z.rem x P = 0 <-> x mod P = 0) as Hz.
  { rewrite Z.rem_divide, Z.mod_divide by lia. tauto. }
  pose proof (Z.rem_bound_abs x P ltac:(lia)) as Hr.
  destruct (Z.leb_spec 0 (Z.rem x P)) as [L|L]; cbn [bind].
  - destruct (Z.ltb_spec 0 (Z.rem x P)); auto.
    unfold fx_ceil. rewrite whole_ok by auto. cbn [bind].
    rewrite (proj2 (Z.eqb_eq _ _)) by (apply Hz; lia). auto.
  - unfold fx_sub. rewrite arith_in.
    2:{ pose proof (imin_le0 t Hb). unfold repr in *. lia. }
    cbn [bind]. rewrite (proj2 (Z.ltb_lt _ _)) by lia. auto.
Qed.

End Fx.

(** ** Nearest integers *)

(** Distance from a fraction to an integer, over the common denominator. *)
Lemma frac_dist n d k : 0 < d -> (Qabs (frac n d - inject_Z k) == frac (Z.abs (n - k * d)) d)%Q.
Proof.
  intros H.
  assert (frac n d - inject_Z k == frac (n - k * d) d)%Q as E.
  { unfold frac. replace (n - k * d) with (n + - (k * d)) by lia.
    rewrite inject_Z_plus, inject_Z_opp, inject_Z_mult. field. apply inj_nz. lia. }
  rewrite E. destruct (Z.abs_spec (n - k * d)) as [[L ->]|[L ->]].
  - apply Qabs_pos. change 0%Q with (inject_Z 0). rewrite <- (frac_int 0). apply frac_le; lia.
  - rewrite <- frac_opp. apply Qabs_neg. change 0%Q with (inject_Z 0). rewrite <- (frac_int 0). apply frac_le; lia.
Qed.

Lemma frac_nearest n d k : 0 < d ->
  nearest (frac n d) k <-> forall j, Z.abs (n - k * d) <= Z.abs (n - j * d).
Proof.
  intros H. unfold nearest. split; intros A j; specialize (A j).
  - rewrite !frac_dist in A by auto. apply (proj1 (frac_le _ _ _ _ H H)) in A.
    apply (Z.mul_le_mono_pos_r _ _ d H). exact A.
  - rewrite !frac_dist by auto. apply frac_le; auto. apply Z.mul_le_mono_pos_r; auto.
Qed.

Lemma nearest_iff n d k : 0 < d ->
  nearest (frac n d) k <-> 2 * Z.abs (n - k * d) <= d.
Proof.
  intros H. rewrite frac_nearest by auto. split; intros A.
  - destruct (Z_le_gt_dec 0 (n - k * d)).
    + specialize (A (k + 1)). replace ((k + 1) * d) with (k * d + d) in A by ring. lia.
    + specialize (A (k - 1)). replace ((k - 1) * d) with (k * d - d) in A by ring. lia.
  - intros j. destruct (Z.eq_dec j k) as [->|Hne]; [lia|].
    assert (d <= Z.abs ((k - j) * d)).
    { rewrite Z.abs_mul, (Z.abs_eq d) by lia. nia. }
    replace (n - j * d) with ((n - k * d) + (k - j) * d) by ring. lia.
Qed.

(** ** Rationals *)

Definition val (r : rat) : Q := frac (num r) (denom r).

(** Enough iterations for any gcd in the type. *)
Definition enough (t : ity) (fuel : nat) : Prop := 2 ^ (Z.of_nat (ibits t) + 1) < Z.of_nat fuel.

Lemma repr_abs t v : (0 < ibits t)%nat -> repr t v -> Z.abs v <= 2 ^ Z.of_nat (ibits t).
Proof.
  intros Hb H. pose proof (pow_half _ Hb). unfold repr, imin, imax in H. destruct (isigned t); lia.
Qed.

Lemma enough_sum t fuel a b : (0 < ibits t)%nat -> enough t fuel -> repr t a -> repr t b ->
  Z.abs a + Z.abs b < Z.of_nat fuel.
Proof.
  intros Hb He Ha Hbb. apply (repr_abs _ _ Hb) in Ha. apply (repr_abs _ _ Hb) in Hbb.
  unfold enough in He. rewrite Z.pow_add_r in He by lia. lia.
Qed.

(** The gcd of two representable values, or a panic on {MIN, -1}. *)
Lemma gcd_cases fuel t a b : (0 < ibits t)%nat -> enough t fuel -> repr t a -> repr t b ->
  ~ (a = 0 /\ b = 0) ->
  (isigned t = true -> ~ (a = imin t /\ b = -1) /\ ~ (a = -1 /\ b = imin t)) ->
  exists g, prim_gcd fuel t a b = Ok g /\ repr t g /\ Z.abs g = Z.gcd a b.
Proof.
  intros Hb He Ha Hbb Hnz Hp. pose proof (enough_sum t fuel a b Hb He Ha Hbb).
  unfold prim_gcd. replace ((a =? 0) && (b =? 0)) with false.
  2:{ symmetry. apply andb_false_iff. rewrite !Z.eqb_neq. lia. }
  unfold repr in *. destruct (Z.leb_spec a b).
  - destruct (gcd_loop_ok fuel t a b Hb) as (g & Eg & Ag & Rg); try lia;
      try (intros Hs; specialize (Hp Hs); lia).
    rewrite Z.gcd_comm in Ag. exists g. auto.
  - destruct (gcd_loop_ok fuel t b a Hb) as (g & Eg & Ag & Rg); try lia;
      try (intros Hs; specialize (Hp Hs); lia).
    exists g. auto.
Qed.

Lemma prim_rem_ok t x y : y <> 0 -> (isigned t = true -> ~ (x = imin t /\ y = -1)) ->
  prim_rem t x y = Ok (Z.rem x y).
Proof.
  intros Hy H. unfold prim_rem. rewrite (proj2 (Z.eqb_neq _ _)) by auto.
  destruct (isigned t); auto. destruct (Z.eqb_spec x (imin t)); auto.
  destruct (Z.eqb_spec y (-1)); auto. exfalso. apply H; auto.
Qed.

Lemma prim_div_ok t x y : y <> 0 -> (isigned t = true -> ~ (x = imin t /\ y = -1)) ->
  prim_div t x y = Ok (Z.quot x y).
Proof.
  intros Hy H. unfold prim_div. rewrite (proj2 (Z.eqb_neq _ _)) by auto.
  destruct (isigned t); auto. destruct (Z.eqb_spec x (imin t)); auto.
  destruct (Z.eqb_spec y (-1)); auto. exfalso. apply H; auto.
Qed.

Lemma prim_div_inv t x y r : prim_div t x y = Ok r -> y <> 0 /\ r = Z.quot x y /\
  (isigned t = true -> ~ (x = imin t /\ y = -1)).
Proof.
  unfold prim_div. destruct (Z.eqb_spec y 0); [discriminate|].
  destruct (isigned t) eqn:Hs; cbn [andb].
  - destruct (Z.eqb_spec x (imin t)), (Z.eqb_spec y (-1)); cbn [andb]; intros E; inversion E;
      repeat split; auto; intros; tauto.
  - intros E; inversion E. repeat split; auto. discriminate.
Qed.

Lemma quot_repr t x y : (0 < ibits t)%nat -> repr t x -> y <> 0 ->
  (isigned t = true -> ~ (x = imin t /\ y = -1)) -> (isigned t = false -> 0 <= y) ->
  repr t (Z.quot x y).
Proof.
  intros Hb Hx Hy H Hu. unfold repr in *. pose proof (imin_le0 t Hb).
  assert (Z.abs (Z.quot x y) <= Z.abs x) as A.
  { rewrite <- Z.quot_abs by auto. apply Z.quot_le_upper_bound; [lia|]. nia. }
  destruct (isigned t) eqn:Hs.
  - assert (imax t = - imin t - 1) by (unfold imin, imax; rewrite Hs; lia).
    destruct (Z.eq_dec x (imin t)) as [->|]; [|lia].
    destruct (Z.eq_dec y (-1)) as [->|]; [exfalso; apply H; auto|].
    destruct (Z.eq_dec y 1) as [->|]; [rewrite Z.quot_1_r; lia|].
    assert (Z.abs (Z.quot (imin t) y) <= Z.abs (imin t) ÷ 2).
    { rewrite <- Z.quot_abs by auto. apply Z.quot_le_compat_l; lia. }
    pose proof (Z.quot_lt (Z.abs (imin t)) 2).
    destruct (Z.eq_dec (imin t) 0) as [E|]; [rewrite E in *; cbn in *; lia|lia].
  - specialize (Hu eq_refl). assert (imin t = 0) as E by (unfold imin; rewrite Hs; auto).
    assert (0 <= Z.quot x y) by (apply Z.quot_pos; lia). lia.
Qed.
