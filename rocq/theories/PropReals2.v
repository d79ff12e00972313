(** Properties C108 and C109: constants, bounds and sign predicates of fixed-point numbers and
    rationals.  The denoted numbers are rationals (RealSpec.v). *)
From Coq Require Import ZArith QArith Qround Qabs List Bool Lia.
From Verif Require Import Base Words Spec Arith BitSliceModel BitSliceProofs PrimModel PrimProofs PropPrim
  FixedModel RatModel RealSpec RealProofs RatProofs PropReals.
Local Open Scope Z_scope.

(** ** C108 *)

Lemma fixed_val_le N a b : (fixed_val N a <= fixed_val N b)%Q <-> a <= b.
Proof. pose proof (two_pow_pos N). rewrite !fixed_frac, frac_le by lia. nia. Qed.
Lemma fixed_val_lt N a b : (fixed_val N a < fixed_val N b)%Q <-> a < b.
Proof. pose proof (two_pow_pos N). rewrite !fixed_frac, frac_lt by lia. nia. Qed.
Lemma fixed_val_0 N : (fixed_val N 0 == 0)%Q.
Proof. pose proof (two_pow_pos N). rewrite fixed_frac. change 0%Q with (frac 0 1). rewrite frac_eq; lia. Qed.
Lemma fixed_val_eq N a b : (fixed_val N a == fixed_val N b)%Q <-> a = b.
Proof. pose proof (two_pow_pos N). rewrite !fixed_frac, frac_eq by lia. nia. Qed.
Lemma fixed_val_1 N : (fixed_val N (2 ^ Z.of_nat N) == 1)%Q.
Proof. pose proof (two_pow_pos N). rewrite fixed_frac. change 1%Q with (frac 1 1). rewrite frac_eq; lia. Qed.

(** [new], [zero] and [default] are 0; [is_zero] answers for the number. *)
Theorem C108_zero : forall N x,
  (fixed_val N fx_new == 0)%Q /\ (fx_is_zero x = true <-> (fixed_val N x == 0)%Q).
Proof.
  intros N x. split; [apply fixed_val_0|]. unfold fx_is_zero.
  rewrite Z.eqb_eq, <- (fixed_val_0 N), fixed_val_eq. reflexivity.
Qed.
Print Assumptions C108_zero.

(** [one] and [is_one], when the number one is representable. *)
Theorem C108_one_partial : forall dbg t N x, (0 < ibits t)%nat -> one_fits t N ->
  (exists o, fx_one dbg t N = Ok o /\ fits t o /\ (fixed_val N o == 1)%Q) /\
  exists b, fx_is_one dbg t N x = Ok b /\ (b = true <-> (fixed_val N x == 1)%Q).
Proof.
  intros dbg t N x Hb H1. pose proof (one_ok dbg t N Hb H1) as E. split.
  - eexists. split; [exact E|]. split; [exact H1|apply fixed_val_1].
  - unfold fx_is_one. rewrite E. cbn [bind]. eexists. split; [reflexivity|].
    rewrite Z.eqb_eq, <- (fixed_val_1 N), fixed_val_eq. reflexivity.
Qed.
Print Assumptions C108_one_partial.

(** Otherwise one is silently another number, in every build. *)
Theorem C108_one_refuted : forall dbg, exists o,
  fx_one dbg i8 7 = Ok o /\ (fixed_val 7 o == -1)%Q /\ fx_is_one dbg i8 7 o = Ok true.
Proof. intros dbg. exists (-128). destruct dbg; repeat split; reflexivity. Qed.
Print Assumptions C108_one_refuted.

(** Whenever a signed type has as many bits as fraction bits and sign together. *)
Theorem C108_one_wraps : forall dbg t N, isigned t = true -> ibits t = S N ->
  exists o, fx_one dbg t N = Ok o /\ (fixed_val N o == -1)%Q.
Proof.
  intros dbg t N Hs Hb. unfold fx_one, prim_shl. rewrite Hb.
  rewrite (proj2 (Nat.ltb_lt N (S N))) by lia. eexists. split; [reflexivity|].
  assert (wrap t (Z.shiftl 1 (Z.of_nat N)) = - 2 ^ Z.of_nat N) as ->.
  { rewrite Z.shiftl_mul_pow2, Z.mul_1_l by lia.
    assert (0 < ibits t)%nat as Hp by lia.
    apply wrap_unique; auto.
    - rewrite range_size by auto. unfold imin. rewrite Hs, Hb.
      replace (Z.of_nat (S N) - 1) with (Z.of_nat N) by lia.
      rewrite Nat2Z.inj_succ, Z.pow_succ_r by lia. pose proof (two_pow_pos N). lia.
    - rewrite Hb. pose proof (two_pow_pos (S N)).
      transitivity ((- 2 ^ Z.of_nat N + 1 * 2 ^ Z.of_nat (S N)) mod 2 ^ Z.of_nat (S N));
        [rewrite Z.mod_add by lia; reflexivity|].
      f_equal. rewrite Nat2Z.inj_succ, Z.pow_succ_r by lia. lia. }
  unfold fixed_val. rewrite inject_Z_opp. pose proof (two_pow_pos N). field. apply inj_nz. lia.
Qed.
Print Assumptions C108_one_wraps.

(** [min_value] and [max_value] bound every value and are values. *)
Theorem C108_bounds : forall t N x, (0 < ibits t)%nat -> fits t x ->
  fits t (fx_min_value t) /\ fits t (fx_max_value t) /\
  (fixed_val N (fx_min_value t) <= fixed_val N x <= fixed_val N (fx_max_value t))%Q.
Proof.
  intros t N x Hb Hx. pose proof (imin_le0 t Hb). unfold fx_min_value, fx_max_value, fits in *.
  rewrite !fixed_val_le. lia.
Qed.
Print Assumptions C108_bounds.

(** [min_positive] is the least value above 0, [max_negative] the greatest one below. *)
Theorem C108_smallest : forall dbg t N, (1 < ibits t)%nat -> isigned t = true ->
  fits t fx_min_positive /\ (0 < fixed_val N fx_min_positive)%Q /\
  (forall x, fits t x -> (0 < fixed_val N x)%Q -> (fixed_val N fx_min_positive <= fixed_val N x)%Q) /\
  exists m, fx_max_negative dbg t = Ok m /\ fits t m /\ (fixed_val N m < 0)%Q /\
    forall x, fits t x -> (fixed_val N x < 0)%Q -> (fixed_val N x <= fixed_val N m)%Q.
Proof.
  intros dbg t N Hb Hs. unfold fx_min_positive, fx_max_negative.
  assert (imin t <= -1 /\ 1 <= imax t) as [Hm HM].
  { unfold imin, imax. rewrite Hs. assert (2 ^ 1 <= 2 ^ (Z.of_nat (ibits t) - 1)) by (apply Z.pow_le_mono_r; lia). lia. }
  pose proof (imin_le0 t). unfold fits.
  rewrite arith_in by lia. rewrite <- (fixed_val_0 N) at 1.
  repeat split; try lia.
  - rewrite fixed_val_lt. lia.
  - intros x _. rewrite <- (fixed_val_0 N), fixed_val_lt, fixed_val_le. lia.
  - exists (-1). rewrite <- (fixed_val_0 N) at 1. rewrite fixed_val_lt. repeat split; try lia.
    intros x _. rewrite <- (fixed_val_0 N), fixed_val_lt, fixed_val_le. lia.
Qed.
Print Assumptions C108_smallest.

(** [abs] is exact or panics; [is_negative] is right; [is_positive] is documented as [>= 0]. *)
Theorem C108_sign_partial : forall dbg t N x,
  exact dbg t N (Qabs (fixed_val N x)) (fx_abs dbg t x) /\
  (fx_is_negative x = true <-> (fixed_val N x < 0)%Q) /\
  (~ (fixed_val N x == 0)%Q -> (fx_is_positive x = true <-> (0 <= fixed_val N x)%Q)).
Proof.
  intros dbg t N x. split; [|split].
  - apply exact_arith. destruct (Z.le_gt_cases 0 x) as [H|H].
    + rewrite Z.abs_eq, Qabs_pos by (try rewrite <- (fixed_val_0 N), fixed_val_le; auto). reflexivity.
    + rewrite Z.abs_neq by lia. rewrite Qabs_neg.
      * unfold fixed_val. rewrite inject_Z_opp. pose proof (two_pow_pos N). field. apply inj_nz. lia.
      * rewrite <- (fixed_val_0 N), fixed_val_le. lia.
  - unfold fx_is_negative, prim_is_negative. rewrite Z.ltb_lt, <- (fixed_val_0 N), fixed_val_lt. reflexivity.
  - unfold fx_is_positive, prim_is_positive. rewrite Z.ltb_lt, <- (fixed_val_0 N), fixed_val_le, fixed_val_eq. lia.
Qed.
Print Assumptions C108_sign_partial.

Theorem C108_sign_refuted : exists x, (0 <= fixed_val 4 x)%Q /\ fx_is_positive x = false /\
  fx_abs false i8 (-128) = Ok (-128).
Proof. exists 0. repeat split. vm_compute. discriminate. Qed.
Print Assumptions C108_sign_refuted.

Example C108_demo : (* i8 with four fraction bits *)
  one_fits i8 4 /\ fx_one true i8 4 = Ok 16 /\ fx_is_one true i8 4 16 = Ok true /\
  fits i8 (-24) /\ (fixed_val 4 (-24) == -(3 # 2))%Q /\ fx_abs true i8 (-24) = Ok 24 /\
  fx_max_negative true i8 = Ok (-1) /\ (fixed_val 4 (fx_max_value i8) == 127 # 16)%Q.
Proof. unfold one_fits, fits. repeat split; try reflexivity; vm_compute; discriminate. Qed.

(** ** C109 *)

(** [zero] and [one] denote 0 and 1; [is_zero] answers for the number; [is_one] never for
    another number. *)
Theorem C109_constants_partial : forall t r, rat_ok t r ->
  (rat_val rat_zero == 0)%Q /\ (rat_val rat_one == 1)%Q /\
  (rat_is_zero r = true <-> (rat_val r == 0)%Q) /\
  (rat_is_one r = true -> (rat_val r == 1)%Q) /\
  (denom r = 1 -> (rat_is_one r = true <-> (rat_val r == 1)%Q)).
Proof.
  intros t r (Hn & Hd & H0). unfold rat_val, rat_is_zero, rat_is_one, rat_eq, rat_zero, rat_one.
  cbn [num denom]. change 0%Q with (frac 0 1). change 1%Q with (frac 1 1).
  rewrite Z.eqb_eq, andb_true_iff, !Z.eqb_eq, !frac_eq by lia. lia.
Qed.
Print Assumptions C109_constants_partial.

Theorem C109_is_one_refuted : exists r, rat_new 200 i8 2 2 = Ok (Some r) /\ (rat_val r == 1)%Q /\
  rat_is_one r = false.
Proof. exists (mkRat 2 2). repeat split. Qed.
Print Assumptions C109_is_one_refuted.

Lemma imin_sym t : isigned t = true -> imin t = - (imax t + 1).
Proof. unfold imin, imax. intros ->. lia. Qed.

(** What [new] returns lies between [min_value] and [max_value], which are values. *)
Theorem C109_bounds : forall fuel t n d r, setting t fuel -> fits t n -> fits t d ->
  rat_new fuel t n d = Ok (Some r) ->
  rat_ok t (rat_min_value t) /\ rat_ok t (rat_max_value t) /\
  (rat_val (rat_min_value t) <= rat_val r <= rat_val (rat_max_value t))%Q.
Proof.
  intros fuel t n d r S Hn Hd E. destruct S as (Hb & H1 & He).
  pose proof (imin_le0 t Hb) as Hz.
  assert (d <> 0) as Hd0 by (intros ->; discriminate E).
  destruct (C79_new_sound fuel t n d (conj Hb (conj H1 He)) Hn Hd Hd0) as [(C & _)|(r' & E' & R & V)];
    [congruence|].
  assert (r' = r) by congruence. subst r'.
  unfold rat_ok, rat_min_value, rat_max_value. cbn [num denom]. unfold fits in *.
  repeat split; try lia; rewrite V; unfold rat_val; cbn [num denom].
  all: assert (isigned t = true -> ~ (n = imin t /\ d = -1)) as Hx
    by (intros Hs [-> ->]; revert E; unfold rat_new, rat_reduce, prim_rem; cbn [Z.eqb];
        rewrite Hs; destruct (Z.eqb_spec (imin t) 0) as [Z0|_];
        [unfold imin in Z0; rewrite Hs in Z0; pose proof (Z.pow_pos_nonneg 2 (Z.of_nat (ibits t) - 1)); lia|];
        rewrite Z.eqb_refl, andb_false_r; cbn; discriminate).
  all: pose proof (imin_sym t) as Hsym.
  all: assert (isigned t = false -> imin t = 0) as Hus by (intros Hs; unfold imin; rewrite Hs; auto).
  all: destruct (Z.le_gt_cases 0 d) as [Hp|Hp];
    [|rewrite <- (frac_sgn n d) by auto]; rewrite frac_le by lia.
  all: destruct (isigned t); [specialize (Hx eq_refl); specialize (Hsym eq_refl)|specialize (Hus eq_refl)]; try nia.
Qed.
Print Assumptions C109_bounds.

(** Every whole number of the backing type is a rational. *)
Theorem C109_whole : forall fuel t v, setting t fuel -> fits t v ->
  exists r, rat_new fuel t v 1 = Ok (Some r) /\ rat_ok t r /\ (rat_val r == inject_Z v)%Q.
Proof.
  intros fuel t v S Hv. destruct (C79_new_sound fuel t v 1 S Hv) as [(C & Hs & Hm)|(r & E & R & V)]; try lia.
  - apply S.
  - exfalso. destruct S as (Hb & H1 & _). revert C. unfold rat_new, rat_reduce, prim_rem.
    destruct (v =? 0); [discriminate|]. cbn [Z.eqb]. rewrite andb_false_r. cbn.
    destruct (v =? 1); cbn; [discriminate|]. rewrite Z.rem_1_r. cbn. discriminate.
  - exists r. rewrite V, frac_int. repeat split; auto; try apply R; reflexivity.
Qed.
Print Assumptions C109_whole.

Example C109_demo : setting i8 520 /\ fits i8 (-127) /\ rat_new 520 i8 (-127) (-1) = Ok (Some (mkRat (-127) (-1))) /\
  rat_is_one rat_one = true /\ rat_new 520 i8 (-128) 1 = Ok (Some (rat_min_value i8)).
Proof. unfold setting, fits. repeat split; try reflexivity; try lia; vm_compute; try discriminate; lia. Qed.
