(** C184: fixed-point numbers over the K-byte signed integers, [Fixed<I<K>, N>].
    [fixed_val N (sval x)] is the number that the bytes [x] stand for (RealSpec.v, Spec.v). *)
From Coq Require Import ZArith QArith Qround List Bool Lia.
From Verif Require Import Base Words Spec Arith UModel UProofs IModel IProofs PropI PropDiv
  RealSpec RealProofs FixedIModel PropBits.
From Verif Require Import Spec.
Import ListNotations.
Local Open Scope Z_scope.

(** A [Fixed<I<K>, N>], and the number that it stands for. *)
Definition is_i (K : nat) (a : list Z) : Prop := wf 8 a /\ length a = K.
Definition number (N : nat) (a : list Z) : Q := fixed_val N (sval a).

(** [q] lies between the smallest and the largest value of the type. *)
Definition in_range (K N : nat) (q : Q) : Prop :=
  (number N (fi_min_value K) <= q)%Q /\ (q <= number N (fi_max_value K))%Q.

(** [c] is the exact value [q] if [q] is in range, and otherwise off by a whole multiple of
    [2^(8K-N)], so never [q]. *)
Definition exact_or_wraps (K N : nat) (q : Q) (c : list Z) : Prop :=
  is_i K c /\ (number N c == q <-> in_range K N q)%Q /\
  exists m : Z, (number N c == q + inject_Z m * (inject_Z (2 ^ (8 * Z.of_nat K)) / inject_Z (2 ^ Z.of_nat N)))%Q.

Lemma pow_pos N : 0 < 2 ^ Z.of_nat N. Proof. apply Z.pow_pos_nonneg; lia. Qed.
Lemma inj_pow_nz N : ~ (inject_Z (2 ^ Z.of_nat N) == 0)%Q.
Proof. change 0%Q with (inject_Z 0). rewrite inject_Z_injective. pose proof (pow_pos N). lia. Qed.

Lemma number_le N a b : (fixed_val N a <= fixed_val N b)%Q <-> a <= b.
Proof.
  unfold fixed_val, Qdiv. pose proof (pow_pos N) as P.
  assert (0 < / inject_Z (2 ^ Z.of_nat N))%Q as I0.
  { apply Qinv_lt_0_compat. change 0%Q with (inject_Z 0). rewrite <- Zlt_Qlt. auto. }
  rewrite Qmult_le_r by auto. rewrite <- Zle_Qle. reflexivity.
Qed.
Lemma number_eq N a b : (fixed_val N a == fixed_val N b)%Q <-> a = b.
Proof.
  split; [|intros ->; reflexivity]. intros E.
  pose proof (proj1 (number_le N a b)). pose proof (proj1 (number_le N b a)).
  rewrite E in *. pose proof (Qle_refl (fixed_val N b)). intuition lia.
Qed.
Lemma number_add N a b : (fixed_val N (a + b) == fixed_val N a + fixed_val N b)%Q.
Proof. unfold fixed_val. rewrite inject_Z_plus. field. apply inj_pow_nz. Qed.
Lemma number_opp N a : (fixed_val N (- a) == - fixed_val N a)%Q.
Proof. unfold fixed_val. rewrite inject_Z_opp. field. apply inj_pow_nz. Qed.

Lemma limits K : (0 < K)%nat -> 2 * sval (i_min K) = - cap 8 K /\ 2 * sval (i_max K) = cap 8 K - 2.
Proof.
  intros HK. destruct (C39_bounds_signs K (zeros K) HK (wf_zeros 8 K) (repeat_length _ _)) as (A & B & _). auto.
Qed.

Lemma wraps K N x c q : (0 < K)%nat -> is_i K c -> sval c = swrap K x -> (fixed_val N x == q)%Q ->
  exact_or_wraps K N q c.
Proof.
  intros HK Hc E Q. split; [auto|]. unfold number, in_range, number, fi_min_value, fi_max_value.
  destruct (limits K HK) as [L1 L2]. pose proof (cap_pos 8 K) as Hp.
  assert (swrap K x mod cap 8 K = x mod cap 8 K /\ - cap 8 K <= 2 * swrap K x < cap 8 K) as [M B].
  { destruct (C36_ring (zeros K) (zeros K)) as (_ & _ & _ & _ & _ & H);
      rewrite ?length_zeros; auto using wf_zeros. rewrite length_zeros in H. apply H. }
  split.
  - rewrite <- Q, number_eq, !number_le, E. split; [lia|]. intros [A1 A2].
    pose proof (Z.div_mod x (cap 8 K) ltac:(lia)). pose proof (Z.div_mod (swrap K x) (cap 8 K) ltac:(lia)).
    assert (exists d, swrap K x - x = cap 8 K * d) as (d & D).
    { exists (swrap K x / cap 8 K - x / cap 8 K). lia. }
    assert (d = 0) by nia. subst d. lia.
  - exists ((swrap K x - x) / cap 8 K). rewrite <- Q.
    assert (swrap K x = x + (swrap K x - x) / cap 8 K * cap 8 K) as D.
    { pose proof (Z.div_mod x (cap 8 K) ltac:(lia)) as D1. pose proof (Z.div_mod (swrap K x) (cap 8 K) ltac:(lia)) as D2.
      replace (swrap K x - x) with ((swrap K x / cap 8 K - x / cap 8 K) * cap 8 K) by lia. rewrite Z.div_mul by lia. lia. }
    rewrite E. rewrite D at 1. rewrite number_add. change (cap 8 K) with (2 ^ (8 * Z.of_nat K)).
    unfold fixed_val. rewrite inject_Z_mult. field. apply inj_pow_nz.
Qed.

(** Sums, differences and negations never panic; they are exact exactly when the exact result
    is in range, and wrap around otherwise, in every build. *)
Theorem C184_sums : forall K N x y, (0 < K)%nat -> is_i K x -> is_i K y ->
  exact_or_wraps K N (number N x + number N y) (fi_add x y) /\
  exact_or_wraps K N (number N x - number N y) (fi_sub x y) /\
  exact_or_wraps K N (- number N x) (fi_neg x).
Proof.
  intros K N x y HK [Wx Lx] [Wy Ly].
  destruct (C36_ring x y Wx Wy ltac:(congruence) ltac:(lia)) as (A & B & _ & C & D & _). rewrite Lx in *.
  assert (forall c, In c [i_add x y; i_sub x y; i_mul x y; i_neg x] -> is_i K c) as D' by (intros; apply D; auto).
  cbn [In] in D'. unfold number. split; [|split].
  - eapply wraps; eauto. apply number_add.
  - eapply wraps; eauto. unfold Z.sub. rewrite number_add, number_opp. reflexivity.
  - eapply wraps; [auto|apply D'; auto 7|exact C|]. apply number_opp.
Qed.
Print Assumptions C184_sums.

(** Equality is equality of the numbers; [is_zero], the bounds and the signs are right
    ([is_positive] holds of zero as well, C39). *)
Theorem C184_constants : forall K N x y, (0 < K)%nat -> is_i K x -> is_i K y ->
  (fi_eq x y = true <-> number N x == number N y)%Q /\
  (fi_is_zero x = true <-> number N x == 0)%Q /\
  is_i K (fi_zero K) /\ (number N (fi_zero K) == 0)%Q /\
  in_range K N (number N x) /\
  (number N (fi_min_positive K) == 1 / inject_Z (2 ^ Z.of_nat N))%Q /\
  (number N (fi_max_negative K) == - (1 / inject_Z (2 ^ Z.of_nat N)))%Q /\
  (exists b, fi_is_negative x = Ok b /\ (b = true <-> number N x < 0))%Q /\
  (exists b, fi_is_positive x = Ok b /\ (b = true <-> 0 <= number N x))%Q.
Proof.
  intros K N x y HK [Wx Lx] [Wy Ly].
  destruct (C39_bounds_signs K x HK Wx Lx) as (E1 & E2 & E3 & E4 & E5 & E6 & E7 & E8 & E9 & E10 & _).
  assert (forall a, (fixed_val N a == 0)%Q <-> a = 0) as Z0.
  { intros a. rewrite <- (number_eq N a 0). assert (fixed_val N 0 == 0)%Q as -> by reflexivity. reflexivity. }
  assert (forall a, (0 <= fixed_val N a)%Q <-> 0 <= a) as Z1.
  { intros a. rewrite <- (number_le N 0 a). assert (fixed_val N 0 == 0)%Q as -> by reflexivity. reflexivity. }
  unfold number. split; [|split; [|split; [|split; [|split; [|split; [|split; [|split]]]]]]].
  - rewrite number_eq. apply C38_eq; auto; lia.
  - rewrite Z0. exact E10.
  - split; [apply wf_zeros|apply length_zeros].
  - unfold fi_zero. rewrite E5. reflexivity.
  - unfold in_range, number. rewrite !number_le. unfold fi_min_value, fi_max_value. lia.
  - unfold fi_min_positive. unfold i_min_positive in E4. rewrite E4. reflexivity.
  - unfold fi_max_negative.
    assert (wf 8 (i_one K) /\ length (i_one K) = K) as [W1 L1].
    { split; [apply wf_u_one|apply length_u_one]. }
    destruct (C36_exact (i_one K) (i_one K) W1 W1 eq_refl ltac:(lia)) as (_ & _ & _ & H). cbv zeta in H.
    rewrite L1, E6 in H. rewrite H.
    + change (-1) with (- (1)). rewrite number_opp. reflexivity.
    + destruct (limits K HK). assert (256 <= cap 8 K); [|lia]. unfold cap. change 256 with (2 ^ 8). apply Z.pow_le_mono_r; lia.
  - exists (sval x <? 0). split; [exact E8|]. rewrite Z.ltb_lt. split.
    + intros H. apply Qnot_le_lt. rewrite Z1. lia.
    + intros H. apply Qlt_not_le in H. rewrite Z1 in H. lia.
  - exists (0 <=? sval x). split; [exact E9|]. rewrite Z.leb_le, Z1. reflexivity.
Qed.
Print Assumptions C184_constants.

(** Products never panic and are too large by [2^N]: exactly when that is in range they are
    [x * y * 2^N], else they wrap around. *)
Theorem C184_mul_partial : forall K N x y, (0 < K)%nat -> is_i K x -> is_i K y ->
  exact_or_wraps K N (number N x * number N y * inject_Z (2 ^ Z.of_nat N)) (fi_mul x y).
Proof.
  intros K N x y HK [Wx Lx] [Wy Ly].
  destruct (C36_ring x y Wx Wy ltac:(congruence) ltac:(lia)) as (_ & _ & A & _ & D & _). rewrite Lx in *.
  assert (is_i K (i_mul x y)) as D' by (apply D; cbn; auto).
  eapply wraps; eauto. unfold number, fixed_val. rewrite inject_Z_mult. field. apply inj_pow_nz.
Qed.
Print Assumptions C184_mul_partial.

(** Numbers of different signs, and numbers that differ in one byte, are compared as numbers;
    [cmp] never panics and is [Eq] exactly for equal numbers. *)
Theorem C184_cmp_partial : forall K N x y i, (0 < K)%nat -> is_i K x -> is_i K y ->
  (exists c, fi_cmp x y = Ok c /\ (c = Eq <-> (number N x == number N y)%Q)) /\
  ((number N x < 0 /\ 0 <= number N y)%Q \/ (0 <= number N x /\ number N y < 0)%Q \/
   (forall j, j <> i -> nth j x 0 = nth j y 0) ->
   fi_cmp x y = Ok (number N x ?= number N y)%Q).
Proof.
  intros K N x y i HK Hx Hy.
  destruct (C184_constants K N x y HK Hx Hy) as (_ & _ & _ & _ & _ & _ & _ & (b1 & Eb1 & B1) & _).
  destruct (C184_constants K N y x HK Hy Hx) as (_ & _ & _ & _ & _ & _ & _ & (b2 & Eb2 & B2) & _).
  destruct Hx as [Wx Lx], Hy as [Wy Ly].
  assert (forall a, (0 <= fixed_val N a)%Q <-> 0 <= a) as Z1.
  { intros a. rewrite <- (number_le N 0 a). assert (fixed_val N 0 == 0)%Q as -> by reflexivity. reflexivity. }
  assert (forall a, (fixed_val N a < 0)%Q <-> a < 0) as Z2.
  { intros a. split; intros H; [apply Qlt_not_le in H; rewrite Z1 in H; lia|apply Qnot_le_lt; rewrite Z1; lia]. }
  destruct (C38_eq x y Wx Wy ltac:(congruence) ltac:(lia)) as [_ HE].
  split.
  - unfold fi_cmp, i_cmp in *. unfold fi_is_negative in *. rewrite Eb1, Eb2 in *. cbn [bind] in *.
    eexists. split; [reflexivity|]. unfold number. rewrite number_eq, <- HE. split; [intros ->; reflexivity|congruence].
  - unfold number. rewrite !Z1, !Z2. intros H. unfold fi_cmp. rewrite (C38_ord_partial x y i) by (auto; try lia; congruence).
    f_equal. destruct (Z.compare_spec (sval x) (sval y)) as [E|E|E]; symmetry.
    + rewrite E. apply Qeq_alt. reflexivity.
    + apply Qlt_alt. apply Qnot_le_lt. rewrite number_le. lia.
    + apply Qgt_alt. apply Qnot_le_lt. rewrite number_le. lia.
Qed.
Print Assumptions C184_cmp_partial.

(** [abs] of a non-negative number is that number; of a negative one it is the number plus half
    the size of the type's range, so right only for the number a quarter of the range below zero. *)
Theorem C184_abs_partial : forall K N x, (0 < K)%nat -> is_i K x ->
  exists c, fi_abs x = Ok c /\ is_i K c /\
    (0 <= number N x -> number N c == number N x)%Q /\
    (number N x < 0 -> number N c == number N x - number N (fi_min_value K))%Q /\
    (number N x < 0 -> (number N c == - number N x <-> 2 * number N x == number N (fi_min_value K)))%Q.
Proof.
  intros K N x HK Hx. destruct Hx as [Wx Lx].
  destruct (C37_abs_partial x Wx ltac:(lia)) as (c & E & Wc & Lc & H1 & H2 & H3). rewrite Lx in *.
  destruct (limits K HK) as [L1 L2].
  assert (forall a, (0 <= fixed_val N a)%Q <-> 0 <= a) as Z1.
  { intros a. rewrite <- (number_le N 0 a). assert (fixed_val N 0 == 0)%Q as -> by reflexivity. reflexivity. }
  assert (forall a, (fixed_val N a < 0)%Q <-> a < 0) as Z2.
  { intros a. split; intros H; [apply Qlt_not_le in H; rewrite Z1 in H; lia|apply Qnot_le_lt; rewrite Z1; lia]. }
  exists c. split; [auto|]. split; [split; congruence|]. unfold number, fi_min_value. rewrite Z1, Z2. split; [|split].
  - intros H. rewrite (H1 H). reflexivity.
  - intros H. replace (sval c) with (sval x + - sval (i_min K)) by (specialize (H2 H); lia).
    rewrite number_add, number_opp. reflexivity.
  - intros H. rewrite <- number_opp. setoid_replace (2 * fixed_val N (sval x))%Q with (fixed_val N (sval x + sval x)) by (rewrite number_add; ring).
    rewrite !number_eq. rewrite (H3 H). lia.
Qed.
Print Assumptions C184_abs_partial.

(** Everything that needs a shift of [I<K>] panics, for every value and in every build: [from_val],
    [one], [is_one], [floor], [ceil], [round], [trunc], [fract]; and so do [pow] and [log]. *)
Theorem C184_panics_partial : forall dbg K N x y,
  fi_from_val N x = Panic /\ fi_one N K = Panic /\ fi_is_one N x = Panic /\
  fi_floor N x = Panic /\ fi_ceil N x = Panic /\ fi_round dbg N x = Panic /\
  fi_trunc dbg N x = Panic /\ fi_fract dbg N x = Panic /\ fi_pow x y = Panic /\ fi_log x y = Panic.
Proof. intros. repeat split; reflexivity. Qed.
Print Assumptions C184_panics_partial.

(** Division never panics, even by zero: the raw quotient and remainder of C40. *)
Theorem C184_div_partial : forall dbg K N x y, (0 < K)%nat -> Z.of_nat (8 * K) < 2 ^ 64 -> is_i K x -> is_i K y ->
  exists q r, fi_div dbg x y = Ok q /\ fi_rem dbg x y = Ok r /\ is_i K q /\ is_i K r /\
    exists m : Z, (number N r == (if xorb (sval x <? 0) (sval y <? 0) then - number N x else number N x)
      - inject_Z (2 ^ Z.of_nat N) * number N q * number N y
      + inject_Z m * (inject_Z (2 ^ (8 * Z.of_nat K - 1)) / inject_Z (2 ^ Z.of_nat N)))%Q.
Proof.
  intros dbg K N x y HK H64 [Wx Lx] [Wy Ly].
  destruct (C40_congruence_partial dbg x y Wx Wy ltac:(congruence) ltac:(lia) ltac:(rewrite Lx; auto))
    as (q & r & E1 & E2 & L1 & L2 & W1 & W2 & V). cbv zeta in V. rewrite Lx in *.
  exists q, r. split; [exact E1|]. split; [exact E2|]. split; [split; auto|]. split; [split; auto|].
  set (s := if xorb (sval x <? 0) (sval y <? 0) then -1 else 1) in *.
  assert (0 < 2 ^ (8 * Z.of_nat K - 1)) as P by (apply Z.pow_pos_nonneg; lia).
  exists ((sval q * sval y + sval r - s * sval x) / 2 ^ (8 * Z.of_nat K - 1)).
  pose proof (Z.div_mod (sval q * sval y + sval r - s * sval x) (2 ^ (8 * Z.of_nat K - 1)) ltac:(lia)) as D. rewrite V in D.
  set (m := (sval q * sval y + sval r - s * sval x) / 2 ^ (8 * Z.of_nat K - 1)) in *.
  assert (sval r = s * sval x - sval q * sval y + m * 2 ^ (8 * Z.of_nat K - 1)) as ER by lia.
  assert ((if xorb (sval x <? 0) (sval y <? 0) then - number N x else number N x) == inject_Z s * number N x)%Q as ->.
  { unfold s. destruct (xorb (sval x <? 0) (sval y <? 0)).
    - change (inject_Z (-1)) with (-(1))%Q. ring.
    - change (inject_Z 1) with 1%Q. ring. }
  unfold number, fixed_val. rewrite ER. unfold Z.sub at 1. generalize (2 ^ (8 * Z.of_nat K - 1)). intros p. rewrite !inject_Z_plus, inject_Z_opp, !inject_Z_mult. field. apply inj_pow_nz.
Qed.
Print Assumptions C184_div_partial.

(** 1.5 * 1.5 = 4.5 with one fraction bit; 1/256 > 1 in two bytes with eight; |-1/2| = 16383.5;
    there is no way to round anything. *)
Theorem C184_refuted :
  ((number 1 [3; 0]%Z == 3 # 2)%Q /\ (number 1 (fi_mul [3; 0]%Z [3; 0]%Z) == 9 # 2)%Q) /\
  ((number 8 [1; 0]%Z == 1 # 256)%Q /\ (number 8 [0; 1]%Z == 1)%Q /\ fi_cmp [1; 0] [0; 1] = Ok Gt) /\
  (exists c, fi_abs [255; 255] = Ok c /\ (number 1 [255; 255]%Z == - (1 # 2))%Q /\ (number 1 c == 32767 # 2)%Q) /\
  (forall dbg x, is_i 2 x -> fi_floor 1 x = Panic /\ fi_round dbg 1 x = Panic).
Proof.
  split; [|split; [|split]].
  - split; reflexivity.
  - repeat split; reflexivity.
  - exists [255; 127]. repeat split; reflexivity.
  - intros. split; reflexivity.
Qed.
Print Assumptions C184_refuted.

(** -0.5 + 1.5 = 1 and the largest number plus the smallest positive one is the smallest, with
    one fraction bit in two bytes. *)
Example C184_demo : is_i 2 [255; 255] /\ is_i 2 [3; 0] /\ (number 1 [255; 255]%Z == -(1 # 2))%Q /\
  (number 1 [3; 0]%Z == 3 # 2)%Q /\ (number 1 (fi_add [255; 255]%Z [3; 0]%Z) == 1)%Q /\
  in_range 2 1 (number 1 [255; 255]%Z + number 1 [3; 0]%Z) /\
  ~ in_range 2 1 (number 1 (fi_max_value 2) + number 1 (fi_min_positive 2)) /\
  fi_add (fi_max_value 2) (fi_min_positive 2) = fi_min_value 2 /\
  fi_cmp [255; 255] [3; 0] = Ok Lt /\ fi_div true [6; 0] [2; 0] = Ok [3; 0] /\
  fi_div true [6; 0] [0; 0] = Ok [255; 255].
Proof.
  split; [split; [wf_tac|reflexivity]|]. split; [split; [wf_tac|reflexivity]|]. split; [reflexivity|].
  split; [reflexivity|]. split; [reflexivity|]. split; [split; vm_compute; discriminate|].
  split; [intros [_ H]; revert H; vm_compute; auto|]. split; [reflexivity|]. split; [reflexivity|].
  split; reflexivity.
Qed.
