(** C132 and C133: fixed-point numbers over BigInt, [Fixed<BigInt, N>]. *)
From Coq Require Import ZArith QArith Qround Qabs List Bool Lia Permutation.
From Verif Require Import Base Words Spec Arith BitSliceModel BitSliceProofs ElementModel PropBits InternModel InternProofs
  BigIntModel BigIntSpec BigIntProofs BigIntOps BigIntConv BigIntText PropBigInt RealSpec RealProofs PrimModel PrimProofs
  PropPrim FixedModel PropReals PropReals2 PropBigInt2 FixedBigModel FixedBigProofs.
From Verif Require Import Spec BigIntSpec PropBigInt.
Import ListNotations.
Local Open Scope Z_scope.

(** [x] is a handle owned by the caller beside the handles [hs], not a negated zero (C43), whose
    integer is [v]: as a fixed-point number with [N] fraction bits it denotes [fixed_val N v]. *)
Definition owned (P : Z) (st : store (list Z)) (x : Z) (hs : list Z) (v : Z) : Prop :=
  consistent P st (x :: hs) /\ denotes st x v /\ x <> neg_zero.

(** [m] consumes its operands and yields a fixed-point number denoting [q]; all else stays. *)
Definition makes (P : Z) (hs : list Z) (N : nat) (m : M Z) (st : store (list Z)) (q : Q) : Prop :=
  exists r, yields P hs m st r /\ (fixed_val N r == q)%Q.

(** ** C132 *)

Theorem C132_from_val : forall dbg N P st x hs v, Z.of_nat N < 2 ^ 64 -> owned P st x hs v -> room P hs 2 ->
  makes P hs N (fb_from_val dbg N x) st (inject_Z v) /\
  makes P (x :: hs) N fb_zero st 0 /\
  (room P hs 3 -> makes P (x :: hs) N (fb_one dbg N) st 1).
Proof.
  intros dbg N P st x hs v HN (C & D & Nx) R. split; [|split].
  - exists (v * 2 ^ Z.of_nat N). split; [apply shl_y; auto|apply val_mul].
  - exists 0. split; [apply new_yields; auto|reflexivity].
  - intros R3. exists (2 ^ Z.of_nat N). split; [apply one_y; auto; rm|].
    rewrite <- (Z.mul_1_l (2 ^ Z.of_nat N)). apply val_mul.
Qed.
Print Assumptions C132_from_val.

Lemma fixed_val_eq N a b : (fixed_val N a == fixed_val N b)%Q <-> a = b.
Proof. pose proof (two_pow_pos N). rewrite !fixed_frac, frac_eq by lia. nia. Qed.

(** Equality is equality of the denoted numbers; [is_zero] and [is_one] compare with 0 and 1. *)
Theorem C132_equality : forall dbg N P st hs x y v w, Z.of_nat N < 2 ^ 64 -> consistent P st hs -> room P hs 3 ->
  proper st hs x v -> proper st hs y w ->
  (exists b, fb_eq st x y = Ok b /\ (b = true <-> (fixed_val N v == fixed_val N w)%Q)) /\
  (fb_is_zero x = true <-> (fixed_val N v == 0)%Q) /\
  (exists b, returns P hs (fb_is_one dbg N x) st b /\ (b = true <-> (fixed_val N v == 1)%Q)).
Proof.
  intros dbg N P st hs x y v w HN C R Px Py. pose proof (two_pow_pos N) as HP. split; [|split].
  - exists (v =? w). split; [apply (C42_equality_is_value_equality P st hs); auto|].
    rewrite Z.eqb_eq, fixed_val_eq. tauto.
  - destruct (C105_predicates_partial P st hs x v C Px) as (H0 & _). unfold fb_is_zero. rewrite H0, Z.eqb_eq.
    rewrite <- (fixed_val_eq N v 0). assert (fixed_val N 0 == 0)%Q as -> by reflexivity. reflexivity.
  - exists (v =? 2 ^ Z.of_nat N). split.
    + destruct Px as (Ix & Dx & Nx). unfold fb_is_one. eapply ybindr; [apply one_y; [exact HN|exact C|rm]|sub|].
      intros o st1 C1 K1 D1 N1. eapply rbindr; [apply reads_returns with (r := v =? 2 ^ Z.of_nat N); [exact C1|]|sub|].
      { cbv beta. apply (C42_equality_is_value_equality P st1 (o :: hs)); auto; repeat split; cbn; auto. }
      intros st2 C2 K2. eapply rbindr; [apply drop_returns; exact C2|sub|]. intros st3 C3 K3. apply ret_returns. auto.
    + rewrite Z.eqb_eq, <- (fixed_val_eq N). rewrite <- (val_mul N 1), Z.mul_1_l. tauto.
Qed.
Print Assumptions C132_equality.

(** Negation, absolute value and sign; the negation of zero is the one result that is not [proper]. *)
Theorem C132_sign : forall N P st x hs v, owned P st x hs v ->
  (consistent P st (fb_neg x :: hs) /\ exists w, denotes st (fb_neg x) w /\ (fixed_val N w == - fixed_val N v)%Q) /\
  (exists w, owned P st (fb_abs x) hs w /\ (fixed_val N w == Qabs (fixed_val N v))%Q) /\
  (fb_is_negative x = true <-> (fixed_val N v < 0)%Q) /\ (fb_is_positive x = true <-> (0 <= fixed_val N v)%Q).
Proof.
  intros N P st x hs v (C & D & Nx). pose proof (two_pow_pos N) as HP.
  assert (fixed_val N 0 == 0)%Q as F0 by reflexivity.
  assert (forall w, (fixed_val N (- w) == - fixed_val N w)%Q) as FN.
  { intros w. unfold fixed_val. rewrite inject_Z_opp. field. apply inj_nz. lia. }
  destruct (C105_predicates_partial P st (x :: hs) x v C ltac:(repeat split; cbn; auto)) as (_ & _ & H1 & H2).
  split; [|split; [|split]].
  - destruct (C43_negation_denotes_partial true P st hs x v) as [H _]. destruct (H C D) as [C' D'].
    split; [exact C'|]. exists (- v). split; [exact D'|apply FN].
  - destruct (C105_abs P st hs x v C D) as (C' & D' & N'). exists (Z.abs v). split; [repeat split; auto; apply C'|].
    destruct (Z.leb_spec 0 v).
    + rewrite Z.abs_eq by lia. rewrite Qabs_pos; [reflexivity|]. rewrite <- F0. apply fixed_val_le. lia.
    + rewrite Z.abs_neq by lia. rewrite Qabs_neg; [apply FN|]. rewrite <- F0. apply fixed_val_le. lia.
  - unfold fb_is_negative. rewrite H2, Z.ltb_lt, <- F0, fixed_val_lt. tauto.
  - unfold fb_is_positive. rewrite H1, Z.leb_le, <- F0, fixed_val_le. tauto.
Qed.
Print Assumptions C132_sign.

Lemma demo_owned : owned 11 demo_st 0 [31; 5; 38] (2 ^ 100 + 3).
Proof. split; [exact demo_consistent|]. split; [apply demo_a|discriminate]. Qed.
Lemma demo_owned_neg : owned 11 demo_st 5 [0; 31; 38] ((2 ^ 100 + 3) * -7).
Proof.
  split; [|split; [apply demo_c|discriminate]].
  eapply con_perm; [|exact demo_consistent]. rewrite demo_handles. pm.
Qed.
Lemma demo_owned_small : owned 11 demo_st 31 [0; 5; 38] (-7).
Proof.
  split; [|split; [apply demo_b|discriminate]].
  eapply con_perm; [|exact demo_consistent]. rewrite demo_handles. pm.
Qed.

Example C132_demo : makes 11 [31; 5; 38] 100 (fb_from_val true 100 0) demo_st (inject_Z (2 ^ 100 + 3)).
Proof.
  refine (proj1 (C132_from_val true 100 11 demo_st 0 [31; 5; 38] (2 ^ 100 + 3) _ demo_owned _)); [reflexivity|].
  vm_compute. discriminate.
Qed.

(** ** C133 *)

(** Sums and differences, where those of BigInt are right (C44). *)
Theorem C133_add_sub_partial : forall dbg N P st hs a b x y, consistent P st (a :: b :: hs) -> room P hs 2 ->
  proper st (a :: b :: hs) a x -> proper st (a :: b :: hs) b y ->
  (add_exact x y -> makes P hs N (fb_add dbg a b) st (fixed_val N x + fixed_val N y)) /\
  (add_exact x (- y) -> makes P hs N (fb_sub dbg a b) st (fixed_val N x - fixed_val N y)).
Proof.
  intros dbg N P st hs a b x y C R (_ & Da & Na) (_ & Db & Nb). pose proof (two_pow_pos N) as HP. split; intros H.
  - exists (x + y). split; [apply add_y; auto|]. unfold fixed_val. rewrite inject_Z_plus. field. apply inj_nz. lia.
  - exists (x - y). split; [apply sub_y; auto|]. unfold fixed_val, Z.sub. rewrite inject_Z_plus, inject_Z_opp.
    field. apply inj_nz. lia.
Qed.
Print Assumptions C133_add_sub_partial.

(** Elsewhere, where the signs differ, the second number is the larger in magnitude and the result is an even number of units, sums and differences
    are two units of the last place too near to the first number. *)
Theorem C133_add_sub_otherwise_partial : forall dbg N P st hs a b x y, consistent P st (a :: b :: hs) -> room P hs 2 ->
  proper st (a :: b :: hs) a x -> proper st (a :: b :: hs) b y ->
  (~ add_exact x y -> makes P hs N (fb_add dbg a b) st (fixed_val N x + fixed_val N y - fixed_val N (2 * Z.sgn y))) /\
  (~ add_exact x (- y) -> makes P hs N (fb_sub dbg a b) st (fixed_val N x - fixed_val N y + fixed_val N (2 * Z.sgn y))).
Proof.
  intros dbg N P st hs a b x y C R Ha Hb. pose proof (two_pow_pos N) as HP.
  destruct (C44_add_sub_otherwise_partial dbg P st (a :: b :: hs) a b x y C ltac:(rm) Ha Hb) as [H1 H2]. split; intros H.
  - exists (x + y - 2 * Z.sgn y). split; [apply by_val_spec; auto|]. unfold fixed_val, Z.sub. rewrite !inject_Z_plus, inject_Z_opp. field. apply inj_nz. lia.
  - exists (x - y + 2 * Z.sgn y). split; [apply by_val_spec; apply H2; auto; intros ->; apply H; unfold add_exact; right; right; left; cbn; lia|].
    unfold fixed_val, Z.sub. rewrite !inject_Z_plus, inject_Z_opp. field. apply inj_nz. lia.
Qed.
Print Assumptions C133_add_sub_otherwise_partial.

(** Products are too large by the factor [2^N]. *)
Theorem C133_mul_partial : forall dbg N P st hs a b x y, consistent P st (a :: b :: hs) -> room P hs 2 ->
  is_int st (a :: b :: hs) a x -> is_int st (a :: b :: hs) b y ->
  makes P hs N (fb_mul dbg a b) st (fixed_val N x * fixed_val N y * inject_Z (2 ^ Z.of_nat N)).
Proof.
  intros dbg N P st hs a b x y C R Ia Ib. pose proof (two_pow_pos N) as HP. exists (x * y). split.
  - apply by_val_spec. apply C45_mul_exact; auto. rm.
  - unfold fixed_val. rewrite inject_Z_mult. field. apply inj_nz. lia.
Qed.
Print Assumptions C133_mul_partial.

(** Quotients are the whole part of the quotient, as a raw value (so too small by [2^N]); remainders of
    positive divisors are right.  Divisors up to [2^63] as raw values (C46). *)
Theorem C133_div_rem_partial : forall dbg N P st hs a b x y, consistent P st (a :: b :: hs) -> room P hs 2 ->
  is_int st (a :: b :: hs) a x -> is_int st (a :: b :: hs) b y -> addressable x ->
  (0 < Z.abs y <= 2 ^ 63 ->
     makes P hs N (fb_div dbg a b) st (inject_Z (toward_zero (fixed_val N x / fixed_val N y)) * fixed_val N 1)) /\
  (0 < y <= 2 ^ 63 ->
     makes P hs N (fb_rem dbg a b) st
       (fixed_val N x - fixed_val N y * inject_Z (toward_zero (fixed_val N x / fixed_val N y)))).
Proof.
  intros dbg N P st hs a b x y C R [_ Da] [_ Db] HA. pose proof (two_pow_pos N) as HP.
  assert (y <> 0 -> toward_zero (fixed_val N x / fixed_val N y) = Z.quot x y) as E.
  { intros Hy. rewrite <- frac_toward_zero by auto. apply toward_zero_proper. unfold frac, fixed_val.
    field. split; apply inj_nz; lia. }
  split; intros H.
  - exists (Z.quot x y). split; [apply div_y; auto; repeat split; auto; lia|]. rewrite E by lia.
    unfold fixed_val. field. apply inj_nz. lia.
  - exists (Z.rem x y). split; [apply rem_y; auto; [repeat split; auto; lia|lia]|]. rewrite E by lia.
    unfold fixed_val. rewrite Z.rem_eq by lia. unfold Z.sub. rewrite inject_Z_plus, inject_Z_opp, inject_Z_mult.
    field. apply inj_nz. lia.
Qed.
Print Assumptions C133_div_rem_partial.

(** The order is that of the numbers where BigInt's is (C47). *)
Theorem C133_cmp_partial : forall N P st hs x y v w, consistent P st hs -> proper st hs x v -> proper st hs y w ->
  (v = w \/ Z.log2 (Z.abs v) / 64 <> Z.log2 (Z.abs w) / 64 \/ Z.abs v < 2 ^ 64 \/ Z.abs w < 2 ^ 64 \/
   (v < 0 <= w) \/ (w < 0 <= v)) ->
  fb_cmp st x y = Ok (fixed_val N v ?= fixed_val N w)%Q.
Proof.
  intros N P st hs x y v w C Px Py H. pose proof (two_pow_pos N) as HP. unfold fb_cmp.
  rewrite (C47_ordering_partial P st hs x y v w C Px Py H), !fixed_frac, frac_cmp by lia. reflexivity.
Qed.
Print Assumptions C133_cmp_partial.

(** [floor] rounds toward zero (so it is right from zero up); with overflow checks it panics from
    64 fraction bits on. *)
Theorem C133_floor_partial : forall dbg N P st x hs v, Z.of_nat N < 2 ^ 64 -> owned P st x hs v -> room P hs 2 ->
  (dbg = false \/ (N < 64)%nat -> makes P hs N (fb_floor dbg N x) st (inject_Z (toward_zero (fixed_val N v)))) /\
  (dbg = true -> (64 <= N)%nat -> fb_floor dbg N x st = Panic).
Proof.
  intros dbg N P st x hs v HN (C & D & Nx) R. pose proof (two_pow_pos N) as HP. split.
  - intros Hd. exists (Z.quot v (2 ^ Z.of_nat N) * 2 ^ Z.of_nat N). split.
    + apply floor_y; auto. destruct Hd; [auto|right; lia].
    + rewrite val_mul, fixed_frac, frac_toward_zero by lia. reflexivity.
  - intros -> Hn. unfold fb_floor. apply mbind_panic. unfold fb_shr, op_int.
    destruct (from_spec true P st (x :: hs) t_usize (Z.of_nat N) C ltac:(rm) std_usize ltac:(apply usize_N; auto))
      as (b & st1 & E & C1 & K1 & D1 & N1).
    rewrite (mbind_ok _ _ _ _ _ E). unfold by_val. apply mbind_panic.
    apply (C51_right_shift_partial true P st1 (b :: x :: hs) x b v (Z.of_nat N) C1); auto; try lia; [rm|split; cbn; auto|repeat split; cbn; auto].
    apply K1; cbn; auto.
Qed.
Print Assumptions C133_floor_partial.

(** Bits covered by the complement of the mask: whole limbs. *)
Definition covered (N : nat) : Z := 2 ^ (64 * (Z.of_nat (Nat.pred N) / 64 + 1)).

(** [ceil] keeps whole numbers whose raw value is covered; anything else is truncated and one is
    added: right for positive fractions, one too large otherwise. *)
Theorem C133_ceil_partial : forall dbg N P st x hs v, Z.of_nat N < 2 ^ 64 -> owned P st x hs v -> room P hs 5 ->
  dbg = false \/ (N < 64)%nat ->
  makes P hs N (fb_ceil dbg N x) st
    (if (Z.abs v <? covered N) && (v mod 2 ^ Z.of_nat N =? 0) then fixed_val N v
     else inject_Z (toward_zero (fixed_val N v) + 1)) /\
  (0 <= v -> v mod 2 ^ Z.of_nat N <> 0 -> toward_zero (fixed_val N v) + 1 = Qceiling (fixed_val N v)).
Proof.
  intros dbg N P st x hs v HN (C & D & Nx) R Hd. pose proof (two_pow_pos N) as HP. split.
  - assert (dbg = false \/ Z.of_nat N < 64) as Hd' by (destruct Hd; [auto|right; lia]).
    eexists. split; [exact (ceil_y dbg N P HN st hs x v C R D Nx Hd')|]. unfold whole.
    change (2 ^ (64 * limbs N)) with (covered N).
    destruct ((Z.abs v <? covered N) && (v mod 2 ^ Z.of_nat N =? 0)); [reflexivity|].
    replace (Z.quot v (2 ^ Z.of_nat N) * 2 ^ Z.of_nat N + 2 ^ Z.of_nat N) with ((Z.quot v (2 ^ Z.of_nat N) + 1) * 2 ^ Z.of_nat N) by ring.
    rewrite val_mul, fixed_frac, frac_toward_zero by lia. reflexivity.
  - intros H0 Hm. rewrite fixed_frac, frac_toward_zero, frac_ceil, Z.quot_div_nonneg, Z.div_opp_l_nz by lia. lia.
Qed.
Print Assumptions C133_ceil_partial.

(** [trunc] and [fract] are right up to 63 fraction bits, for negative numbers too. *)
Theorem C133_trunc_fract_partial : forall dbg N P st x hs v, (N <= 63)%nat -> owned P st x hs v -> room P hs 4 -> addressable v ->
  exists w f, yields P hs (fb_trunc dbg N x) st w /\ yields P hs (fb_fract dbg N x) st f /\
    (fixed_val N w == inject_Z (toward_zero (fixed_val N v)))%Q /\
    (fixed_val N v == fixed_val N w + fixed_val N f)%Q /\ (Qabs (fixed_val N f) < 1)%Q.
Proof.
  intros dbg N P st x hs v HN (C & D & Nx) R HA. pose proof (two_pow_pos N) as HP.
  exists (Z.quot v (2 ^ Z.of_nat N) * 2 ^ Z.of_nat N), (Z.rem v (2 ^ Z.of_nat N)).
  split; [apply trunc_y; auto; lia|]. split; [apply fract_y; auto; try lia; rm|]. split; [|split].
  - rewrite val_mul, fixed_frac, frac_toward_zero by lia. reflexivity.
  - unfold fixed_val. rewrite (Z.quot_rem' v (2 ^ Z.of_nat N)) at 1.
    rewrite inject_Z_plus, Z.mul_comm. field. apply inj_nz. lia.
  - rewrite <- (val_mul N 1), Z.mul_1_l. apply Qabs_Qlt_condition.
    assert (forall w, (fixed_val N (- w) == - fixed_val N w)%Q) as FN.
    { intros w. unfold fixed_val. rewrite inject_Z_opp. field. apply inj_nz. lia. }
    rewrite <- FN, !fixed_val_lt. pose proof (Z.rem_bound_abs v (2 ^ Z.of_nat N)). lia.
Qed.
Print Assumptions C133_trunc_fract_partial.

(** From 64 fraction bits on, [fract] panics for every value with fewer limbs than one. *)
Theorem C133_fract_panics_partial : forall dbg N P st x hs v, Z.of_nat N < 2 ^ 64 - 64 -> owned P st x hs v -> room P hs 3 ->
  Z.log2 (Z.abs v) / 64 < Z.of_nat N / 64 -> fb_fract dbg N x st = Panic.
Proof. intros dbg N P st x hs v HN (C & D & Nx) R H. apply (fract_panic dbg N P ltac:(lia) st hs x v); auto. Qed.
Print Assumptions C133_fract_panics_partial.

(** [round] keeps whole numbers; any other number is truncated and one is added. *)
Theorem C133_round_partial : forall dbg N P st x hs v, (N <= 62)%nat -> owned P st x hs v -> room P hs 8 -> addressable v ->
  makes P hs N (fb_round dbg N x) st
    (if v mod 2 ^ Z.of_nat N =? 0 then fixed_val N v else inject_Z (toward_zero (fixed_val N v) + 1)).
Proof.
  intros dbg N P st x hs v HN (C & D & Nx) R HA. pose proof (two_pow_pos N) as HP.
  eexists. split; [exact (round_y dbg N P ltac:(lia) st hs x v C R D Nx HA ltac:(lia))|].
  destruct (v mod 2 ^ Z.of_nat N =? 0); [reflexivity|].
  replace (Z.quot v (2 ^ Z.of_nat N) * 2 ^ Z.of_nat N + 2 ^ Z.of_nat N) with ((Z.quot v (2 ^ Z.of_nat N) + 1) * 2 ^ Z.of_nat N) by ring.
  rewrite val_mul, fixed_frac, frac_toward_zero by lia. reflexivity.
Qed.
Print Assumptions C133_round_partial.

(** [let x = Fixed::<BigInt, N>::from_raw(BigInt::from(v)); f(x)], in a fresh interner. *)
Definition on_new (f : Z -> M Z) (v : Z) : res (Z * store (list Z)) :=
  (let! x := bi_from true {| ibits := 128; isigned := true |} v in f x) interner_new.

(** With one fraction bit: -1.5 has floor -1, ceil 0 and rounds to 0; the whole number 2^64 has ceil
    2^64 + 1; 1.5 times 1.5 is 4.5; 0.25 rounds to 1; with 64 fraction bits 0.5 has no fract, and no
    number has a floor with overflow checks. *)
Theorem C133_refuted :
  (exists h st, on_new (fb_floor true 1) (-3) = Ok (h, st) /\ denotes st h (-2)) /\
  (exists h st, on_new (fb_ceil true 1) (-3) = Ok (h, st) /\ denotes st h 0) /\
  (exists h st, on_new (fb_round true 1) (-3) = Ok (h, st) /\ denotes st h 0) /\
  (exists h st, on_new (fb_ceil true 1) (2 ^ 65) = Ok (h, st) /\ denotes st h (2 ^ 65 + 2)) /\
  (exists h st, on_new (fb_ceil true 1) (2 ^ 63) = Ok (h, st) /\ denotes st h (2 ^ 63)) /\
  (exists h st, on_new (fun x => let! y := bi_clone true x in fb_mul true x y) 3 = Ok (h, st) /\ denotes st h 9) /\
  (exists h st, on_new (fb_round true 2) 1 = Ok (h, st) /\ denotes st h 4) /\
  on_new (fb_fract true 64) (2 ^ 63) = Panic /\ on_new (fb_floor true 64) (2 ^ 70) = Panic.
Proof.
  repeat split; try (vm_compute; reflexivity); try (do 2 eexists; split; [vm_compute; reflexivity|demo_den]).
Qed.
Print Assumptions C133_refuted.

Example C133_demo : makes 11 [0; 31; 38] 3 (fb_floor true 3 5) demo_st (inject_Z (toward_zero (fixed_val 3 ((2 ^ 100 + 3) * -7)))) /\
  makes 11 [0; 5; 38] 1 (fb_ceil true 1 31) demo_st (inject_Z (toward_zero (fixed_val 1 (-7)) + 1)) /\
  makes 11 [0; 5; 38] 1 (fb_round true 1 31) demo_st (inject_Z (toward_zero (fixed_val 1 (-7)) + 1)).
Proof.
  split; [|split].
  - apply (C133_floor_partial true 3 11 demo_st 5 [0; 31; 38] _ eq_refl demo_owned_neg); [vm_compute; discriminate|right; lia].
  - apply (C133_ceil_partial true 1 11 demo_st 31 [0; 5; 38] (-7) eq_refl demo_owned_small); [vm_compute; discriminate|right; lia].
  - apply (C133_round_partial true 1 11 demo_st 31 [0; 5; 38] (-7) ltac:(lia) demo_owned_small); vm_compute; auto; discriminate.
Qed.

(** -3.5 + 4.5 with one fraction bit is 0. *)
Example C133_otherwise_demo : makes 11 [0; 5] 1 (fb_add true 31 38) demo_st (fixed_val 1 (-7) + fixed_val 1 9 - fixed_val 1 2).
Proof.
  assert (consistent 11 demo_st [31; 38; 0; 5]) as C by (eapply con_perm; [|exact demo_consistent]; rewrite demo_handles; pm).
  apply (C133_add_sub_otherwise_partial true 1 11 demo_st [0; 5] 31 38 (-7) 9 C).
  - vm_compute. discriminate.
  - destruct demo_b' as (_ & D). split; [left; reflexivity|exact D].
  - destruct demo_d' as (_ & D). split; [right; left; reflexivity|exact D].
  - unfold add_exact. cbn. intros [H|[H|[H|H]]]; try lia; discriminate.
Qed.
