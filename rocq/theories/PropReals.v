(** Properties C75-C83, C103 and C104: fixed-point numbers, rationals, posits and byte floats.
    [t] is the backing integer type, [N] the number of fraction bits, [dbg] whether overflow
    checks are on; the denoted numbers are rationals (RealSpec.v). *)
From Coq Require Import ZArith QArith Qround Qabs List Bool Lia Znumtheory.
From Verif Require Import Base Words Spec TextSpec Arith BitSliceModel BitSliceProofs PrimModel PrimProofs PropPrim
  FixedModel RatModel PositModel RealSpec RealProofs RatProofs.
Import ListNotations.
Local Open Scope Z_scope.

Definition i32 := {| ibits := 32; isigned := true |}.

(** ** C75 *)

(** An operation whose exact raw result is [v]: that result when it is representable, else a
    panic with overflow checks. *)
Definition exact (dbg : bool) (t : ity) (N : nat) (q : Q) (res : res Z) : Prop :=
  (forall r, fits t r -> (fixed_val N r == q)%Q -> res = Ok r) /\
  ((forall r, fits t r -> ~ (fixed_val N r == q)%Q) -> dbg = true -> res = Panic).

Lemma exact_arith dbg t N v q : (fixed_val N v == q)%Q -> exact dbg t N q (arith dbg t v).
Proof.
  intros E. pose proof (two_pow_pos N). split.
  - intros r Hr Er. assert (r = v) as ->.
    { rewrite <- E in Er. rewrite !fixed_frac, frac_eq in Er by lia. nia. }
    apply arith_in. auto.
  - intros H0 ->. apply arith_over. intros Hv. apply (H0 v); auto.
Qed.

Theorem C75_add_sub_neg : forall dbg t N a b,
  exact dbg t N (fixed_val N a + fixed_val N b) (fx_add dbg t a b) /\
  exact dbg t N (fixed_val N a - fixed_val N b) (fx_sub dbg t a b) /\
  exact dbg t N (- fixed_val N a) (fx_neg dbg t a).
Proof.
  intros dbg t N a b. pose proof (two_pow_pos N) as HP.
  assert (~ inject_Z (2 ^ Z.of_nat N) == 0)%Q as Hz by (apply inj_nz; lia).
  repeat split; try apply exact_arith; unfold fixed_val.
  all: try (rewrite inject_Z_plus; field; auto).
  all: try (unfold Z.sub; rewrite inject_Z_plus, inject_Z_opp; field; auto).
  all: rewrite inject_Z_opp; field; auto.
Qed.
Print Assumptions C75_add_sub_neg.

Theorem C75_order : forall N a b,
  fx_cmp a b = (fixed_val N a ?= fixed_val N b)%Q /\
  (fx_eq a b = true <-> (fixed_val N a == fixed_val N b)%Q).
Proof.
  intros N a b. pose proof (two_pow_pos N). split.
  - rewrite !fixed_frac, frac_cmp by auto. auto.
  - unfold fx_eq. rewrite Z.eqb_eq, !fixed_frac, frac_eq by lia. nia.
Qed.
Print Assumptions C75_order.

Theorem C75_from_val : forall dbg t N v, (0 < ibits t)%nat -> (N < ibits t)%nat ->
  fits t (v * 2 ^ Z.of_nat N) ->
  exists r, fx_from_val dbg t N v = Ok r /\ (fixed_val N r == inject_Z v)%Q.
Proof.
  intros dbg t N v Hb HN Hv. unfold fx_from_val, prim_shl. rewrite (proj2 (Nat.ltb_lt _ _) HN).
  rewrite Z.shiftl_mul_pow2, wrap_id by (auto; lia). eexists. split; [reflexivity|].
  unfold fixed_val. rewrite inject_Z_mult. field. apply inj_nz. pose proof (two_pow_pos N). lia.
Qed.
Print Assumptions C75_from_val.

(** The raw integer [v] denotes [v / 2^N]; [from_val] is [from_raw] of the integer moved up by [N] bits. *)
Theorem C75_from_raw : forall dbg t N v, (0 < ibits t)%nat -> (N < ibits t)%nat ->
  (fixed_val N (fx_from_raw v) * inject_Z (2 ^ Z.of_nat N) == inject_Z v)%Q /\
  (fits t (v * 2 ^ Z.of_nat N) -> fx_from_val dbg t N v = Ok (fx_from_raw (v * 2 ^ Z.of_nat N))).
Proof.
  intros dbg t N v Hb HN. split.
  - unfold fixed_val, fx_from_raw. field. apply inj_nz. pose proof (two_pow_pos N). lia.
  - intros Hv. unfold fx_from_val, prim_shl, fx_from_raw. rewrite (proj2 (Nat.ltb_lt _ _) HN).
    rewrite Z.shiftl_mul_pow2, wrap_id by (auto; lia). reflexivity.
Qed.
Print Assumptions C75_from_raw.

Example C75_example : (* 1.5 + 2.25 = 3.75; 31 + 1.5 overflows i8 with 2 fraction bits *)
  fx_add true i8 6 9 = Ok 15 /\ (fixed_val 2 6 == 3 # 2)%Q /\ (fixed_val 2 9 == 9 # 4)%Q /\
  (fixed_val 2 15 == 15 # 4)%Q /\ fx_add true i8 124 6 = Panic /\ fx_add false i8 124 6 = Ok (-126) /\
  fits i8 (31 * 2 ^ Z.of_nat 2) /\ fx_from_val true i8 2 31 = Ok 124.
Proof. unfold fits. repeat split; try reflexivity; vm_compute; discriminate. Qed.

(** ** C76 *)

(** Multiplication is off by the factor [2^N], division by its inverse. *)
Theorem C76_mul_partial : forall dbg t N a b, fits t (a * b) ->
  exists r, fx_mul dbg t a b = Ok r /\
    (fixed_val N r == fixed_val N a * fixed_val N b * inject_Z (2 ^ Z.of_nat N))%Q.
Proof.
  intros dbg t N a b H. unfold fx_mul. rewrite arith_in by auto. eexists. split; [reflexivity|].
  unfold fixed_val. rewrite inject_Z_mult. field. apply inj_nz. pose proof (two_pow_pos N). lia.
Qed.
Print Assumptions C76_mul_partial.

(** Right when there are no fraction bits. *)
Theorem C76_mul_integer_partial : forall dbg t a b,
  exact dbg t 0 (fixed_val 0 a * fixed_val 0 b) (fx_mul dbg t a b).
Proof.
  intros. apply exact_arith. unfold fixed_val. change (2 ^ Z.of_nat 0) with 1.
  rewrite inject_Z_mult. field.
Qed.
Print Assumptions C76_mul_integer_partial.

(** Division gives the truncated quotient of the denoted numbers, as a raw value. *)
Theorem C76_div_partial : forall t N a b, b <> 0 -> ~ (isigned t = true /\ a = imin t /\ b = -1) ->
  exists r, fx_div t a b = Ok r /\ r = toward_zero (fixed_val N a / fixed_val N b).
Proof.
  intros t N a b Hb Hx. unfold fx_div. rewrite prim_div_ok by (auto; tauto).
  eexists. split; [reflexivity|]. rewrite <- frac_toward_zero by auto. apply toward_zero_proper.
  unfold frac, fixed_val. pose proof (two_pow_pos N). field. split; apply inj_nz; lia.
Qed.
Print Assumptions C76_div_partial.

Theorem C76_div_zero : forall t a, fx_div t a 0 = Panic.
Proof. reflexivity. Qed.
Print Assumptions C76_div_zero.

Theorem C76_mul_refuted : exists o r, (* 1.0 * 1.5 = 3.0 *)
  fx_one true i32 1 = Ok o /\ fx_mul true i32 o 3 = Ok r /\
  (fixed_val 1 o == 1)%Q /\ (fixed_val 1 3 == 3 # 2)%Q /\ (fixed_val 1 r == 3)%Q.
Proof. exists 2, 6. repeat split. Qed.
Print Assumptions C76_mul_refuted.

Example C76_example : fits i32 (6 * 10) /\ fx_mul true i32 6 10 = Ok 60 /\ fx_div i32 60 8 = Ok 7.
Proof. unfold fits. repeat split; try reflexivity; vm_compute; discriminate. Qed.

(** ** C77 *)

(** The number one is representable with [N] fraction bits. *)
Definition one_fits (t : ity) (N : nat) : Prop := fits t (2 ^ Z.of_nat N).

Lemma val_mul N k : (fixed_val N (k * 2 ^ Z.of_nat N) == inject_Z k)%Q.
Proof.
  unfold fixed_val. rewrite inject_Z_mult. field. apply inj_nz. pose proof (two_pow_pos N). lia.
Qed.

Theorem C77_floor : forall dbg t N x, (0 < ibits t)%nat -> one_fits t N -> fits t x ->
  exists r, fx_floor dbg t N x = Ok r /\ fits t r /\
    (fixed_val N r == inject_Z (Qfloor (fixed_val N x)))%Q.
Proof.
  intros dbg t N x Hb H1 Hx. eexists. split; [apply floor_ok; auto|].
  split; [apply floor_repr; auto|]. rewrite val_mul, fixed_frac, frac_floor. reflexivity.
Qed.
Print Assumptions C77_floor.

Theorem C77_ceil : forall dbg t N x, (0 < ibits t)%nat -> one_fits t N -> fits t x ->
  exact dbg t N (inject_Z (Qceiling (fixed_val N x))) (fx_ceil dbg t N x).
Proof.
  intros dbg t N x Hb H1 Hx. rewrite (ceil_ok dbg t N Hb H1 x Hx). apply exact_arith.
  rewrite val_mul, fixed_frac, frac_ceil. reflexivity.
Qed.
Print Assumptions C77_ceil.

Theorem C77_trunc_fract : forall dbg t N x, (0 < ibits t)%nat -> one_fits t N -> fits t x ->
  exists w f, fx_trunc dbg t N x = Ok w /\ fx_fract dbg t N x = Ok f /\ fits t w /\ fits t f /\
    (fixed_val N w == inject_Z (toward_zero (fixed_val N x)))%Q /\
    (fixed_val N x == fixed_val N w + fixed_val N f)%Q /\
    (Qabs (fixed_val N f) < 1)%Q.
Proof.
  intros dbg t N x Hb H1 Hx. pose proof (two_pow_pos N) as HP.
  exists (Z.quot x (2 ^ Z.of_nat N) * 2 ^ Z.of_nat N), (Z.rem x (2 ^ Z.of_nat N)).
  split; [apply trunc_ok; auto|]. split; [apply fract_ok; auto|].
  split; [apply trunc_repr; auto|]. split; [apply rem_range; auto; lia|].
  split; [|split].
  - rewrite val_mul, fixed_frac, frac_toward_zero by lia. reflexivity.
  - unfold fixed_val. rewrite (Z.quot_rem' x (2 ^ Z.of_nat N)) at 1.
    rewrite inject_Z_plus, !inject_Z_mult. field. apply inj_nz. lia.
  - pose proof (frac_dist (Z.rem x (2 ^ Z.of_nat N)) _ 0 HP) as D.
    rewrite Z.mul_0_l, Z.sub_0_r in D. rewrite fixed_frac.
    assert (frac (Z.rem x (2 ^ Z.of_nat N)) (2 ^ Z.of_nat N) ==
            frac (Z.rem x (2 ^ Z.of_nat N)) (2 ^ Z.of_nat N) - inject_Z 0)%Q as -> by (change (inject_Z 0) with 0%Q; ring).
    rewrite D. change 1%Q with (inject_Z 1). rewrite <- (frac_int 1), frac_lt by lia.
    pose proof (Z.rem_bound_abs x (2 ^ Z.of_nat N)). lia.
Qed.
Print Assumptions C77_trunc_fract.

Theorem C77_is_whole : forall dbg t N x, (0 < ibits t)%nat -> one_fits t N -> fits t x ->
  exists b, fx_is_whole dbg t N x = Ok b /\
    (b = true <-> exists k, (fixed_val N x == inject_Z k)%Q).
Proof.
  intros dbg t N x Hb H1 Hx. eexists. split; [apply whole_ok; auto|].
  pose proof (two_pow_pos N) as HP. rewrite Z.eqb_eq. split.
  - intros E. exists (x / 2 ^ Z.of_nat N). rewrite <- val_mul.
    pose proof (Z.div_mod x (2 ^ Z.of_nat N)).
    replace (x / 2 ^ Z.of_nat N * 2 ^ Z.of_nat N) with x by lia. reflexivity.
  - intros [k E]. rewrite <- frac_int, fixed_frac, frac_eq in E by lia.
    rewrite Z.mul_1_r in E. subst. apply Z.mod_mul. lia.
Qed.
Print Assumptions C77_is_whole.

Example C77_example : (* -1.5 and 2.25 with two fraction bits; 31.75 has no i8 ceiling *)
  one_fits i8 2 /\ fits i8 (-6) /\ fx_floor true i8 2 (-6) = Ok (-8) /\ fx_ceil true i8 2 (-6) = Ok (-4) /\
  fx_trunc true i8 2 (-6) = Ok (-4) /\ fx_fract true i8 2 (-6) = Ok (-2) /\
  fx_ceil true i8 2 9 = Ok 12 /\ fx_ceil true i8 2 127 = Panic /\ fx_is_whole true i8 2 9 = Ok false.
Proof. unfold one_fits, fits. repeat split; try reflexivity; vm_compute; discriminate. Qed.

(** ** C78 *)

(** [round] is the ceiling: it is right exactly when the fraction is zero or at least 1/2. *)
Theorem C78_round_partial : forall dbg t N x, (0 < ibits t)%nat -> one_fits t N -> fits t (2 * 2 ^ Z.of_nat N) ->
  fits t x ->
  exact dbg t N (inject_Z (Qceiling (fixed_val N x))) (fx_round dbg t N x) /\
  (nearest (fixed_val N x) (Qceiling (fixed_val N x)) <->
   let fraction := (fixed_val N x - inject_Z (Qfloor (fixed_val N x)))%Q in
   (fraction == 0)%Q \/ (1 # 2 <= fraction)%Q).
Proof.
  intros dbg t N x Hb H1 H2 Hx. split; [rewrite (round_ok dbg t N Hb H1 x Hx H2); apply C77_ceil; auto|].
  pose proof (two_pow_pos N) as HP. rewrite fixed_frac, frac_floor, frac_ceil, nearest_iff by auto.
  cbv zeta. set (P := 2 ^ Z.of_nat N) in *.
  assert (frac x P - inject_Z (x / P) == frac (x mod P) P)%Q as ->.
  { rewrite Z.mod_eq by lia. unfold frac, Z.sub. rewrite inject_Z_plus, inject_Z_opp, inject_Z_mult.
    field. apply inj_nz. lia. }
  assert (1 # 2 == frac 1 2)%Q as -> by reflexivity.
  rewrite frac_le by lia. assert (0 == frac 0 1)%Q as -> by reflexivity. rewrite frac_eq by lia.
  pose proof (Z.div_mod x P ltac:(lia)). pose proof (Z.mod_pos_bound x P HP).
  destruct (Z.eq_dec (x mod P) 0) as [E|E].
  - rewrite Z.div_opp_l_z by lia. rewrite E. split; [auto|]. intros _.
    replace (x - - - (x / P) * P) with 0 by lia. lia.
  - rewrite Z.div_opp_l_nz by lia. replace (x - - (- (x / P) - 1) * P) with (x mod P - P) by lia. lia.
Qed.
Print Assumptions C78_round_partial.

Theorem C78_round_refuted : exists r, (* 0.25 rounds to 1 *)
  fx_round true i32 2 1 = Ok r /\ (fixed_val 2 1 == 1 # 4)%Q /\ (fixed_val 2 r == 1)%Q /\
  ~ nearest (fixed_val 2 1) 1.
Proof.
  exists 4. repeat split. intros H. specialize (H 0). revert H. vm_compute. auto.
Qed.
Print Assumptions C78_round_refuted.

Example C78_example : one_fits i8 2 /\ fits i8 (2 * 2 ^ Z.of_nat 2) /\ fits i8 7 /\ fx_round true i8 2 7 = Ok 8.
Proof. unfold one_fits, fits. repeat split; try reflexivity; vm_compute; discriminate. Qed.

(** ** C79 *)

(** A representable rational with a non-zero denominator. *)
Definition rat_ok (t : ity) (r : rat) : Prop :=
  fits t (num r) /\ fits t (denom r) /\ denom r <> 0.
Definition rat_val (r : rat) : Q := frac (num r) (denom r).

(** The result is the rational [q]. *)
Definition gives (t : ity) (q : Q) (res : res rat) : Prop :=
  exists r, res = Ok r /\ rat_ok t r /\ (rat_val r == q)%Q.

(** [t] has the number 1, and [fuel] suffices for every gcd. *)
Definition setting (t : ity) (fuel : nat) : Prop :=
  (0 < ibits t)%nat /\ fits t 1 /\ 2 ^ (Z.of_nat (ibits t) + 1) < Z.of_nat fuel.

(** Not the minimum of a signed type. *)
Definition not_min (t : ity) (v : Z) : Prop := isigned t = true -> v <> imin t.

Theorem C79_new_partial : forall fuel t n d, setting t fuel -> fits t n -> fits t d ->
  not_min t n -> not_min t d ->
  if d =? 0 then rat_new fuel t n d = Ok None
  else exists r, rat_new fuel t n d = Ok (Some r) /\ rat_ok t r /\ (rat_val r == frac n d)%Q.
Proof.
  intros fuel t n d (Hb & H1 & He) Hn Hd Mn Md. unfold rat_new.
  destruct (Z.eqb_spec d 0) as [|Hd0]; auto.
  destruct (new_unwrap_ok fuel t Hb H1 He n d) as (r & E & G & V); auto.
  revert E. unfold rat_new_unwrap, rat_new. rewrite (proj2 (Z.eqb_neq _ _)) by auto.
  destruct (rat_reduce fuel t n d) as [r'| |]; cbn; try discriminate.
  intros E; inversion E; subst r'. exists r. repeat split; auto; apply G.
Qed.
Print Assumptions C79_new_partial.

(** For all operands: never a wrong fraction; a panic only at the minimum of a signed type. *)
Theorem C79_new_sound : forall fuel t n d, setting t fuel -> fits t n -> fits t d -> d <> 0 ->
  (rat_new fuel t n d = Panic /\ isigned t = true /\ (n = imin t \/ d = imin t)) \/
  exists r, rat_new fuel t n d = Ok (Some r) /\ rat_ok t r /\ (rat_val r == frac n d)%Q.
Proof.
  intros fuel t n d (Hb & H1 & He) Hn Hd Hd0. unfold rat_new. rewrite (proj2 (Z.eqb_neq _ _)) by auto.
  destruct (reduce_sound fuel t Hb H1 He n d) as [E|(r & E & G & V)]; auto.
  - left. rewrite E. split; auto. apply (reduce_panic fuel t Hb He n d); auto.
  - right. exists r. rewrite E. repeat split; auto; apply G.
Qed.
Print Assumptions C79_new_sound.

Lemma new_gives fuel t n d q : setting t fuel -> fits t n -> fits t d -> d <> 0 ->
  not_min t n -> not_min t d -> (frac n d == q)%Q -> gives t q (rat_new_unwrap fuel t n d).
Proof.
  intros (Hb & H1 & He) Hn Hd Hd0 Mn Md Eq.
  destruct (new_unwrap_ok fuel t Hb H1 He n d) as (r & E & G & V); auto.
  exists r. rewrite E. repeat split; auto; try apply G. rewrite <- Eq. exact V.
Qed.

Ltac fr := unfold rat_val, frac; rewrite ?inject_Z_plus, ?inject_Z_mult; field; repeat split; apply inj_nz; auto.

Theorem C79_add_partial : forall dbg fuel t a b, setting t fuel -> rat_ok t a -> rat_ok t b ->
  let p := num a * denom b in let q := num b * denom a in let d := denom a * denom b in
  fits t p -> fits t q -> fits t (p + q) -> fits t d -> not_min t (p + q) -> not_min t d ->
  gives t (rat_val a + rat_val b) (rat_add dbg fuel t a b).
Proof.
  intros dbg fuel t a b S (Ha1 & Ha2 & Ha3) (Hb1 & Hb2 & Hb3) p q d Hp Hq Hs Hd Ms Md.
  unfold rat_add. fold p q d. rewrite !arith_in by auto. cbn [bind]. rewrite arith_in by auto. cbn [bind].
  apply new_gives; auto; [unfold d; nia|]. unfold p, q, d. fr.
Qed.
Print Assumptions C79_add_partial.

Theorem C79_sub_partial : forall dbg fuel t a b, setting t fuel -> rat_ok t a -> rat_ok t b ->
  let p := num a * denom b in let q := num b * denom a in let d := denom a * denom b in
  fits t p -> fits t q -> fits t (p - q) -> fits t d -> not_min t (p - q) -> not_min t d ->
  gives t (rat_val a - rat_val b) (rat_sub dbg fuel t a b).
Proof.
  intros dbg fuel t a b S (Ha1 & Ha2 & Ha3) (Hb1 & Hb2 & Hb3) p q d Hp Hq Hs Hd Ms Md.
  unfold rat_sub. fold p q d. rewrite !arith_in by auto. cbn [bind]. rewrite arith_in by auto. cbn [bind].
  apply new_gives; auto; [unfold d; nia|]. unfold p, q, d, Z.sub.
  unfold rat_val, frac. rewrite inject_Z_plus, inject_Z_opp, !inject_Z_mult. field. split; apply inj_nz; auto.
Qed.
Print Assumptions C79_sub_partial.

Theorem C79_mul_partial : forall dbg fuel t a b, setting t fuel -> rat_ok t a -> rat_ok t b ->
  let n := num a * num b in let d := denom a * denom b in
  fits t n -> fits t d -> not_min t n -> not_min t d ->
  gives t (rat_val a * rat_val b) (rat_mul dbg fuel t a b).
Proof.
  intros dbg fuel t a b S (Ha1 & Ha2 & Ha3) (Hb1 & Hb2 & Hb3) n d Hn Hd Mn Md.
  unfold rat_mul. fold n d. rewrite !arith_in by auto. cbn [bind].
  apply new_gives; auto; [unfold d; nia|]. unfold n, d. fr.
Qed.
Print Assumptions C79_mul_partial.

Theorem C79_div_partial : forall dbg fuel t a b, setting t fuel -> rat_ok t a -> rat_ok t b ->
  num b <> 0 ->
  let n := num a * denom b in let d := denom a * num b in
  fits t n -> fits t d -> not_min t n -> not_min t d ->
  gives t (rat_val a / rat_val b) (rat_div dbg fuel t a b).
Proof.
  intros dbg fuel t a b S (Ha1 & Ha2 & Ha3) (Hb1 & Hb2 & Hb3) Hb0 n d Hn Hd Mn Md.
  unfold rat_div. fold n d. rewrite !arith_in by auto. cbn [bind].
  apply new_gives; auto; [unfold d; nia|]. unfold n, d. fr.
Qed.
Print Assumptions C79_div_partial.

(** Dividing by zero panics in every build. *)
Theorem C79_div_zero : forall dbg fuel t a b, (0 < ibits t)%nat -> (rat_val b == 0)%Q -> denom b <> 0 ->
  forall r, rat_div dbg fuel t a b <> Ok r.
Proof.
  intros dbg fuel t a b Hbits Hz Hd r. unfold rat_val in Hz.
  unfold rat_div. assert (num b = 0) as ->.
  { assert (0 == frac 0 1)%Q as F by reflexivity. rewrite F, frac_eq in Hz by lia. lia. }
  destruct (arith dbg t (num a * denom b)); cbn [bind]; try discriminate.
  rewrite Z.mul_0_r, arith_in by (apply imin_le0; auto). discriminate.
Qed.
Print Assumptions C79_div_zero.

Theorem C79_neg_partial : forall dbg t a, rat_ok t a -> fits t (- num a) ->
  gives t (- rat_val a) (rat_neg dbg t a).
Proof.
  intros dbg t a (H1 & H2 & H3) Hn. unfold rat_neg. rewrite arith_in by auto. cbn [bind].
  eexists. split; [reflexivity|]. split; [exact (conj Hn (conj H2 H3))|]. unfold rat_val. cbn [num denom].
  rewrite frac_opp. reflexivity.
Qed.
Print Assumptions C79_neg_partial.

(** With overflow checks, an unrepresentable intermediate product or sum panics. *)
Theorem C79_overflow : forall fuel t a b,
  (~ fits t (num a * denom b) -> rat_add true fuel t a b = Panic /\ rat_sub true fuel t a b = Panic /\
     rat_div true fuel t a b = Panic) /\
  (~ fits t (num a * num b) -> rat_mul true fuel t a b = Panic) /\
  (~ fits t (- num a) -> rat_neg true t a = Panic).
Proof.
  intros. repeat split; intros;
    unfold rat_add, rat_sub, rat_div, rat_mul, rat_neg; rewrite arith_over; auto.
Qed.
Print Assumptions C79_overflow.

(** In every build, whatever overflows: a returned rational is representable and its
    denominator is not zero. *)
Theorem C79_denominator : forall dbg fuel t a b r, setting t fuel -> rat_ok t a -> rat_ok t b ->
  rat_add dbg fuel t a b = Ok r \/ rat_sub dbg fuel t a b = Ok r \/ rat_mul dbg fuel t a b = Ok r \/
  rat_div dbg fuel t a b = Ok r \/ rat_neg dbg t a = Ok r \/ rat_abs dbg t a = Ok r ->
  rat_ok t r.
Proof.
  intros dbg fuel t a b r (Hb & H1 & He) (Ha1 & Ha2 & Ha3) _ H.
  assert (forall n d, (do x <- arith dbg t n ;; do y <- arith dbg t d ;; rat_new_unwrap fuel t x y) = Ok r ->
    rat_ok t r) as K.
  { intros n d E. destruct (arith dbg t n) as [x| |] eqn:Ex; cbn [bind] in E; try discriminate.
    destruct (arith dbg t d) as [y| |] eqn:Ey; cbn [bind] in E; try discriminate.
    apply (new_unwrap_good fuel t Hb H1 He) in E; [|apply (arith_repr dbg t Hb _ _ Ex)|apply (arith_repr dbg t Hb _ _ Ey)].
    apply E. }
  unfold rat_add, rat_sub, rat_mul, rat_div, rat_neg, rat_abs, prim_abs in H.
  destruct H as [H|[H|[H|[H|[H|H]]]]].
  - destruct (arith dbg t (num a * denom b)); cbn [bind] in H; try discriminate.
    destruct (arith dbg t (num b * denom a)); cbn [bind] in H; try discriminate. apply K in H; auto.
  - destruct (arith dbg t (num a * denom b)); cbn [bind] in H; try discriminate.
    destruct (arith dbg t (num b * denom a)); cbn [bind] in H; try discriminate. apply K in H; auto.
  - apply K in H; auto.
  - apply K in H; auto.
  - destruct (arith dbg t (- num a)) eqn:E; cbn [bind] in H; try discriminate. inversion H; subst.
    repeat split; cbn; try apply Ha2; auto; apply (arith_repr dbg t Hb _ _ E).
  - destruct (arith dbg t (Z.abs (num a))) eqn:E; cbn [bind] in H; try discriminate. inversion H; subst.
    repeat split; cbn; try apply Ha2; auto; apply (arith_repr dbg t Hb _ _ E).
Qed.
Print Assumptions C79_denominator.

(** [Rat::new(-128i8, 5)] panics: the gcd of the primitive is -1, and [-128 / -1] overflows. *)
Theorem C79_new_refuted : exists n d, fits i8 n /\ fits i8 d /\ d <> 0 /\ d <> -1 /\
  rat_new 1000 i8 n d = Panic /\ rat_new 1000 i8 n (-1) = Panic.
Proof. exists (-128), 5. unfold fits. repeat split; try reflexivity; vm_compute; discriminate. Qed.
Print Assumptions C79_new_refuted.

Example C79_example :
  setting i8 1000 /\ rat_ok i8 (mkRat 1 2) /\ rat_ok i8 (mkRat 3 4) /\
  rat_add true 1000 i8 (mkRat 1 2) (mkRat 3 4) = Ok (mkRat 5 4) /\
  rat_new 1000 i8 6 (-4) = Ok (Some (mkRat 3 (-2))) /\ rat_new 1000 i8 (-6) (-4) = Ok (Some (mkRat 3 2)) /\
  rat_div true 1000 i8 (mkRat 1 2) (mkRat 3 4) = Ok (mkRat 2 3) /\
  rat_div true 1000 i8 (mkRat 1 2) (mkRat 0 1) = Panic /\ not_min i8 10 /\ fits i8 (1 * 4 + 3 * 2).
Proof.
  unfold setting, rat_ok, not_min, fits. cbn [num denom ibits].
  repeat split; try reflexivity; try lia; try (vm_compute; discriminate).
  cbn. lia.
Qed.

(** ** C80 *)

(** Equal values always denote the same number. *)
Theorem C80_eq_sound : forall a b, rat_eq a b = true -> (rat_val a == rat_val b)%Q.
Proof.
  intros a b H. unfold rat_eq in H. apply andb_true_iff in H. rewrite !Z.eqb_eq in H. destruct H as [A B].
  unfold rat_val. rewrite A, B. reflexivity.
Qed.
Print Assumptions C80_eq_sound.

(** Positive fractions are equal when built from coprime parts, or from parts neither of which
    divides the other (the remaining shapes are left unreduced by [new]). *)
Definition reduces (n d : Z) : Prop :=
  0 < n /\ 0 < d /\ (Z.gcd n d = 1 \/ (~ (n | d) /\ ~ (d | n))).

Lemma reduced_pair fuel t n d : setting t fuel -> fits t n -> fits t d -> reduces n d ->
  exists r, rat_new fuel t n d = Ok (Some r) /\ 0 < num r /\ 0 < denom r /\ Z.gcd (num r) (denom r) = 1 /\
    (rat_val r == frac n d)%Q.
Proof.
  intros S Hn Hd (Pn & Pd & Hr). assert (H := S). destruct H as (Hb & H1 & He).
  unfold rat_new. rewrite (proj2 (Z.eqb_neq d 0)) by lia. unfold rat_reduce. rewrite (proj2 (Z.eqb_neq n 0)) by lia.
  pose proof (imin_le0 t Hb) as Hm.
  rewrite (prim_rem_ok t n d), (prim_rem_ok t d n) by (try lia; intros; lia). cbn [bind].
  set (whole := if (n =? 1) && (d =? 1) then Ok true else _).
  assert (exists w : bool, whole = Ok w /\ (w = true -> Z.gcd n d = 1)) as (w & -> & Hw).
  { unfold whole. destruct ((n =? 1) && (d =? 1)) eqn:E.
    - exists true. split; auto. intros _. apply andb_true_iff in E. rewrite !Z.eqb_eq in E. destruct E as [-> ->]. auto.
    - destruct (Z.eqb_spec (Z.rem n d) 0) as [E1|E1].
      + exists true. split; auto. intros _. apply Z.rem_divide in E1; [|lia]. tauto.
      + exists (Z.rem d n =? 0). split; auto. rewrite Z.eqb_eq. intros E2. apply Z.rem_divide in E2; [|lia]. tauto. }
  cbn [bind]. destruct w.
  - cbn [bind]. eexists. split; [reflexivity|]. cbn [num denom]. repeat split; try reflexivity; auto.
  - rewrite (C67_gcd_nonneg_partial t n d fuel) by
      (auto; try lia; pose proof (enough_sum t fuel n d Hb He Hn Hd); lia).
    cbn [bind].
    assert (0 < Z.gcd n d) as Pg.
    { pose proof (Z.gcd_nonneg n d). destruct (Z.eq_dec (Z.gcd n d) 0) as [E|]; [|lia].
      apply Z.gcd_eq_0_r in E. lia. }
    rewrite !prim_div_ok by (try lia; intros; lia). cbn [bind].
    eexists. split; [reflexivity|]. unfold rat_val. cbn [num denom].
    rewrite !Z.quot_div_nonneg by lia.
    pose proof (Z.gcd_divide_l n d) as [a Ea]. pose proof (Z.gcd_divide_r n d) as [b Eb].
    assert (n / Z.gcd n d = a) as Ga by (rewrite Ea at 1; apply Z.div_mul; lia).
    assert (d / Z.gcd n d = b) as Gb by (rewrite Eb at 1; apply Z.div_mul; lia).
    split; [rewrite Ga; nia|]. split; [rewrite Gb; nia|]. split; [apply Z.gcd_div_gcd; lia|].
    rewrite Ga, Gb. apply frac_eq; nia.
Qed.

Lemma coprime_unique a b c d : 0 < a -> 0 < b -> 0 < c -> 0 < d -> Z.gcd a b = 1 -> Z.gcd c d = 1 ->
  a * d = c * b -> a = c /\ b = d.
Proof.
  intros Pa Pb Pc Pd G1 G2 E.
  assert (a | c) by (apply (Z.gauss a b c); auto; exists d; lia).
  assert (c | a) by (apply (Z.gauss c d a); auto; exists b; lia).
  assert (a = c) as -> by (apply Z.divide_antisym_nonneg; auto; lia).
  split; auto. nia.
Qed.

Theorem C80_eq_partial : forall fuel t n1 d1 n2 d2, setting t fuel ->
  fits t n1 -> fits t d1 -> fits t n2 -> fits t d2 -> reduces n1 d1 -> reduces n2 d2 ->
  exists a b, rat_new fuel t n1 d1 = Ok (Some a) /\ rat_new fuel t n2 d2 = Ok (Some b) /\
    (rat_eq a b = true <-> (frac n1 d1 == frac n2 d2)%Q).
Proof.
  intros fuel t n1 d1 n2 d2 S F1 F2 F3 F4 R1 R2.
  destruct (reduced_pair fuel t n1 d1) as (a & Ea & A1 & A2 & A3 & A4); auto.
  destruct (reduced_pair fuel t n2 d2) as (b & Eb & B1 & B2 & B3 & B4); auto.
  exists a, b. split; auto. split; auto. rewrite <- A4, <- B4. split; [apply C80_eq_sound|].
  intros E. unfold rat_val in E. rewrite frac_eq in E by lia.
  destruct (coprime_unique (num a) (denom a) (num b) (denom b)) as [X Y]; auto.
  unfold rat_eq. rewrite X, Y, !Z.eqb_refl. auto.
Qed.
Print Assumptions C80_eq_partial.

Theorem C80_eq_refuted : exists a b, (* 1/2 and 2/4 *)
  rat_new 1000 i8 1 2 = Ok (Some a) /\ rat_new 1000 i8 2 4 = Ok (Some b) /\
  (rat_val a == rat_val b)%Q /\ rat_eq a b = false.
Proof. exists (mkRat 1 2), (mkRat 2 4). repeat split. Qed.
Print Assumptions C80_eq_refuted.

Example C80_example : reduces 4 6 /\ reduces 2 3 /\ fits i8 4 /\ fits i8 6 /\
  rat_new 1000 i8 4 6 = Ok (Some (mkRat 2 3)).
Proof.
  unfold reduces, fits. repeat split; try lia; try reflexivity; try (vm_compute; discriminate).
  - right. split; intros [k Hk]; lia.
  - left. reflexivity.
Qed.

(** ** C81 *)

Theorem C81_floor : forall dbg fuel t a, (0 < ibits t)%nat -> rat_ok t a ->
  ~ (isigned t = true /\ num a = imin t /\ denom a = -1) ->
  exists r, rat_floor dbg fuel t a = Ok r /\ denom r = 1 /\ num r = toward_zero (rat_val a).
Proof.
  intros dbg fuel t a Hb Ha Hx. destruct (floor_rat dbg fuel t Hb a Ha) as (r & E & D & V); [tauto|].
  exists r. split; auto. split; auto. unfold rat_val. rewrite frac_toward_zero by apply Ha. auto.
Qed.
Print Assumptions C81_floor.

(** [ceil] is one plus the truncation for non-negative fractions: right unless whole. *)
Theorem C81_ceil_partial : forall dbg fuel t a, (0 < ibits t)%nat -> rat_ok t a ->
  0 <= num a -> 0 < denom a -> fits t (num a + (denom a - num a mod denom a)) ->
  exists r, rat_ceil dbg fuel t a = Ok r /\ denom r = 1 /\ num r = toward_zero (rat_val a) + 1 /\
    ((forall k, ~ (rat_val a == inject_Z k)%Q) -> num r = away_from_zero (rat_val a)).
Proof.
  intros dbg fuel t a Hb (H1 & H2 & H3) Hn Hd Hf. pose proof (imin_le0 t Hb).
  unfold rat_ceil. rewrite prim_rem_ok by (auto; intros; lia). cbn [bind].
  rewrite Z.rem_mod_nonneg by lia. pose proof (Z.mod_pos_bound (num a) (denom a) Hd).
  rewrite arith_in by (unfold fits in *; lia). cbn [bind]. rewrite arith_in by auto. cbn [bind].
  pose proof (Z.div_mod (num a) (denom a)) as DM.
  replace (num a + (denom a - num a mod denom a)) with ((num a / denom a + 1) * denom a) by lia.
  rewrite prim_div_ok by (auto; intros; lia). rewrite Z.quot_mul by auto. cbn [bind].
  destruct (new_int fuel t (num a / denom a + 1)) as (r & -> & _ & D & V).
  exists r. split; auto. split; auto. rewrite V. unfold rat_val.
  rewrite frac_toward_zero, Z.quot_div_nonneg by lia. split; auto. intros Hw.
  unfold away_from_zero. destruct (Qlt_le_dec _ 0) as [L|L].
  { apply (proj1 (frac_neg_iff _ _ Hd)) in L. lia. }
  rewrite frac_ceil. destruct (Z.eq_dec (num a mod denom a) 0) as [E|E].
  - exfalso. apply (Hw (num a / denom a)). unfold rat_val. rewrite <- frac_int. apply frac_eq; lia.
  - rewrite Z.div_opp_l_nz by lia. lia.
Qed.
Print Assumptions C81_ceil_partial.

Theorem C81_round_partial : forall dbg fuel t a, (0 < ibits t)%nat -> fits t 2 -> rat_ok t a ->
  0 <= num a -> 0 < denom a ->
  exists r, rat_round dbg fuel t a = Ok r /\ denom r = 1 /\ nearest (rat_val a) (num r).
Proof.
  intros dbg fuel t a Hb H2 (H1 & Hdr & H3) Hn Hd. pose proof (imin_le0 t Hb).
  unfold rat_round. rewrite arith_in by exact H2. cbn [bind].
  rewrite prim_rem_ok by (auto; intros; lia). cbn [bind].
  rewrite prim_div_ok by (try lia; intros; lia). cbn [bind].
  rewrite prim_div_ok by (auto; intros; lia). cbn [bind].
  rewrite Z.rem_mod_nonneg, !Z.quot_div_nonneg by lia. change (1 + 1) with 2.
  pose proof (Z.mod_pos_bound (num a) (denom a) Hd). pose proof (Z.div_mod (num a) (denom a) H3) as DM.
  pose proof (Z.div_mod (denom a) 2). pose proof (Z.mod_pos_bound (denom a) 2).
  set (add := if denom a / 2 <? num a mod denom a then 1 else 0).
  assert (fits t (num a / denom a + add)) as Fa.
  { pose proof (Z.div_pos (num a) (denom a)). unfold fits in *. unfold add. destruct (Z.ltb_spec (denom a / 2) (num a mod denom a)).
    - destruct (Z.eq_dec (num a / denom a) 0) as [E0|]; [rewrite E0; lia|].
      assert (2 * (num a / denom a) <= num a) by nia. lia.
    - nia. }
  rewrite arith_in by auto. cbn [bind].
  destruct (new_int fuel t (num a / denom a + add)) as (r & -> & _ & D & V).
  exists r. split; auto. split; auto. unfold rat_val. rewrite nearest_iff, V by auto.
  unfold add. destruct (Z.ltb_spec (denom a / 2) (num a mod denom a)).
  - replace (num a - (num a / denom a + 1) * denom a) with (num a mod denom a - denom a) by lia. lia.
  - replace (num a - (num a / denom a + 0) * denom a) with (num a mod denom a) by lia. lia.
Qed.
Print Assumptions C81_round_partial.

Theorem C81_rounding_refuted : (* ceil(2/1) = 3, ceil(-3/2) = 0, round(-3/4) = 0 *)
  rat_ceil true 1000 i8 (mkRat 2 1) = Ok (mkRat 3 1) /\ away_from_zero (rat_val (mkRat 2 1)) = 2 /\
  rat_ceil true 1000 i8 (mkRat (-3) 2) = Ok (mkRat 0 1) /\ away_from_zero (rat_val (mkRat (-3) 2)) = -2 /\
  rat_round true 1000 i8 (mkRat (-3) 4) = Ok (mkRat 0 1) /\ ~ nearest (rat_val (mkRat (-3) 4)) 0.
Proof.
  repeat split; try (vm_compute; reflexivity). intros H. specialize (H (-1)). revert H. vm_compute. auto.
Qed.
Print Assumptions C81_rounding_refuted.

Example C81_example : rat_ok i8 (mkRat (-7) 2) /\ rat_floor true 1000 i8 (mkRat (-7) 2) = Ok (mkRat (-3) 1) /\
  rat_ok i8 (mkRat 11 7) /\ rat_ceil true 1000 i8 (mkRat 11 7) = Ok (mkRat 2 1) /\
  rat_round true 1000 i8 (mkRat 11 7) = Ok (mkRat 2 1).
Proof. unfold rat_ok, fits. cbn [num denom]. repeat split; try reflexivity; vm_compute; discriminate. Qed.

(** ** C82 *)

Theorem C82_sign_partial : forall a, 0 < denom a ->
  (rat_is_negative a = true <-> (rat_val a < 0)%Q) /\
  (rat_is_positive a = true <-> (0 < rat_val a)%Q) /\
  (rat_is_zero a = true <-> (rat_val a == 0)%Q).
Proof.
  intros a Hd. unfold rat_is_negative, rat_is_positive, prim_is_negative, prim_is_positive, rat_is_zero, rat_val.
  rewrite !Z.ltb_lt, frac_neg_iff, frac_pos_iff, Z.eqb_eq by auto. repeat split; auto.
  - intros ->. change 0%Q with (frac 0 1). apply frac_eq; lia.
  - intros E. change 0%Q with (frac 0 1) in E. rewrite frac_eq in E by lia. lia.
Qed.
Print Assumptions C82_sign_partial.

Theorem C82_abs_partial : forall dbg t a, rat_ok t a -> 0 < denom a -> fits t (Z.abs (num a)) ->
  gives t (Qabs (rat_val a)) (rat_abs dbg t a).
Proof.
  intros dbg t a (H1 & H2 & H3) Hd Hf. unfold rat_abs, prim_abs. rewrite arith_in by auto. cbn [bind].
  eexists. split; [reflexivity|]. split; [exact (conj Hf (conj H2 H3))|]. unfold rat_val. cbn [num denom].
  pose proof (frac_dist (num a) (denom a) 0 Hd) as D. rewrite Z.mul_0_l, Z.sub_0_r in D. rewrite <- D.
  apply Qabs_wd. change (inject_Z 0) with 0%Q. ring.
Qed.
Print Assumptions C82_abs_partial.

(** 1/(-2) is "positive" and is its own absolute value; zero is not "positive" although the
    trait defines that as [>= 0]. *)
Theorem C82_sign_refuted : exists a, rat_new 1000 i8 1 (-2) = Ok (Some a) /\ (rat_val a < 0)%Q /\
  rat_is_positive a = true /\ rat_is_negative a = false /\ rat_abs true i8 a = Ok a /\
  rat_is_positive rat_zero = false.
Proof. exists (mkRat 1 (-2)). repeat split. Qed.
Print Assumptions C82_sign_refuted.

Example C82_example : rat_ok i8 (mkRat (-3) 2) /\ rat_is_negative (mkRat (-3) 2) = true /\
  rat_abs true i8 (mkRat (-3) 2) = Ok (mkRat 3 2).
Proof. unfold rat_ok, fits. cbn [num denom]. repeat split; try reflexivity; vm_compute; discriminate. Qed.

(** ** C83 *)

Theorem C83_neg_involution_partial : forall p, p <> [] ->
  exists q, posit_neg p = Ok q /\ length q = length p /\ posit_neg q = Ok p.
Proof.
  intros [|b bs] H; [congruence|]. eexists. split; [reflexivity|]. split; [reflexivity|]. cbn.
  rewrite Z.lxor_assoc, Z.lxor_nilpotent, Z.lxor_0_r. auto.
Qed.
Print Assumptions C83_neg_involution_partial.

(** Negation always flips [is_negative], so no value, zero and NaR included, is its own
    negation. *)
Theorem C83_neg_flips_partial : forall p, p <> [] ->
  exists q b, posit_neg p = Ok q /\ posit_is_negative p = Ok b /\ posit_is_negative q = Ok (negb b) /\ q <> p.
Proof.
  intros [|b bs] H; [congruence|].
  assert (Z.land (Z.lxor b 1) 1 = 1 - Z.land b 1) as E.
  { change 1 with (Z.ones 1) at 2 4. rewrite !Z.land_ones by lia. change (2 ^ 1) with 2.
    rewrite <- !Z.bit0_mod, Z.lxor_spec. cbn [Z.testbit]. destruct (Z.odd b); reflexivity. }
  eexists _, _. split; [reflexivity|]. split; [reflexivity|]. split.
  - cbn. rewrite E. f_equal. change 1 with (Z.ones 1). rewrite Z.land_ones by lia.
    change (2 ^ 1) with 2. pose proof (Z.mod_pos_bound b 2). change (Z.ones 1) with 1.
    destruct (Z.eqb_spec (b mod 2) 0) as [->|]; [reflexivity|].
    rewrite (proj2 (Z.eqb_eq _ _)) by lia. auto.
  - intros X. inversion X as [Y]. rewrite Y in E. lia.
Qed.
Print Assumptions C83_neg_flips_partial.

(** There is exactly one NaR of each size, the negation of [P::new()]. *)
Theorem C83_one_nar_partial : forall p, p <> [] ->
  exists b, posit_is_nar p = Ok b /\ (b = true <-> p = 1 :: repeat 0 (length p - 1)) /\
  (b = true <-> posit_neg p = Ok (posit_new (length p))).
Proof.
  intros [|x bs] H; [congruence|]. eexists. split; [reflexivity|].
  assert (forallb (fun b => b =? 0) bs = true <-> bs = repeat 0 (length bs)) as Z.
  { clear. induction bs as [|c bs IH]; cbn; [tauto|]. rewrite andb_true_iff, Z.eqb_eq, IH. split; [intros [-> E]; f_equal; exact E|].
    intros E. injection E as -> E. auto. }
  rewrite andb_true_iff, Z.eqb_eq, Z. cbn [length posit_neg]. replace (S (length bs) - 1)%nat with (length bs) by lia.
  unfold posit_new. cbn [repeat]. split; split.
  - intros [-> E]. f_equal. exact E.
  - intros E. injection E as -> E. auto.
  - intros [-> E]. do 2 f_equal. exact E.
  - intros E. injection E as E1 E2. split; auto.
    assert (Z.lxor (Z.lxor x 1) 1 = x) as X by (rewrite Z.lxor_assoc, Z.lxor_nilpotent, Z.lxor_0_r; auto).
    rewrite E1 in X. rewrite <- X. reflexivity.
Qed.
Print Assumptions C83_one_nar_partial.

(** [is_negative] is the lowest bit of the first byte; [P::new()] is not negative and not NaR. *)
Theorem C83_sign_partial : forall b bs n, 0 <= b ->
  posit_is_negative (b :: bs) = Ok (Z.odd b) /\
  posit_is_negative (posit_new (S n)) = Ok false /\ posit_is_nar (posit_new (S n)) = Ok false.
Proof.
  intros b bs n Hb. split; [|split; reflexivity]. cbn. f_equal. change 1 with (Z.ones 1) at 1. rewrite Z.land_ones by lia.
  change (2 ^ 1) with 2. rewrite Zmod_odd. destruct (Z.odd b); reflexivity.
Qed.
Print Assumptions C83_sign_partial.

(** Zero and NaR are exchanged. *)
Theorem C83_neg_refuted : exists q, posit_neg (posit_new 2) = Ok q /\ q <> posit_new 2 /\
  posit_is_nar q = Ok true /\ posit_neg q = Ok (posit_new 2).
Proof. exists [1; 0]. repeat split. discriminate. Qed.
Print Assumptions C83_neg_refuted.

Example C83_example : posit_neg [0x40; 0x13] = Ok [0x41; 0x13] /\ posit_is_negative [0x41; 0x13] = Ok true.
Proof. split; reflexivity. Qed.

(** ** C103 *)

Theorem C103_float_bytes : forall le b,
  f_to_le_bytes (f_from_le_bytes b) = b /\ f_to_be_bytes (f_from_be_bytes b) = b /\
  f_to_ne_bytes le (f_from_ne_bytes le b) = b /\
  f_to_be_bytes (f_from_le_bytes b) = rev b /\ f_to_le_bytes (f_from_be_bytes b) = rev b.
Proof.
  intros le b. unfold f_to_ne_bytes, f_from_ne_bytes, f_to_le_bytes, f_from_le_bytes, f_to_be_bytes, f_from_be_bytes.
  rewrite rev_involutive. destruct le; repeat split; auto. apply rev_involutive.
Qed.
Print Assumptions C103_float_bytes.

(** The bits of a float are the number whose big-endian base 256 digits are its big-endian
    bytes, and they determine it. *)
Theorem C103_bits : forall b, wf 8 b ->
  Spec.val 8 (f_to_bits (f_from_le_bytes b)) = Spec.val 8 b /\
  Spec.val 8 (f_to_bits (f_from_be_bytes b)) = digits_val 256 b /\
  f_from_bits (f_to_bits b) = b /\ f_to_bits (f_from_bits b) = b /\
  forall c, wf 8 c -> length c = length b -> Spec.val 8 (f_to_bits b) = Spec.val 8 (f_to_bits c) -> b = c.
Proof.
  intros b Hb. split; [reflexivity|]. split; [|split; [reflexivity|split; [reflexivity|]]].
  - unfold f_to_bits, UModel.u_from_le_bytes, f_to_le_bytes, f_from_be_bytes. clear Hb.
    assert (forall l acc, fold_left (fun a d => a * 256 + d) l acc = acc * 256 ^ Z.of_nat (length l) + Spec.val 8 (rev l)) as K.
    { induction l as [|x l IH]; intros acc; [cbn; lia|]. cbn [fold_left rev length]. rewrite IH.
      rewrite val_app, val_cons, val_nil, rev_length, Nat2Z.inj_succ, Z.pow_succ_r by lia.
      unfold cap. rewrite Z.pow_mul_r by lia. change (2 ^ Z.of_nat 8) with 256. ring. }
    unfold digits_val. rewrite K. lia.
  - intros c Hc L E. symmetry in L. revert Hb Hc E. unfold f_to_bits, UModel.u_from_le_bytes, f_to_le_bytes. intros Hb Hc E. apply (val_inj 8); auto.
Qed.
Print Assumptions C103_bits.

Example C103_example : f_to_le_bytes (f_from_be_bytes [1; 2; 3; 4]) = [4; 3; 2; 1].
Proof. reflexivity. Qed.

(** ** C104 *)

(** Characters pushed for the digits [ds] (least significant first), from position [idx]. *)
Fixpoint emit (N idx : nat) (ds : list Z) : list Z :=
  match ds with
  | [] => []
  | d :: ds' => (if Nat.eqb idx N then [46] else []) ++ [48 + d] ++ emit N (S idx) ds'
  end.

Lemma digits_snoc l d : digits_val 10 (l ++ [d]) = digits_val 10 l * 10 + d.
Proof. unfold digits_val. rewrite fold_left_app. auto. Qed.

Lemma debug_loop_spec t N : forall fuel W idx buf, 0 <= W < Z.of_nat fuel ->
  exists ds, fx_debug_loop t N fuel W idx buf = Ok ((idx + length ds)%nat, buf ++ emit N idx ds) /\
    Forall (fun d => 0 <= d < 10) ds /\ digits_val 10 (rev ds) = W.
Proof.
  induction fuel as [|fuel IH]; intros W idx buf H; [lia|]. cbn [fx_debug_loop].
  destruct (Z.ltb_spec 0 W) as [P|P].
  - rewrite prim_rem_ok, prim_div_ok by (intros; lia). cbn [bind].
    rewrite Z.rem_mod_nonneg, Z.quot_div_nonneg by lia.
    pose proof (Z.div_lt W 10 P ltac:(lia)). pose proof (Z.div_pos W 10). pose proof (Z.mod_pos_bound W 10).
    destruct (IH (W / 10) (S idx) ((if Nat.eqb idx N then buf ++ [46] else buf) ++ [48 + W mod 10]))
      as (ds & E & F & V); [lia|].
    exists (W mod 10 :: ds). rewrite E. split; [|split].
    + f_equal. f_equal; [cbn [length]; lia|]. cbn [emit]. destruct (Nat.eqb idx N); rewrite <- !app_assoc; auto.
    + constructor; auto. lia.
    + cbn [rev]. rewrite digits_snoc, V. pose proof (Z.div_mod W 10). lia.
  - exists []. cbn [length emit rev]. rewrite app_nil_r, Nat.add_0_r. repeat split; auto. cbn. lia.
Qed.

Lemma emit_past N : forall ds idx, (N < idx)%nat -> emit N idx ds = map (Z.add 48) ds.
Proof.
  induction ds as [|d ds IH]; intros idx H; cbn [emit map]; auto.
  rewrite (proj2 (Nat.eqb_neq _ _)) by lia. cbn. f_equal. apply IH. lia.
Qed.

Lemma emit_at N : forall ds idx, (idx <= N)%nat ->
  emit N idx ds = map (Z.add 48) (firstn (N - idx) ds) ++
    (if Nat.ltb (N - idx) (length ds) then [46] else []) ++ map (Z.add 48) (skipn (N - idx) ds).
Proof.
  induction ds as [|d ds IH]; intros idx H.
  - cbn [emit length]. rewrite firstn_nil, skipn_nil. destruct (Nat.ltb_spec (N - idx) 0); [lia|]. auto.
  - cbn [emit]. destruct (Nat.eqb_spec idx N) as [->|Hne].
    + rewrite Nat.sub_diag. cbn. rewrite emit_past by lia. auto.
    + rewrite IH by lia. replace (N - idx)%nat with (S (N - S idx)) by lia. cbn [firstn skipn map length app].
      f_equal.
Qed.

Lemma digits_bound l : Forall (fun d => 0 <= d < 10) l -> 0 <= digits_val 10 l < 10 ^ Z.of_nat (length l).
Proof.
  induction l as [|d l IH] using rev_ind; intros F; [cbn; lia|].
  apply Forall_app in F. destruct F as [F1 F2]. apply Forall_inv in F2. specialize (IH F1).
  rewrite digits_snoc, app_length. cbn [length]. rewrite Nat2Z.inj_add, Z.pow_add_r by lia.
  change (10 ^ Z.of_nat 1) with 10. lia.
Qed.

Lemma digit_chars l : Forall (fun d => 0 <= d < 10) l -> map (Z.add 48) l = map digit_char l.
Proof.
  intros F. apply map_ext_Forall. eapply Forall_impl; [|exact F]. intros d H. cbn beta in H.
  unfold digit_char. rewrite (proj2 (Z.ltb_lt _ _)) by lia. auto.
Qed.

(** The printed text, when [raw * 10^N] is representable, is exact unless the value is so small
    that its first decimals are zero. *)
Theorem C104_debug_partial : forall dbg t N x fuel, (0 < ibits t)%nat -> Z.of_nat N < 2 ^ 32 ->
  fits t 10 -> fits t (10 ^ Z.of_nat N) -> 0 <= x -> fits t (x * 10 ^ Z.of_nat N) ->
  x * 10 ^ Z.of_nat N < Z.of_nat fuel ->
  (1 # 10 <= fixed_val N x)%Q ->
  exists s, fx_debug dbg t N fuel x = Ok s /\ is_decimal N (fixed_val N x) s.
Proof.
  intros dbg t N x fuel Hb HN H10 HP Hx Hf Hfuel Hbig.
  pose proof (imin_le0 t Hb) as Hm. pose proof (two_pow_pos N) as P2.
  assert (10 ^ Z.of_nat N = 5 ^ Z.of_nat N * 2 ^ Z.of_nat N) as E10 by (rewrite <- Z.pow_mul_l; auto).
  assert (0 < 5 ^ Z.of_nat N) as P5 by (apply Z.pow_pos_nonneg; lia).
  assert (Z.of_nat N < 10 ^ Z.of_nat N) as NP by (apply Z.pow_gt_lin_r; lia).
  assert (2 ^ Z.of_nat N <= 10 ^ Z.of_nat N) as LP by nia.
  unfold fits in *. unfold fx_debug, truncate_from.
  rewrite !(wrap_id t) by (auto; lia). unfold prim_pow. rewrite as_u32_small by lia.
  rewrite !arith_in by lia. cbn [bind]. rewrite arith_in by lia. cbn [bind]. rewrite prim_div_ok by (try lia; intros; lia).
  cbn [bind]. rewrite E10. replace (x * (5 ^ Z.of_nat N * 2 ^ Z.of_nat N)) with (x * 5 ^ Z.of_nat N * 2 ^ Z.of_nat N) by ring.
  rewrite Z.quot_mul by lia.
  destruct (debug_loop_spec t N fuel (x * 5 ^ Z.of_nat N) 0 []) as (ds & E & F & V); [nia|].
  rewrite E. cbn [bind Nat.add app]. clear E. rewrite emit_at by lia. rewrite Nat.sub_0_r.
  assert (N <= length ds)%nat as HL.
  { destruct (Nat.le_gt_cases N (length ds)); auto. exfalso.
    assert (Forall (fun d => 0 <= d < 10) (rev ds)) as Fr by (apply Forall_rev; auto).
    apply digits_bound in Fr. rewrite V, rev_length in Fr.
    assert (10 ^ Z.of_nat (length ds) * 10 <= 10 ^ Z.of_nat N).
    { replace (Z.of_nat N) with (Z.of_nat (length ds) + Z.of_nat (N - length ds)) by lia.
      rewrite Z.pow_add_r by lia. apply Z.mul_le_mono_nonneg_l; [lia|]. change 10 with (10 ^ 1) at 1. apply Z.pow_le_mono_r; lia. }
    assert (1 # 10 == frac 1 10)%Q as Eq by reflexivity. rewrite Eq, fixed_frac, frac_le in Hbig by lia.
    nia. }
  eexists. split; [reflexivity|].
  exists (rev (skipn N ds)), (rev (firstn N ds)).
  rewrite <- rev_app_distr, firstn_skipn. split; [|split; [|split]].
  - rewrite !map_rev. assert (F' := F). rewrite <- (firstn_skipn N ds) in F'. apply Forall_app in F'.
    rewrite <- !digit_chars by apply F'.
    destruct (Nat.ltb_spec N (length ds)), (Nat.eqb_spec (length ds) N); try lia.
    + rewrite !rev_app_distr. cbn [rev app]. rewrite <- app_assoc. auto.
    + rewrite skipn_all2 by lia. cbn [map app rev]. rewrite !rev_app_distr. cbn [rev app]. auto.
  - rewrite rev_length, firstn_length. lia.
  - apply Forall_rev. auto.
  - rewrite V, fixed_frac. apply frac_eq; nia.
Qed.
Print Assumptions C104_debug_partial.

(** 1/16 prints as "625", zero and negative values as "". *)
Theorem C104_debug_refuted :
  fx_debug true i32 4 1000 1 = Ok [54; 50; 53] /\ (fixed_val 4 1 == 625 # 10000)%Q /\
  fx_debug true i32 4 1000 0 = Ok [] /\ fx_debug true i32 4 1000 (-24) = Ok [].
Proof. repeat split. Qed.
Print Assumptions C104_debug_refuted.

Example C104_example : fits i32 (10 ^ Z.of_nat 2) /\ fits i32 (13 * 10 ^ Z.of_nat 2) /\ (1 # 10 <= fixed_val 2 13)%Q /\
  fx_debug true i32 2 2000 13 = Ok [51; 46; 50; 53]. (* "3.25" *)
Proof. unfold fits. repeat split; try reflexivity; vm_compute; discriminate. Qed.
