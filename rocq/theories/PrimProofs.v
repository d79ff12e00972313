(** Proofs about the primitive-integer model. *)
From Coq Require Import ZArith List Bool Lia Znumtheory.
From Verif Require Import Base Words Spec Arith BitSliceModel BitSliceProofs PrimModel.
Import ListNotations.
Local Open Scope Z_scope.

Lemma two_pow_pos n : 0 < 2 ^ Z.of_nat n.
Proof. apply Z.pow_pos_nonneg; lia. Qed.

Lemma pow_half n : (0 < n)%nat -> 2 ^ Z.of_nat n = 2 * 2 ^ (Z.of_nat n - 1) /\ 0 < 2 ^ (Z.of_nat n - 1).
Proof.
  intros H. split.
  - rewrite <- Z.pow_succ_r by lia. f_equal. lia.
  - apply Z.pow_pos_nonneg; lia.
Qed.

(** The range of a type has exactly [2^bits] values. *)
Lemma range_size t : (0 < ibits t)%nat -> imax t = imin t + 2 ^ Z.of_nat (ibits t) - 1.
Proof.
  intros H. destruct (pow_half _ H) as [E _]. unfold imax, imin. destruct (isigned t); lia.
Qed.

Lemma imin_le0 t : (0 < ibits t)%nat -> imin t <= 0 <= imax t.
Proof.
  intros H. destruct (pow_half _ H) as [E P]. unfold imax, imin. destruct (isigned t); lia.
Qed.

Lemma in_range_iff t v : in_range t v = true <-> imin t <= v <= imax t.
Proof. unfold in_range. rewrite andb_true_iff, !Z.leb_le. tauto. Qed.

Lemma in_range_false t v : in_range t v = false <-> v < imin t \/ imax t < v.
Proof. unfold in_range. rewrite andb_false_iff, !Z.leb_gt. tauto. Qed.

Lemma wrap_range t v : (0 < ibits t)%nat -> imin t <= wrap t v <= imax t.
Proof.
  intros H. destruct (pow_half _ H) as [E P].
  pose proof (Z.mod_pos_bound v (2 ^ Z.of_nat (ibits t)) (two_pow_pos _)).
  unfold wrap, imin, imax. destruct (isigned t); cbn [andb].
  - destruct (Z.leb_spec (2 ^ (Z.of_nat (ibits t) - 1)) (v mod 2 ^ Z.of_nat (ibits t))); lia.
  - lia.
Qed.

Lemma wrap_mod t v : (0 < ibits t)%nat ->
  wrap t v mod 2 ^ Z.of_nat (ibits t) = v mod 2 ^ Z.of_nat (ibits t).
Proof.
  intros H. pose proof (two_pow_pos (ibits t)). unfold wrap.
  destruct (isigned t && _).
  - rewrite Zminus_mod, Z_mod_same_full, Z.sub_0_r, !Zmod_mod. auto.
  - apply Zmod_mod.
Qed.

Lemma wrap_unique t v x : (0 < ibits t)%nat -> imin t <= x <= imax t ->
  x mod 2 ^ Z.of_nat (ibits t) = v mod 2 ^ Z.of_nat (ibits t) -> wrap t v = x.
Proof.
  intros H Hx E. pose proof (wrap_range t v H) as Hr. pose proof (wrap_mod t v H) as Hm.
  pose proof (range_size t H). pose proof (two_pow_pos (ibits t)).
  set (B := 2 ^ Z.of_nat (ibits t)) in *.
  assert ((wrap t v - x) mod B = 0) as D.
  { rewrite Zminus_mod, Hm, E, Z.sub_diag. apply Z.mod_0_l. lia. }
  apply Z.mod_divide in D; [|lia]. destruct D as [k D].
  assert (k = 0) by (destruct (Z_lt_le_dec k 0); [nia|destruct (Z_lt_le_dec 0 k); [nia|lia]]). lia.
Qed.

Lemma wrap_id t v : (0 < ibits t)%nat -> imin t <= v <= imax t -> wrap t v = v.
Proof. intros. apply wrap_unique; auto. Qed.

Lemma arith_in dbg t v : imin t <= v <= imax t -> arith dbg t v = Ok v.
Proof. intros H. apply in_range_iff in H. unfold arith. rewrite H. auto. Qed.

Lemma arith_out dbg t v : v < imin t \/ imax t < v ->
  arith dbg t v = if dbg then Panic else Ok (wrap t v).
Proof. intros H. apply in_range_false in H. unfold arith. rewrite H. auto. Qed.

(** ** gcd *)

Lemma rem_abs_lt a b : b <> 0 -> Z.abs (Z.rem a b) < Z.abs b.
Proof. intros. apply Z.rem_bound_abs. auto. Qed.

Lemma gcd_rem a b : Z.gcd (Z.rem a b) b = Z.gcd a b.
Proof.
  rewrite (Z.gcd_comm _ b), (Z.gcd_comm a b). pose proof (Z.quot_rem' a b).
  replace (Z.rem a b) with (a + (- Z.quot a b) * b) by lia.
  apply Z.gcd_add_mult_diag_r.
Qed.

Lemma rem_range t a b : (0 < ibits t)%nat -> imin t <= a <= imax t -> imin t <= b <= imax t ->
  b <> 0 -> imin t <= Z.rem a b <= imax t.
Proof.
  intros Hb Ha Hbr H0. pose proof (imin_le0 t Hb). pose proof (rem_abs_lt a b H0).
  destruct (Z_le_gt_dec 0 a).
  - pose proof (Z.rem_bound_pos a (Z.abs b)). rewrite Z.rem_abs_r in * by auto.
    pose proof (Z.rem_le a (Z.abs b)). rewrite Z.rem_abs_r in * by auto. lia.
  - pose proof (Z.rem_bound_pos (- a) (Z.abs b)). pose proof (Z.rem_le (- a) (Z.abs b)).
    rewrite Z.rem_abs_r, Z.rem_opp_l in * by auto. lia.
Qed.

Lemma gcd_loop_ok : forall fuel t min max,
  (0 < ibits t)%nat -> Z.abs min < Z.of_nat fuel ->
  (isigned t = true -> ~ (max = imin t /\ min = -1)) ->
  (isigned t = true -> ~ (min = imin t /\ max = -1)) ->
  imin t <= min <= imax t -> imin t <= max <= imax t ->
  exists g, gcd_loop fuel t min max = Ok g /\ Z.abs g = Z.gcd max min /\ imin t <= g <= imax t.
Proof.
  induction fuel as [|fuel IH]; intros t min max Hb Hf H1 H2 Hmin Hmax; [lia|].
  cbn [gcd_loop]. destruct (Z.eqb_spec min 0) as [E|E].
  - subst. exists max. rewrite Z.gcd_0_r. auto.
  - unfold prim_rem. rewrite (proj2 (Z.eqb_neq _ _)) by auto.
    assert (isigned t && (max =? imin t) && (min =? -1) = false) as ->.
    { destruct (isigned t) eqn:Hs; auto. cbn [andb]. apply andb_false_iff.
      destruct (Z.eqb_spec max (imin t)); auto. right. apply Z.eqb_neq. intros ->. apply H1; auto. }
    cbn [bind]. pose proof (rem_abs_lt max min E) as Hlt.
    pose proof (rem_range t max min Hb Hmax Hmin E) as Hr.
    destruct (IH t (Z.rem max min) min) as (g & Eg & Ag & Pg); auto; try lia.
    + intros Hs [A B]. apply (H2 Hs). split; auto. subst min.
      assert (imax t = - imin t - 1) as Hx by (unfold imin, imax; rewrite Hs; lia).
      destruct (Z.eq_dec max (imin t)) as [->|Hne].
      { rewrite Z.rem_same in B by auto. lia. }
      rewrite <- B. symmetry. apply Z.rem_small_iff; auto. lia.
    + exists g. split; auto. split; auto. rewrite Ag, Z.gcd_comm. apply gcd_rem.
Qed.

Lemma gcd_loop_panic_min fuel t : (1 < ibits t)%nat -> isigned t = true -> (2 <= fuel)%nat ->
  gcd_loop fuel t (imin t) (-1) = Panic.
Proof.
  intros Hb Hs Hf. destruct fuel as [|[|fuel]]; try lia.
  assert (imin t <= -2) as Hm.
  { unfold imin. rewrite Hs. assert (2 ^ 1 <= 2 ^ (Z.of_nat (ibits t) - 1)).
    { apply Z.pow_le_mono_r; lia. } lia. }
  cbn [gcd_loop]. rewrite (proj2 (Z.eqb_neq (imin t) 0)) by lia.
  unfold prim_rem at 1. rewrite (proj2 (Z.eqb_neq (imin t) 0)), (proj2 (Z.eqb_neq (-1) (imin t))) by lia.
  rewrite andb_false_r. cbn [andb bind]. rewrite (proj2 (Z.rem_small_iff (-1) (imin t) ltac:(lia))) by lia.
  cbn [gcd_loop]. change (-1 =? 0) with false. cbv iota.
  unfold prim_rem. change (-1 =? 0) with false. rewrite Hs, !Z.eqb_refl. reflexivity.
Qed.

(** ** saturating conversions *)

Definition clamp (t : ity) (v : Z) : Z := Z.max (imin t) (Z.min v (imax t)).

(** The side condition under which an arm of the macros clamps correctly. *)
Definition arm_ok (into from : ity) (arm : sat_arm) : bool :=
  let lo_ok := imin into <=? imin from in
  let hi_ok := imax from <=? imax into in
  let max_cast := in_range from (imax into) in
  let min_cast := in_range from (imin into) in
  match arm with
  | ULess => lo_ok && hi_ok
  | UGreater => lo_ok && max_cast
  | SLess => if isigned into then lo_ok && hi_ok else hi_ok
  | SGreater => if isigned into then max_cast && min_cast else max_cast
  end.

Lemma sat_body_ok into from arm v : (0 < ibits into)%nat -> (0 < ibits from)%nat ->
  arm_ok into from arm = true -> imin from <= v <= imax from ->
  sat_body into from arm v = clamp into v.
Proof.
  intros Hi Hf Ho Hv. pose proof (imin_le0 into Hi) as Hz.
  assert (isigned into = false -> imin into = 0) as Hu.
  { intros Hs. unfold imin. rewrite Hs. auto. }
  unfold sat_body, arm_ok, clamp in *.
  destruct (isigned into) eqn:Hs, arm; rewrite ?andb_true_iff, ?Z.leb_le, ?in_range_iff in Ho;
    try specialize (Hu eq_refl);
    rewrite ?(wrap_id from) by (auto; lia);
    repeat match goal with |- context [?a <? ?b] => destruct (Z.ltb_spec a b) end;
    try lia; rewrite (wrap_id into) by lia; lia.
Qed.

(** ** wrapping and shifting *)

Lemma wrap_mod_eq t a b : (0 < ibits t)%nat ->
  a mod 2 ^ Z.of_nat (ibits t) = b mod 2 ^ Z.of_nat (ibits t) -> wrap t a = wrap t b.
Proof. intros H E. apply wrap_unique; auto using wrap_range. rewrite wrap_mod; auto. Qed.

Lemma wrap_wrap_mul t a b : (0 < ibits t)%nat -> wrap t (wrap t a * b) = wrap t (a * b).
Proof.
  intros H. apply wrap_mod_eq; auto. rewrite Zmult_mod, wrap_mod, <- Zmult_mod by auto. auto.
Qed.

Lemma shiftr_range t v s : (0 < ibits t)%nat -> imin t <= v <= imax t -> 0 <= s ->
  imin t <= Z.shiftr v s <= imax t.
Proof.
  intros Hb Hv Hs. pose proof (imin_le0 t Hb). rewrite Z.shiftr_div_pow2 by auto.
  assert (0 < 2 ^ s) by (apply Z.pow_pos_nonneg; lia).
  destruct (Z_le_gt_dec 0 v).
  - assert (0 <= v / 2 ^ s) by (apply Z.div_pos; lia).
    assert (v / 2 ^ s <= v) by (apply Z.div_le_upper_bound; nia). lia.
  - assert (v / 2 ^ s <= 0) by (apply Z.div_le_upper_bound; lia).
    assert (v <= v / 2 ^ s) by (apply Z.div_le_lower_bound; nia). lia.
Qed.

Lemma as_u32_small s : 0 <= s < 2 ^ 32 -> as_u32 s = s.
Proof. intros. apply Z.mod_small. auto. Qed.

Lemma as_u32_neg s : - 2 ^ 31 <= s < 0 -> 2 ^ 31 <= as_u32 s.
Proof.
  intros. unfold as_u32. replace (s mod 2 ^ 32) with (s + 2 ^ 32); [lia|].
  symmetry. rewrite <- (Z_mod_plus_full s 1). apply Z.mod_small. lia.
Qed.

Lemma as_u32_range s : 0 <= as_u32 s < 2 ^ 32.
Proof. apply Z.mod_pos_bound. lia. Qed.

(** ** factorial *)

Lemma foldR_snoc {S I} (f : S -> I -> res S) l i s :
  foldR f (l ++ [i]) s = do s' <- foldR f l s ;; f s' i.
Proof.
  revert s. induction l as [|j l IH]; intros s.
  - cbn. destruct (f s i); reflexivity.
  - cbn [app foldR]. destruct (f s j); cbn [bind]; auto.
Qed.

Lemma fact_pos n : 1 <= Z.of_nat (fact n).
Proof. pose proof (lt_O_fact n). lia. Qed.

Lemma prim_factorial_spec dbg t n : (0 < ibits t)%nat -> 1 <= imax t ->
  prim_factorial dbg t n = arith dbg t (Z.of_nat (fact n)).
Proof.
  intros Hb H1. pose proof (imin_le0 t Hb) as Hz. unfold prim_factorial.
  induction n as [|n IH].
  - cbn. rewrite arith_in by lia. auto.
  - rewrite seq_S, foldR_snoc, IH. cbn [Nat.add].
    assert (Z.of_nat (fact (S n)) = Z.of_nat (fact n) * Z.of_nat (S n)) as E.
    { change (fact (S n)) with (S n * fact n)%nat. lia. }
    rewrite E. pose proof (fact_pos n) as Hp.
    assert (Z.of_nat (fact n) <= Z.of_nat (fact n) * Z.of_nat (S n)) by nia.
    destruct (Z_le_gt_dec (Z.of_nat (fact n)) (imax t)).
    + rewrite (arith_in dbg t (Z.of_nat (fact n))) by lia. reflexivity.
    + rewrite !arith_out by lia. destruct dbg; auto. cbn [bind].
      unfold arith. rewrite wrap_wrap_mul by auto.
      destruct (in_range t (wrap t (Z.of_nat (fact n)) * Z.of_nat (S n))) eqn:Er; auto.
      f_equal. apply in_range_iff in Er. rewrite <- wrap_wrap_mul by auto.
      symmetry. apply wrap_id; auto.
Qed.

(** ** zero counts *)

Lemma ctz_spec p : 0 <= ctz_pos p /\ exists q, Zpos p = (2 * q + 1) * 2 ^ ctz_pos p /\ 0 <= q.
Proof.
  induction p as [p IH|p IH|].
  - split; [cbn; lia|]. exists (Zpos p). cbn [ctz_pos]. rewrite Z.pow_0_r. lia.
  - destruct IH as [H0 [q [E Hq]]]. cbn [ctz_pos]. split; [lia|]. exists q.
    rewrite Z.pow_add_r by lia. split; auto. change (Zpos (xO p)) with (2 * Zpos p). rewrite E. ring.
  - split; [cbn; lia|]. exists 0. cbn. lia.
Qed.

Lemma pattern_range t v : 0 <= pattern t v < 2 ^ Z.of_nat (ibits t).
Proof. apply Z.mod_pos_bound. apply two_pow_pos. Qed.

Lemma leading_zeros_spec t v : (0 < ibits t)%nat -> Z.of_nat (ibits t) <= imax t ->
  let p := v mod 2 ^ Z.of_nat (ibits t) in
  let z := prim_leading_zeros t v in
  0 <= z <= Z.of_nat (ibits t) /\ p < 2 ^ (Z.of_nat (ibits t) - z) /\
  (z < Z.of_nat (ibits t) -> 2 ^ (Z.of_nat (ibits t) - z - 1) <= p).
Proof.
  intros Hb Hm p z. pose proof (pattern_range t v) as Hp. pose proof (imin_le0 t Hb).
  unfold pattern, base in Hp. fold p in Hp.
  assert (z = if p =? 0 then Z.of_nat (ibits t) else Z.of_nat (ibits t) - 1 - Z.log2 p) as Ez.
  { unfold z, prim_leading_zeros, pattern, base. fold p. apply wrap_id; auto.
    destruct (Z.eqb_spec p 0); [lia|]. pose proof (Z.log2_nonneg p).
    assert (Z.log2 p < Z.of_nat (ibits t)) by (apply Z.log2_lt_pow2; lia). lia. }
  rewrite Ez. destruct (Z.eqb_spec p 0) as [E|E].
  - rewrite E, Z.sub_diag. lia.
  - pose proof (Z.log2_nonneg p).
    assert (Z.log2 p < Z.of_nat (ibits t)) by (apply Z.log2_lt_pow2; lia).
    pose proof (Z.log2_spec p ltac:(lia)).
    replace (Z.of_nat (ibits t) - (Z.of_nat (ibits t) - 1 - Z.log2 p)) with (Z.succ (Z.log2 p)) by lia.
    replace (Z.succ (Z.log2 p) - 1) with (Z.log2 p) by lia. lia.
Qed.

Lemma trailing_zeros_spec t v : (0 < ibits t)%nat -> Z.of_nat (ibits t) <= imax t ->
  let p := v mod 2 ^ Z.of_nat (ibits t) in
  let z := prim_trailing_zeros t v in
  if p =? 0 then z = Z.of_nat (ibits t)
  else 0 <= z < Z.of_nat (ibits t) /\ exists q, p = (2 * q + 1) * 2 ^ z.
Proof.
  intros Hb Hm p z. pose proof (pattern_range t v) as Hp. pose proof (imin_le0 t Hb).
  unfold pattern, base in Hp. fold p in Hp.
  assert (z = wrap t (match p with Zpos q => ctz_pos q | _ => Z.of_nat (ibits t) end)) as Ez by reflexivity.
  clearbody z. destruct p as [|q|q] eqn:Ep; cbn [Z.eqb].
  - rewrite Ez. apply wrap_id; auto. lia.
  - destruct (ctz_spec q) as [H0 [k [E Hk]]].
    assert (ctz_pos q < Z.of_nat (ibits t)).
    { apply (Z.pow_lt_mono_r_iff 2); try lia.
    }
    rewrite wrap_id in Ez by (auto; lia). subst z. split; [lia|]. exists k. auto.
  - lia.
Qed.

Lemma gcd_loop_nonneg : forall fuel t min max g, gcd_loop fuel t min max = Ok g ->
  0 <= min -> 0 <= max -> 0 <= g.
Proof.
  induction fuel as [|fuel IH]; intros t min max g; cbn [gcd_loop]; [discriminate|].
  destruct (Z.eqb_spec min 0); [intros E; inversion E; subst; auto|].
  unfold prim_rem. rewrite (proj2 (Z.eqb_neq _ _)) by auto. destruct (isigned t && _ && _); [discriminate|].
  cbn [bind]. intros E Hm HM. apply (IH _ _ _ _ E); auto. apply Z.rem_nonneg; auto.
Qed.
