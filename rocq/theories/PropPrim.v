(** Properties C66-C74 and C95-C97: trait implementations on primitive integers.
    An integer type is [t : ity] (bit width [ibits t], signedness [isigned t]) with range
    [imin t .. imax t]. *)
From Coq Require Import ZArith List Bool Lia.
From Verif Require Import Base Words Spec Arith BitSliceModel BitSliceProofs PrimModel PrimProofs.
Import ListNotations.
Local Open Scope Z_scope.

(** The value is representable in the type. *)
Definition fits (t : ity) (v : Z) : Prop := imin t <= v <= imax t.

Ltac ex_tac := unfold fits; repeat split; first [reflexivity | vm_compute; first [reflexivity | discriminate | lia]].

Definition u8 := {| ibits := 8; isigned := false |}.
Definition u64 := {| ibits := 64; isigned := false |}.
Definition i8 := {| ibits := 8; isigned := true |}.
Definition i64 := {| ibits := 64; isigned := true |}.

(** ** C66 *)

(** Terminates (the fuel bound is explicit), the absolute value is the gcd; for unsigned
    types the result is the gcd itself and there is no panic. *)
Theorem C66_gcd : forall t a b fuel, (0 < ibits t)%nat -> fits t a -> fits t b ->
  Z.abs a + Z.abs b < Z.of_nat fuel ->
  (isigned t = true -> ~ ((a = imin t /\ b = -1) \/ (a = -1 /\ b = imin t))) ->
  exists g, prim_gcd fuel t a b = Ok g /\ fits t g /\ Z.abs g = Z.gcd a b /\
    (isigned t = false -> g = Z.gcd a b).
Proof.
  intros t a b fuel Hb Ha Hbb Hf Hp.
  assert (forall g, fits t g -> Z.abs g = Z.gcd a b -> isigned t = false -> g = Z.gcd a b) as Hu.
  { intros g Hg <- Hs. unfold fits, imin in Hg. rewrite Hs in Hg. lia. }
  unfold prim_gcd. destruct ((a =? 0) && (b =? 0)) eqn:E0.
  - apply andb_true_iff in E0. rewrite !Z.eqb_eq in E0. destruct E0 as [-> ->].
    exists 0. cbn. pose proof (imin_le0 t Hb). unfold fits. auto.
  - clear E0. unfold fits in *. destruct (Z.leb_spec a b).
    + destruct (gcd_loop_ok fuel t a b Hb) as (g & Eg & Ag & Rg); try lia;
        try (intros Hs; specialize (Hp Hs); lia).
      rewrite Z.gcd_comm in Ag. exists g. auto.
    + destruct (gcd_loop_ok fuel t b a Hb) as (g & Eg & Ag & Rg); try lia;
        try (intros Hs; specialize (Hp Hs); lia).
      exists g. auto.
Qed.
Print Assumptions C66_gcd.

Example C66_example : fits u8 48 /\ fits u8 18 /\ prim_gcd 100 u8 48 18 = Ok 6 /\
  fits i8 (-48) /\ prim_gcd 100 i8 (-48) 18 = Ok 6.
Proof. ex_tac. Qed.

(** ** C67 *)

(** The signed impls panic exactly on the pair {MIN, -1} (in every build). *)
Theorem C67_gcd_signed_partial : forall t a b fuel, (1 < ibits t)%nat -> isigned t = true ->
  fits t a -> fits t b -> Z.abs a + Z.abs b < Z.of_nat fuel ->
  (prim_gcd fuel t a b = Panic <-> (a = imin t /\ b = -1) \/ (a = -1 /\ b = imin t)).
Proof.
  intros t a b fuel Hb Hs Ha Hbb Hf.
  assert (imin t <= -2) as Hm.
  { unfold imin. rewrite Hs. assert (2 ^ 1 <= 2 ^ (Z.of_nat (ibits t) - 1)) by (apply Z.pow_le_mono_r; lia). lia. }
  split; intros H.
  - destruct (Z.eq_dec a (imin t)), (Z.eq_dec b (-1)), (Z.eq_dec a (-1)), (Z.eq_dec b (imin t)); auto;
      exfalso; destruct (C66_gcd t a b fuel) as (g & E & _); try rewrite H in E; try discriminate; auto;
      try lia; intros _; lia.
  - unfold prim_gcd. destruct H as [[-> ->]|[-> ->]].
    + rewrite (proj2 (Z.eqb_neq (imin t) 0)) by lia. cbn [andb].
      rewrite (proj2 (Z.leb_le _ _)) by lia. apply gcd_loop_panic_min; auto. lia.
    + change (-1 =? 0) with false. cbn [andb]. rewrite (proj2 (Z.leb_gt _ _)) by lia.
      apply gcd_loop_panic_min; auto. lia.
Qed.
Print Assumptions C67_gcd_signed_partial.

(** Non-negative operands give the gcd itself. *)
Theorem C67_gcd_nonneg_partial : forall t a b fuel, (0 < ibits t)%nat -> fits t a -> fits t b ->
  0 <= a -> 0 <= b -> a + b < Z.of_nat fuel -> prim_gcd fuel t a b = Ok (Z.gcd a b).
Proof.
  intros t a b fuel Hb Ha Hbb H0 H1 Hf.
  destruct (C66_gcd t a b fuel) as (g & E & _ & Ag & _); auto; try lia.
  assert (0 <= g); [|rewrite E; f_equal; lia]. unfold prim_gcd in E.
  destruct ((a =? 0) && (b =? 0)); [inversion E; lia|].
  destruct (a <=? b); apply gcd_loop_nonneg in E; auto.
Qed.
Print Assumptions C67_gcd_nonneg_partial.

(** Two non-positive operands give minus the greatest common divisor. *)
Lemma gcd_loop_nonpos : forall fuel t min max g, gcd_loop fuel t min max = Ok g ->
  min <= 0 -> max <= 0 -> g <= 0.
Proof.
  induction fuel as [|fuel IH]; intros t min max g; cbn [gcd_loop]; [discriminate|].
  destruct (Z.eqb_spec min 0); [intros E; inversion E; subst; auto|].
  unfold prim_rem. rewrite (proj2 (Z.eqb_neq _ _)) by auto. destruct (isigned t && _ && _); [discriminate|].
  cbn [bind]. intros E Hm HM. apply (IH _ _ _ _ E); auto. apply Z.rem_nonpos; auto.
Qed.

Theorem C67_gcd_nonpos_partial : forall t a b fuel, (0 < ibits t)%nat -> fits t a -> fits t b ->
  a <= 0 -> b <= 0 -> Z.abs a + Z.abs b < Z.of_nat fuel ->
  ~ ((a = imin t /\ b = -1) \/ (a = -1 /\ b = imin t)) -> prim_gcd fuel t a b = Ok (- Z.gcd a b).
Proof.
  intros t a b fuel Hb Ha Hbb H0 H1 Hf Hx.
  destruct (C66_gcd t a b fuel) as (g & E & _ & Ag & _); auto.
  assert (g <= 0); [|rewrite E; f_equal; lia]. unfold prim_gcd in E.
  destruct ((a =? 0) && (b =? 0)); [inversion E; lia|].
  destruct (a <=? b); apply gcd_loop_nonpos in E; auto.
Qed.
Print Assumptions C67_gcd_nonpos_partial.

(** Operands of opposite signs: the parity of the number of divisions in Euclid's algorithm, started with the magnitude of the positive
    operand on the left, decides the sign. *)
Inductive euclid : Z -> Z -> nat -> Prop :=
| euclid_done x : euclid x 0 0
| euclid_step x y k : 0 < y -> euclid y (x mod y) k -> euclid x y (S k).
Lemma euclid_exists : forall n x y, 0 <= y < Z.of_nat n -> exists k, euclid x y k.
Proof.
  induction n as [|n IH]; intros x y H; [lia|]. destruct (Z.eq_dec y 0) as [->|N]; [exists O; constructor|].
  destruct (IH y (x mod y)) as [k E]; [pose proof (Z.mod_pos_bound x y ltac:(lia)); lia|]. exists (S k). constructor; auto. lia.
Qed.
Lemma gcd_loop_sign : forall x y k, euclid x y k -> forall fuel t s g, 0 <= x -> Z.abs s = 1 -> gcd_loop fuel t (- s * y) (s * x) = Ok g ->
  0 <= (if Nat.even k then s else - s) * g.
Proof.
  induction 1 as [x|x y k Hy E IH]; intros fuel t s g Hx Hs; destruct fuel as [|fuel]; cbn [gcd_loop]; try discriminate.
  - rewrite Z.mul_0_r. cbn [Z.eqb]. intros Q. injection Q as <-. cbn [Nat.even]. nia.
  - destruct (Z.eqb_spec (- s * y) 0) as [Q|_]; [nia|]. unfold prim_rem. rewrite (proj2 (Z.eqb_neq (- s * y) 0)) by nia.
    destruct (isigned t && _ && _); cbn [bind]; [discriminate|]. intros Q.
    assert (Z.rem (s * x) (- s * y) = s * (x mod y)) as R.
    { assert (s = 1 \/ s = -1) as [-> | ->] by lia.
      - rewrite Z.mul_1_l. replace (- (1) * y) with (- y) by lia. rewrite Z.rem_opp_r, Z.rem_mod_nonneg by lia. lia.
      - replace (-1 * x) with (- x) by lia. replace (- -1 * y) with y by lia. rewrite Z.rem_opp_l, Z.rem_mod_nonneg by lia. lia. }
    rewrite R in Q. replace (s * (x mod y)) with (- - s * (x mod y)) in Q by lia.
    specialize (IH fuel t (- s) g ltac:(lia) ltac:(lia) Q). rewrite Nat.even_succ, <- Nat.negb_even. destruct (Nat.even k); cbn [negb] in *; nia.
Qed.

Theorem C67_gcd_mixed_partial : forall t a b k fuel, (0 < ibits t)%nat -> fits t a -> fits t b -> a < 0 < b ->
  Z.abs a + Z.abs b < Z.of_nat fuel -> euclid b (- a) k ->
  let g := if Nat.even k then Z.gcd a b else - Z.gcd a b in
  prim_gcd fuel t a b = Ok g /\ prim_gcd fuel t b a = Ok g.
Proof.
  intros t a b k fuel Hb Ha Hbb Hs Hf E g.
  assert (prim_gcd fuel t a b = Ok g) as G.
  { pose proof (imin_le0 t Hb). destruct (C66_gcd t a b fuel) as (g' & E' & _ & Ag & _); auto; [intros _; lia|]. rewrite E'. f_equal. unfold g.
    unfold prim_gcd in E'. rewrite (proj2 (Z.eqb_neq a 0)), (proj2 (Z.leb_le a b)) in E' by lia. cbn [andb] in E'.
    pose proof (gcd_loop_sign b (- a) k E fuel t 1 g' ltac:(lia) eq_refl) as S.
    replace (- (1) * - a) with a in S by lia. rewrite Z.mul_1_l in S. specialize (S E'). destruct (Nat.even k); lia. }
  split; auto. unfold prim_gcd in *. rewrite (proj2 (Z.eqb_neq a 0)), (proj2 (Z.eqb_neq b 0)) in * by lia. cbn [andb] in *.
  rewrite (proj2 (Z.leb_le a b)) in G by lia. rewrite (proj2 (Z.leb_gt b a)) by lia. auto.
Qed.
Print Assumptions C67_gcd_mixed_partial.
Example C67_mixed_demo : euclid 18 48 4 /\ prim_gcd 100 i8 (-48) 18 = Ok 6 /\ euclid 48 18 3 /\ prim_gcd 100 i8 48 (-18) = Ok (-6).
Proof.
  assert (euclid 48 18 3) as E. { repeat (apply euclid_step; [lia|]; cbn). apply euclid_done. }
  repeat split; auto. apply euclid_step; [lia|]. exact E.
Qed.

Example C67_demo : prim_gcd 1000 i8 (-128) 127 = Ok (-1) /\ prim_gcd 1000 i8 84 36 = Ok 12 /\ prim_gcd 1000 i8 (-84) (-36) = Ok (-12) /\ Z.abs (-128) + Z.abs 127 < 1000.
Proof. repeat split; vm_compute; reflexivity. Qed.
Theorem C67_gcd_signed_refuted :
  prim_gcd 1000 i8 (-128) (-1) = Panic /\ prim_gcd 1000 i8 (-6) (-4) = Ok (-2).
Proof. split; reflexivity. Qed.
Print Assumptions C67_gcd_signed_refuted.

(** ** C68 *)

(** Every implemented conversion clamps, except [isize] into a narrower signed type (which
    is listed in the wrong arm of the macro); the missing impl is [i8: FromSaturating<isize>]. *)
Theorem C68_saturate_partial : forall pw into from v, pw = 16%nat \/ pw = 32%nat \/ pw = 64%nat ->
  fits (prim_ty pw from) v ->
  ~ (from = Isize /\ (into = I16 /\ (16 < pw)%nat \/ into = I32 /\ (32 < pw)%nat)) ->
  ~ (into = I8 /\ from = Isize) ->
  let t := prim_ty pw into in
  exists r, saturate_from pw into from v = Some r /\ fits t r /\
    (fits t v -> r = v) /\ (v < imin t -> r = imin t) /\ (imax t < v -> r = imax t).
Proof.
  intros pw into from v Hpw Hv Hex Hex8 t.
  assert (exists arm rest, sat_arms pw into from = arm :: rest /\ arm_ok t (prim_ty pw from) arm = true)
    as (arm & rest & E & Hok).
  { unfold t. destruct Hpw as [->|[->| ->]]; destruct into, from;
      first [ eexists _, _; split; [vm_compute; reflexivity|vm_compute; reflexivity]
            | exfalso; first [apply Hex8; split; reflexivity
              | apply Hex; split; [reflexivity|first [left; split; [reflexivity|lia]|right; split; [reflexivity|lia]]]]]. }
  unfold saturate_from. rewrite E. eexists. split; [reflexivity|].
  assert (forall p, (0 < ibits (prim_ty pw p))%nat) as Hb.
  { intros p. destruct p; cbn; lia. }
  rewrite sat_body_ok by (auto; apply Hb). fold t. unfold clamp, fits in *.
  pose proof (imin_le0 t (Hb into)). lia.
Qed.
Print Assumptions C68_saturate_partial.

(** The excluded conversions are plain truncations. *)
Theorem C68_isize_truncates : forall pw into v, pw = 32%nat \/ pw = 64%nat ->
  into = I16 \/ into = I32 /\ pw = 64%nat ->
  saturate_from pw into Isize v = Some (wrap (prim_ty pw into) v).
Proof. intros pw into v [->| ->] [->|[-> H]]; try discriminate; reflexivity. Qed.
Print Assumptions C68_isize_truncates.

Theorem C68_saturate_refuted :
  saturate_from 64 I16 Isize 70000 = Some 4464 /\ saturate_from 64 I32 Isize (2 ^ 31) = Some (- 2 ^ 31) /\
  saturate_from 64 I8 Isize 5 = None.
Proof. repeat split. Qed.
Print Assumptions C68_saturate_refuted.

(** Coherence of the impl tables: no pair is implemented twice. *)
Theorem C68_coherent : forall pw into from, pw = 16%nat \/ pw = 32%nat \/ pw = 64%nat ->
  (length (sat_arms pw into from) <= 1)%nat.
Proof. intros pw into from [->|[->| ->]]; destruct into, from; vm_compute; lia. Qed.
Print Assumptions C68_coherent.

(** What the twelve types hold, in numbers. *)
Definition prim_range (pw : nat) (p : prim) : Z * Z :=
  match p with
  | U8 => (0, 255) | U16 => (0, 65535) | U32 => (0, 4294967295) | U64 => (0, 18446744073709551615)
  | U128 => (0, 340282366920938463463374607431768211455) | Usize => (0, 2 ^ Z.of_nat pw - 1)
  | I8 => (-128, 127) | I16 => (-32768, 32767) | I32 => (-2147483648, 2147483647)
  | I64 => (-9223372036854775808, 9223372036854775807)
  | I128 => (-170141183460469231731687303715884105728, 170141183460469231731687303715884105727)
  | Isize => (- 2 ^ (Z.of_nat pw - 1), 2 ^ (Z.of_nat pw - 1) - 1)
  end.
Theorem C68_ranges : forall pw p v, (0 < pw)%nat ->
  fits (prim_ty pw p) v <-> fst (prim_range pw p) <= v <= snd (prim_range pw p).
Proof.
  intros pw p v Hpw. unfold fits, imin, imax. destruct p; cbn [prim_ty ibits isigned prim_range fst snd];
    first [reflexivity | (rewrite ?Nat2Z.inj_sub by lia; reflexivity)].
Qed.
Print Assumptions C68_ranges.

Example C68_example : fits (prim_ty 64 I128) (- 2 ^ 100) /\
  saturate_from 64 Usize I128 (- 2 ^ 100) = Some 0 /\
  saturate_from 64 I64 U128 (2 ^ 100) = Some (2 ^ 63 - 1) /\ saturate_from 64 U8 I16 200 = Some 200.
Proof. ex_tac. Qed.

(** ** C69 *)

Theorem C69_from_checked : forall t v,
  (fits t v -> from_checked t v = Some v) /\ (~ fits t v -> from_checked t v = None).
Proof.
  intros t v. unfold from_checked, fits. destruct (in_range t v) eqn:E.
  - apply in_range_iff in E. tauto.
  - apply in_range_false in E. split; intros; [lia|auto].
Qed.
Print Assumptions C69_from_checked.

Theorem C69_truncate : forall t v, (0 < ibits t)%nat ->
  fits t (truncate_from t v) /\
  (exists k, truncate_from t v = v + k * 2 ^ Z.of_nat (ibits t)) /\
  (forall x k, fits t x -> x = v + k * 2 ^ Z.of_nat (ibits t) -> x = truncate_from t v).
Proof.
  intros t v Hb. unfold truncate_from, fits. split; [apply wrap_range; auto|]. split.
  - pose proof (wrap_mod t v Hb) as E. pose proof (two_pow_pos (ibits t)).
    set (B := 2 ^ Z.of_nat (ibits t)) in *.
    exists (wrap t v / B - v / B). pose proof (Z.div_mod (wrap t v) B ltac:(lia)).
    pose proof (Z.div_mod v B ltac:(lia)). rewrite Z.mul_sub_distr_r. lia.
  - intros x k Hx ->. symmetry. apply wrap_unique; auto. apply Z_mod_plus_full.
Qed.
Print Assumptions C69_truncate.

Example C69_example : from_checked u8 256 = None /\ from_checked i8 (-128) = Some (-128) /\
  truncate_from i8 200 = -56 /\ truncate_from u64 (-1) = 2 ^ 64 - 1.
Proof. repeat split; reflexivity. Qed.

(** ** C70 *)

(** For amounts that the cast to [u32] does not fold: in particular every amount of a type of
    at most 32 bits. *)
Theorem C70_checked_shift_partial : forall t a s, (0 < ibits t <= 128)%nat -> fits t a ->
  - 2 ^ 31 <= s < 2 ^ 32 ->
  (0 <= s < Z.of_nat (ibits t) ->
     (exists r, prim_checked_shl t a s = Some r /\ fits t r /\
        r mod 2 ^ Z.of_nat (ibits t) = (a * 2 ^ s) mod 2 ^ Z.of_nat (ibits t)) /\
     prim_checked_shr t a s = Some (a / 2 ^ s) /\ fits t (a / 2 ^ s)) /\
  (~ 0 <= s < Z.of_nat (ibits t) -> prim_checked_shl t a s = None /\ prim_checked_shr t a s = None).
Proof.
  intros t a s Hb Ha Hs. unfold prim_checked_shl, prim_checked_shr. split; intros H.
  - rewrite as_u32_small by lia. rewrite (proj2 (Z.ltb_lt _ _)) by lia. split; [|split].
    + eexists. split; [reflexivity|]. split; [apply wrap_range; lia|].
      rewrite wrap_mod, Z.shiftl_mul_pow2 by lia. auto.
    + rewrite Z.shiftr_div_pow2 by lia. auto.
    + rewrite <- Z.shiftr_div_pow2 by lia. apply shiftr_range; auto; lia.
  - rewrite (proj2 (Z.ltb_ge _ _)); auto. destruct (Z_lt_le_dec s 0).
    + pose proof (as_u32_neg s ltac:(lia)). lia.
    + rewrite as_u32_small by lia. lia.
Qed.
Print Assumptions C70_checked_shift_partial.

(** In general only the low 32 bits of the amount count. *)
Theorem C70_checked_shift_folds : forall t a s k,
  prim_checked_shl t a (s + k * 2 ^ 32) = prim_checked_shl t a s /\
  prim_checked_shr t a (s + k * 2 ^ 32) = prim_checked_shr t a s.
Proof.
  intros. unfold prim_checked_shl, prim_checked_shr, as_u32. rewrite Z_mod_plus_full. auto.
Qed.
Print Assumptions C70_checked_shift_folds.

Theorem C70_checked_shift_refuted : exists a s, fits u64 a /\ fits u64 s /\ Z.of_nat (ibits u64) <= s /\
  prim_checked_shl u64 a s = Some a /\ prim_checked_shr u64 a s = Some a.
Proof. exists 1, (2 ^ 32). ex_tac. Qed.
Print Assumptions C70_checked_shift_refuted.

Example C70_example : fits i8 (-100) /\ prim_checked_shl i8 (-100) 1 = Some 56 /\
  prim_checked_shr i8 (-100) 1 = Some (-50) /\ prim_checked_shl i8 1 8 = None /\
  prim_checked_shl i8 1 (-1) = None.
Proof. ex_tac. Qed.

(** ** C71 *)

Theorem C71_pow_partial : forall dbg t a n, 0 <= n < 2 ^ 32 -> fits t (a ^ n) ->
  prim_pow dbg t a n = Ok (a ^ n).
Proof. intros dbg t a n Hn Hf. unfold prim_pow. rewrite as_u32_small by auto. apply arith_in; auto. Qed.
Print Assumptions C71_pow_partial.

Theorem C71_pow_overflow_partial : forall dbg t a n, 0 <= n < 2 ^ 32 -> ~ fits t (a ^ n) ->
  prim_pow dbg t a n = if dbg then Panic else Ok (wrap t (a ^ n)).
Proof.
  intros dbg t a n Hn Hf. unfold prim_pow. rewrite as_u32_small by auto. apply arith_out.
  unfold fits in Hf. lia.
Qed.
Print Assumptions C71_pow_overflow_partial.

(** Exponents of 2^32 and more lose their upper bits.  Where the true power of such an exponent fits a primitive, the result is
    still right but for the powers of zero whose exponent is a multiple of 2^32, which are one; a negative exponent is taken
    modulo 2^32. *)
Theorem C71_pow_large_partial : forall dbg t a n, (1 < ibits t <= 128)%nat ->
  (2 ^ 32 <= n -> fits t (a ^ n) -> prim_pow dbg t a n = Ok (if (a =? 0) && (n mod 2 ^ 32 =? 0) then 1 else a ^ n)) /\
  (n < 0 -> prim_pow dbg t a n = prim_pow dbg t a (2 ^ 32 - (- n) mod 2 ^ 32)).
Proof.
  intros dbg t a n Hb. unfold prim_pow, as_u32. split.
  - intros Hn F.
    assert (a ^ (n mod 2 ^ 32) = if (a =? 0) && (n mod 2 ^ 32 =? 0) then 1 else a ^ n) as E.
    { pose proof (Z.mod_pos_bound n (2 ^ 32) ltac:(lia)) as Hm. pose proof (Z.div_mod n (2 ^ 32) ltac:(lia)) as Hd.
      destruct (Z.eqb_spec a 0) as [->|Ha].
      - cbn [andb]. destruct (Z.eqb_spec (n mod 2 ^ 32) 0) as [->|N]; [reflexivity|]. rewrite !Z.pow_0_l by lia. reflexivity.
      - cbn [andb]. assert (a = 1 \/ a = -1) as [-> | ->].
        { destruct (Z_le_gt_dec (Z.abs a) 1); [lia|]. exfalso. unfold fits in F.
          assert (2 ^ n <= Z.abs (a ^ n)) as L by (rewrite Z.abs_pow; apply Z.pow_le_mono_l; lia).
          assert (2 ^ 129 <= 2 ^ n) by (apply Z.pow_le_mono_r; lia).
          assert (2 ^ Z.of_nat (ibits t) <= 2 ^ 128) by (apply Z.pow_le_mono_r; lia).
          assert (2 ^ (Z.of_nat (ibits t) - 1) <= 2 ^ 128) by (apply Z.pow_le_mono_r; lia).
          assert (2 ^ 129 = 2 * 2 ^ 128) by reflexivity.
          unfold imin, imax in F. destruct (isigned t); lia. }
        + rewrite !Z.pow_1_l by lia. reflexivity.
        + assert (forall k, 0 <= k -> (-1) ^ (2 * k) = 1) as E2 by (intros k Hk; rewrite Z.pow_mul_r by lia; apply Z.pow_1_l; auto).
          rewrite Hd at 2. rewrite Z.pow_add_r by (try lia; apply Z.mul_nonneg_nonneg; try lia; apply Z.div_pos; lia).
          replace (2 ^ 32 * (n / 2 ^ 32)) with (2 * (2 ^ 31 * (n / 2 ^ 32))) by lia. rewrite E2; [lia|].
          apply Z.mul_nonneg_nonneg; [lia|apply Z.div_pos; lia]. }
    rewrite E. apply arith_in. destruct ((a =? 0) && (n mod 2 ^ 32 =? 0)); auto.
    assert (2 <= 2 ^ (Z.of_nat (ibits t) - 1)) by (change 2 with (2 ^ 1) at 1; apply Z.pow_le_mono_r; lia).
    assert (2 <= 2 ^ Z.of_nat (ibits t)) by (change 2 with (2 ^ 1) at 1; apply Z.pow_le_mono_r; lia). unfold imin, imax. destruct (isigned t); lia.
  - intros Hn. do 2 f_equal. rewrite Zminus_mod, Z.mod_same, Zmod_mod by lia. rewrite <- (Zmod_0_l (2 ^ 32)) at 1. rewrite <- Zminus_mod. f_equal. lia.
Qed.
Print Assumptions C71_pow_large_partial.

Theorem C71_pow_refuted : exists a n, fits u64 n /\ fits u64 (a ^ n) /\
  forall dbg, prim_pow dbg u64 a n <> Ok (a ^ n).
Proof.
  exists 0, (2 ^ 32). split; [ex_tac|]. rewrite Z.pow_0_l by lia.
  split; [ex_tac|]. intros dbg H. vm_compute in H. destruct dbg; discriminate.
Qed.
Print Assumptions C71_pow_refuted.

Example C71_example : fits i8 ((-2) ^ 7) /\ prim_pow true i8 (-2) 7 = Ok (-128) /\
  prim_pow true i8 2 7 = Panic /\ prim_pow false i8 2 7 = Ok (-128).
Proof. ex_tac. Qed.
Example C71_large_example : (forall n, 0 < n -> fits u64 (0 ^ n)) /\ prim_pow true u64 0 (2 ^ 32 + 5) = Ok 0 /\
  prim_pow true u64 0 (2 ^ 33) = Ok 1 /\ prim_pow false i8 (-1) (2 ^ 32 + 1) = Ok (-1).
Proof. split; [intros n Hn; rewrite Z.pow_0_l by lia; ex_tac|]. vm_compute. auto. Qed.

(** ** C72 *)

(** [r] is the exact result [v] reduced into the type. *)
Definition is_wrapped (t : ity) (r v : Z) : Prop :=
  fits t r /\ r mod 2 ^ Z.of_nat (ibits t) = v mod 2 ^ Z.of_nat (ibits t).

Theorem C72_wrapping_partial : forall t a b, (0 < ibits t)%nat ->
  is_wrapped t (prim_wrapping_sub t a b) (a - b) /\
  is_wrapped t (prim_wrapping_mul t a b) (a * b) /\
  (0 <= b < Z.of_nat (ibits t) -> b < 2 ^ 32 ->
     is_wrapped t (prim_wrapping_shl t a b) (a * 2 ^ b) /\
     is_wrapped t (prim_wrapping_shr t a b) (a / 2 ^ b)).
Proof.
  intros t a b Hb. unfold is_wrapped, fits, prim_wrapping_sub, prim_wrapping_mul,
    prim_wrapping_shl, prim_wrapping_shr.
  split; [split; [apply wrap_range; auto|apply wrap_mod; auto]|].
  split; [split; [apply wrap_range; auto|apply wrap_mod; auto]|].
  intros H1 H2. rewrite as_u32_small, Z.mod_small by lia.
  rewrite Z.shiftl_mul_pow2, Z.shiftr_div_pow2 by lia.
  split; (split; [apply wrap_range; auto|apply wrap_mod; auto]).
Qed.
Print Assumptions C72_wrapping_partial.

(** [WrappingAdd::wrapping_add] subtracts: it is right only where the two agree. *)
Theorem C72_wrapping_add_exact_partial : forall t a b, (0 < ibits t)%nat ->
  is_wrapped t (prim_wrapping_add t a b) (a - b) /\
  (is_wrapped t (prim_wrapping_add t a b) (a + b) <-> (2 * b) mod 2 ^ Z.of_nat (ibits t) = 0).
Proof.
  intros t a b Hb. unfold is_wrapped, fits, prim_wrapping_add.
  split; [split; [apply wrap_range; auto|apply wrap_mod; auto]|].
  rewrite wrap_mod by auto. pose proof (two_pow_pos (ibits t)) as HB.
  set (B := 2 ^ Z.of_nat (ibits t)) in *. split.
  - intros [_ E]. replace (2 * b) with ((a + b) - (a - b)) by ring.
    rewrite Zminus_mod, E, Z.sub_diag. apply Z.mod_0_l. lia.
  - intros E. split; [apply wrap_range; auto|]. replace (a + b) with ((a - b) + 2 * b) by ring.
    rewrite Zplus_mod, E, Z.add_0_r, Zmod_mod. auto.
Qed.
Print Assumptions C72_wrapping_add_exact_partial.

Theorem C72_wrapping_add_refuted : prim_wrapping_add u8 5 3 = 2.
Proof. reflexivity. Qed.
Print Assumptions C72_wrapping_add_refuted.

Example C72_example : prim_wrapping_sub i8 (-128) 1 = 127 /\ prim_wrapping_mul i8 100 3 = 44 /\
  prim_wrapping_shl i8 100 1 = -56 /\ prim_wrapping_shr i8 (-100) 1 = -50.
Proof. repeat split; reflexivity. Qed.

(** ** C73 *)

Theorem C73_identity_partial : forall v,
  (prim_is_zero v = true <-> v = 0) /\ (prim_is_one v = true <-> v = 1).
Proof. intros v. split; apply Z.eqb_eq. Qed.
Print Assumptions C73_identity_partial.

(** Every [NonZero] value claims to be one. *)
Theorem C73_nonzero_is_one_always : forall v, v <> 0 -> nz_is_one v = true.
Proof. intros v H. unfold nz_is_one. rewrite (proj2 (Z.eqb_neq _ _)); auto. Qed.
Print Assumptions C73_nonzero_is_one_always.

Theorem C73_nonzero_is_one_refuted : exists v, v <> 0 /\ v <> 1 /\ nz_is_one v = true.
Proof. exists 7. repeat split; lia. Qed.
Print Assumptions C73_nonzero_is_one_refuted.

(** ** C74 *)

Theorem C74_factorial : forall dbg t n, (0 < ibits t)%nat -> isigned t = false ->
  (Z.of_nat (fact n) <= imax t -> prim_factorial dbg t n = Ok (Z.of_nat (fact n))) /\
  (imax t < Z.of_nat (fact n) ->
     prim_factorial dbg t n = if dbg then Panic else Ok (Z.of_nat (fact n) mod 2 ^ Z.of_nat (ibits t))).
Proof.
  intros dbg t n Hb Hs. pose proof (pow_half _ Hb). pose proof (fact_pos n).
  assert (1 <= imax t) by (unfold imax; rewrite Hs; lia). assert (imin t = 0) by (unfold imin; rewrite Hs; auto).
  rewrite prim_factorial_spec by auto. split; intros.
  - apply arith_in. lia.
  - rewrite arith_out by lia. unfold wrap. rewrite Hs. reflexivity.
Qed.
Print Assumptions C74_factorial.

Example C74_example : prim_factorial true u8 5 = Ok 120 /\ prim_factorial true u8 6 = Panic /\
  prim_factorial false u8 6 = Ok 208 /\ Z.of_nat (fact 5) <= imax u8.
Proof. ex_tac. Qed.

(** ** C95 *)

Theorem C95_zero_counts : forall pw p v, pw = 16%nat \/ pw = 32%nat \/ pw = 64%nat ->
  let t := prim_ty pw p in
  let B := Z.of_nat (ibits t) in
  let pat := v mod 2 ^ B in
  let lz := prim_leading_zeros t v in
  let tz := prim_trailing_zeros t v in
  (0 <= lz <= B /\ pat < 2 ^ (B - lz) /\ (lz < B -> 2 ^ (B - lz - 1) <= pat)) /\
  (if pat =? 0 then tz = B else 0 <= tz < B /\ exists q, pat = (2 * q + 1) * 2 ^ tz).
Proof.
  intros pw p v Hpw t B pat lz tz.
  assert ((0 < ibits t)%nat /\ Z.of_nat (ibits t) <= imax t) as [H1 H2].
  { unfold t. destruct Hpw as [->|[->| ->]]; destruct p; split; vm_compute; try lia; discriminate. }
  split; [apply leading_zeros_spec; auto|apply trailing_zeros_spec; auto].
Qed.
Print Assumptions C95_zero_counts.

Example C95_example : prim_leading_zeros (prim_ty 64 I8) 20 = 3 /\ prim_trailing_zeros (prim_ty 64 I8) 20 = 2 /\
  prim_leading_zeros (prim_ty 64 I8) (-1) = 0 /\ prim_trailing_zeros (prim_ty 64 U128) 0 = 128.
Proof. repeat split; reflexivity. Qed.

(** ** C96 *)

(** [is_negative] is right, [is_positive] is right except at zero (documented as [>= 0]), and
    [abs] is right except at the minimum of a signed type. *)
Theorem C96_sign_partial : forall dbg t v, (0 < ibits t)%nat -> isigned t = true -> fits t v ->
  (prim_is_negative v = true <-> v < 0) /\
  (v <> 0 -> (prim_is_positive v = true <-> v >= 0)) /\
  (v <> imin t -> prim_abs dbg t v = Ok (Z.abs v)) /\
  (v = imin t -> prim_abs dbg t v = if dbg then Panic else Ok v).
Proof.
  intros dbg t v Hb Hs Hf. unfold fits in Hf.
  assert (imax t = - imin t - 1 /\ imin t < 0) as [Hx Hn].
  { pose proof (pow_half _ Hb). unfold imin, imax. rewrite Hs. lia. }
  unfold prim_is_negative, prim_is_positive, prim_abs. split; [apply Z.ltb_lt|]. split; [|split].
  - intros. rewrite Z.ltb_lt. lia.
  - intros. apply arith_in. lia.
  - intros ->. rewrite arith_out by lia. destruct dbg; auto. f_equal. apply wrap_unique; auto.
    rewrite Z.abs_neq by lia. pose proof (range_size t Hb). pose proof (two_pow_pos (ibits t)).
    set (B := 2 ^ Z.of_nat (ibits t)) in *. replace (- imin t) with (imin t + 1 * B) by lia.
    rewrite Z_mod_plus_full. auto.
Qed.
Print Assumptions C96_sign_partial.

Example C96_demo : fits i8 (-127) /\ prim_abs true i8 (-127) = Ok 127 /\ prim_is_negative (-127) = true.
Proof. repeat split; vm_compute; discriminate. Qed.
Theorem C96_sign_refuted : prim_is_positive 0 = false /\ prim_abs true i8 (-128) = Panic /\
  prim_abs false i8 (-128) = Ok (-128).
Proof. repeat split; reflexivity. Qed.
Print Assumptions C96_sign_refuted.

(** ** C97 *)

Theorem C97_overflowing_checked : forall t a b, (0 < ibits t)%nat ->
  (forall op f, (op, f) = (prim_overflowing_add t a b, a + b) \/
     (op, f) = (prim_overflowing_sub t a b, a - b) \/ (op, f) = (prim_overflowing_mul t a b, a * b) ->
     is_wrapped t (fst op) f /\ (snd op = true <-> ~ fits t f)) /\
  (forall op f, (op, f) = (prim_checked_add t a b, a + b) \/
     (op, f) = (prim_checked_sub t a b, a - b) \/ (op, f) = (prim_checked_mul t a b, a * b) ->
     (fits t f -> op = Some f) /\ (~ fits t f -> op = None)) /\
  (prim_checked_div t a b = None <-> b = 0 \/ ~ fits t (Z.quot a b)) /\
  (forall q, prim_checked_div t a b = Some q -> q = Z.quot a b).
Proof.
  intros t a b Hb.
  assert (forall f, is_wrapped t (wrap t f) f /\ (negb (in_range t f) = true <-> ~ fits t f)) as HO.
  { intros f. split; [split; [apply wrap_range; auto|apply wrap_mod; auto]|].
    rewrite negb_true_iff, in_range_false. unfold fits. lia. }
  split; [|split; [|split]].
  - intros op f [E|[E|E]]; apply pair_equal_spec in E; destruct E as [-> ->]; apply HO.
  - intros op f [E|[E|E]]; apply pair_equal_spec in E; destruct E as [-> ->]; apply C69_from_checked.
  - unfold prim_checked_div. destruct (Z.eqb_spec b 0); [tauto|].
    destruct (C69_from_checked t (Z.quot a b)) as [H1 H2]. split.
    + intros E. right. intros Hf. rewrite (H1 Hf) in E. discriminate.
    + intros [|H]; [contradiction|auto].
  - unfold prim_checked_div. intros q. destruct (Z.eqb_spec b 0); [discriminate|].
    unfold from_checked. destruct (in_range t (Z.quot a b)); intros E; inversion E; auto.
Qed.
Print Assumptions C97_overflowing_checked.

Example C97_example : prim_overflowing_mul u8 16 17 = (16, true) /\ prim_checked_sub u8 3 5 = None /\
  prim_checked_div i8 (-128) (-1) = None /\ prim_checked_div i8 (-7) 2 = Some (-3).
Proof. repeat split; reflexivity. Qed.
