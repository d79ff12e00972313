(** Proofs about FloatModel.v: error of the rounding, and the invariant of the loop. *)
From Coq Require Import ZArith List Bool Lia.
From Verif Require Import Base Words Spec Arith BitSliceModel BitSliceProofs FloatModel FloatSpec.
Import ListNotations.
Local Open Scope Z_scope.

Lemma round53_small x : 0 <= x < 2 ^ 53 -> round53 x = x.
Proof.
  intros H. unfold round53. assert (Z.log2 x <= 52).
  { destruct (Z.eq_dec x 0) as [->|]; [cbn; lia|]. assert (Z.log2 x < 53) by (apply Z.log2_lt_pow2; lia). lia. }
  destruct (Z.leb_spec (Z.log2 x - 52) 0); auto. lia.
Qed.

(** The shape of a rounded number. *)
Lemma round53_shape x : 2 ^ 53 <= x -> let e := Z.log2 x - 52 in 0 < e /\
  exists q r m, x = q * 2 ^ e + r /\ 0 <= r < 2 ^ e /\ 2 ^ 52 <= q < 2 ^ 53 /\
    round53 x = m * 2 ^ e /\ 2 ^ 52 <= m <= 2 ^ 53 /\ 2 * Z.abs (m * 2 ^ e - x) <= 2 ^ e.
Proof.
  intros H. cbn zeta. set (e := Z.log2 x - 52).
  assert (53 <= Z.log2 x) as Hl by (apply Z.log2_le_pow2; lia).
  assert (0 < e) as He by (unfold e; lia). split; auto.
  assert (0 < 2 ^ e) as Hp by (apply Z.pow_pos_nonneg; lia).
  assert (2 ^ e = 2 * 2 ^ (e - 1)) as Hh. { rewrite <- Z.pow_succ_r by lia. f_equal. lia. }
  destruct (Z.log2_spec x ltac:(lia)) as [L1 L2].
  assert (2 ^ Z.log2 x = 2 ^ 52 * 2 ^ e) as E1. { rewrite <- Z.pow_add_r by lia. f_equal. unfold e. lia. }
  assert (2 ^ Z.succ (Z.log2 x) = 2 ^ 53 * 2 ^ e) as E2. { rewrite <- Z.pow_add_r by lia. f_equal. unfold e. lia. }
  pose proof (Z.div_mod x (2 ^ e) ltac:(lia)) as D. pose proof (Z.mod_pos_bound x (2 ^ e) Hp) as B.
  assert (2 ^ 52 <= x / 2 ^ e < 2 ^ 53) as Q.
  { split; [apply Z.div_le_lower_bound; lia|apply Z.div_lt_upper_bound; lia]. }
  unfold round53. fold e. rewrite (proj2 (Z.leb_gt e 0)) by lia.
  set (q := x / 2 ^ e) in *. set (r := x mod 2 ^ e) in *.
  destruct (Z.ltb_spec (2 ^ (e - 1)) r); cbn [orb].
  - exists q, r, (q + 1). repeat split; try lia.
  - destruct (Z.eqb_spec r (2 ^ (e - 1))); cbn [andb].
    + destruct (Z.odd q).
      * exists q, r, (q + 1). repeat split; try lia.
      * exists q, r, q. repeat split; try lia.
    + exists q, r, q. repeat split; try lia.
Qed.

Lemma round53_nonneg x : 0 <= x -> 0 <= round53 x.
Proof.
  intros H. destruct (Z_lt_ge_dec x (2 ^ 53)); [rewrite round53_small; lia|].
  destruct (round53_shape x) as (He & q & r & m & _ & _ & _ & -> & Hm & _); [lia|].
  assert (0 < 2 ^ (Z.log2 x - 52)) by (apply Z.pow_pos_nonneg; lia). nia.
Qed.

(** Relative error at most [2^-53]. *)
Lemma round53_error x : 0 <= x -> Z.abs (round53 x - x) * 2 ^ 53 <= x.
Proof.
  intros H. destruct (Z_lt_ge_dec x (2 ^ 53)).
  - rewrite round53_small by lia. rewrite Z.sub_diag. cbn. lia.
  - destruct (round53_shape x) as (He & q & r & m & E & Hr & Hq & -> & Hm & Hd); [lia|].
    assert (0 < 2 ^ (Z.log2 x - 52)) by (apply Z.pow_pos_nonneg; lia). nia.
Qed.

Lemma round53_double x : 0 <= x -> whole_double (round53 x).
Proof.
  intros H. destruct (Z_lt_ge_dec x (2 ^ 53)).
  - rewrite round53_small by lia. exists x, 0. cbn. lia.
  - destruct (round53_shape x) as (He & q & r & m & E & Hr & Hq & -> & Hm & Hd); [lia|].
    destruct (Z.eq_dec m (2 ^ 53)) as [->|].
    + exists (2 ^ 52), (Z.log2 x - 52 + 1). split; [|lia]. rewrite Z.pow_add_r by lia. lia.
    + exists m, (Z.log2 x - 52). split; [reflexivity|]. lia.
Qed.

(** Doubles round to themselves. *)
Lemma round53_exact y : whole_double y -> round53 y = y.
Proof.
  intros (m & e & -> & Hm & He).
  assert (0 < 2 ^ e) as Hp by (apply Z.pow_pos_nonneg; lia).
  destruct (Z.eq_dec m 0) as [->|Hm0]; [reflexivity|].
  unfold round53. rewrite Z.log2_mul_pow2, (Z.add_comm e) by lia.
  assert (Z.log2 m <= 52) by (assert (Z.log2 m < 53) by (apply Z.log2_lt_pow2; lia); lia).
  destruct (Z.leb_spec (Z.log2 m + e - 52) 0); auto.
  remember (Z.log2 m + e - 52) as f eqn:Ef.
  assert (2 ^ e = 2 ^ (e - f) * 2 ^ f) as E. { rewrite <- Z.pow_add_r by lia. f_equal. lia. }
  assert (0 < 2 ^ f) by (apply Z.pow_pos_nonneg; lia). assert (0 < 2 ^ (f - 1)) by (apply Z.pow_pos_nonneg; lia).
  rewrite E, Z.mul_assoc, Z.mod_mul, Z.div_mul by lia.
  rewrite (proj2 (Z.ltb_ge _ _)) by lia. rewrite (proj2 (Z.eqb_neq 0 _)) by lia. reflexivity.
Qed.

(** Rounding is to the nearest double. *)
Lemma round53_nearest x y : 0 <= x -> whole_double y -> Z.abs (round53 x - x) <= Z.abs (y - x).
Proof.
  intros H Hy. destruct (Z_lt_ge_dec x (2 ^ 53)).
  - rewrite round53_small by lia. lia.
  - destruct (round53_shape x) as (He & q & r & m & E & Hr & Hq & -> & Hm & Hd); [lia|].
    set (e := Z.log2 x - 52) in *. assert (0 < 2 ^ e) as Hp by (apply Z.pow_pos_nonneg; lia).
    (* a double with more than 53 + e bits or one that is a multiple of 2^e is no nearer *)
    assert (forall k, Z.abs (m * 2 ^ e - x) <= Z.abs (k * 2 ^ e - x)) as Hk.
    { intros k. destruct (Z.eq_dec k m) as [->|]; [lia|]. assert (2 ^ e <= Z.abs (k * 2 ^ e - m * 2 ^ e)).
      { rewrite <- Z.mul_sub_distr_r, Z.abs_mul, (Z.abs_eq (2 ^ e)) by lia. assert (1 <= Z.abs (k - m)) by lia. nia. }
      lia. }
    destruct Hy as (n & f & -> & Hn & Hf).
    destruct (Z_le_gt_dec e f).
    + assert (2 ^ f = 2 ^ (f - e) * 2 ^ e) as -> by (rewrite <- Z.pow_add_r by lia; f_equal; lia).
      rewrite Z.mul_assoc. apply Hk.
    + (* smaller than 2^52 * 2^e <= x *)
      assert (n * 2 ^ f <= 2 ^ 52 * 2 ^ e).
      { assert (2 ^ e = 2 ^ (e - f - 1) * 2 * 2 ^ f) as ->.
        { rewrite <- (Z.mul_assoc _ 2), <- Z.pow_succ_r, <- Z.pow_add_r by lia. f_equal. lia. }
        assert (0 < 2 ^ f) by (apply Z.pow_pos_nonneg; lia). assert (0 < 2 ^ (e - f - 1)) by (apply Z.pow_pos_nonneg; lia). nia. }
      specialize (Hk (2 ^ 52)). assert (2 ^ 52 * 2 ^ e <= x) by nia. lia.
Qed.

Lemma usize_max_val : usize_max_f64 = Fin (2 ^ 64).
Proof. vm_compute. reflexivity. Qed.

Lemma pow2_double e : 0 <= e -> whole_double (2 ^ e).
Proof. intros H. exists 1, e. lia. Qed.

Lemma powi_low i : (i < 16)%nat -> powi usize_max_f64 i = Fin (2 ^ (64 * Z.of_nat i)).
Proof.
  intros H. rewrite usize_max_val. unfold powi, round64. rewrite <- Z.pow_mul_r by lia.
  rewrite round53_exact by (apply pow2_double; lia).
  rewrite (proj2 (Z.ltb_lt _ _)); auto. apply Z.pow_lt_mono_r; lia.
Qed.

Lemma powi_high i : (16 <= i)%nat -> powi usize_max_f64 i = Inf.
Proof.
  intros H. rewrite usize_max_val. unfold powi, round64. rewrite <- Z.pow_mul_r by lia.
  rewrite round53_exact by (apply pow2_double; lia).
  rewrite (proj2 (Z.ltb_ge _ _)); auto. apply Z.pow_le_mono_r; lia.
Qed.

Lemma as_f64_val v : 0 <= v < 2 ^ 64 -> as_f64 v = Fin (round53 v) /\ (round53 v = 0 -> v = 0).
Proof.
  intros H. pose proof (round53_error v ltac:(lia)). pose proof (round53_nonneg v ltac:(lia)).
  unfold as_f64, round64. rewrite (proj2 (Z.ltb_lt _ _)).
  - split; auto. lia.
  - apply Z.lt_trans with (2 ^ 66); [lia|]. apply Z.pow_lt_mono_r; lia.
Qed.

(** One round with an index below 16: [acc] approximates [u], the value of the limbs below. *)
Lemma approx_step v i acc u : 0 <= v < 2 ^ 64 -> 0 <= u < 2 ^ (64 * i) -> 0 <= i ->
  0 <= acc -> whole_double acc -> Z.abs (acc - u) * 2 ^ 51 <= u ->
  let s := round53 (round53 v * 2 ^ (64 * i) + acc) in let u' := u + v * 2 ^ (64 * i) in
  0 <= s /\ whole_double s /\ Z.abs (s - u') * 2 ^ 51 <= u'.
Proof.
  intros Hv Hu Hi Ha Hd He. cbn zeta. set (B := 2 ^ (64 * i)) in *.
  assert (0 < B) as HB by (apply Z.pow_pos_nonneg; lia).
  pose proof (round53_nonneg v ltac:(lia)) as Rv. pose proof (round53_error v ltac:(lia)) as Ev.
  set (t := round53 v * B + acc). assert (0 <= t) as Ht by (unfold t; nia).
  split; [apply round53_nonneg; auto|]. split; [apply round53_double; auto|].
  destruct (Z.eq_dec v 0) as [->|Hv0].
  { unfold t. replace (round53 0) with 0 by reflexivity. rewrite !Z.mul_0_l, Z.add_0_l, Z.add_0_r.
    rewrite round53_exact by auto. exact He. }
  pose proof (round53_error t Ht) as Et.
  assert (Z.abs (round53 t - (u + v * B)) <= Z.abs (round53 t - t) + Z.abs (t - (u + v * B))) as T by lia.
  assert (Z.abs (t - (u + v * B)) <= Z.abs (round53 v - v) * B + Z.abs (acc - u)) as T2.
  { unfold t. replace (round53 v * B + acc - (u + v * B)) with ((round53 v - v) * B + (acc - u)) by ring.
    rewrite <- (Z.abs_eq B) at 2 by lia. rewrite <- Z.abs_mul. lia. }
  assert (t <= 2 * (u + v * B)) as T3. { unfold t. nia. }
  destruct (Z_lt_ge_dec v (2 ^ 53)).
  - (* v is a double itself *)
    rewrite (round53_small v) in T2 by lia. rewrite Z.sub_diag in T2. cbn [Z.abs Z.mul Z.add] in T2.
    assert (t <= u + v * B + Z.abs (acc - u)) by (unfold t; rewrite (round53_small v) by lia; lia).
    assert (u <= v * B) by nia.
    set (A := Z.abs (round53 t - t)) in *. set (C := Z.abs (acc - u)) in *. set (V := v * B) in *.
    assert (Z.abs (round53 t - (u + V)) <= A + C) by lia. lia.
  - assert (u * 2 ^ 53 <= v * B) by (rewrite (Z.mul_comm v); apply Z.mul_le_mono_nonneg; lia).
    assert (Z.abs (round53 v - v) * B * 2 ^ 53 <= v * B)
      by (rewrite <- Z.mul_assoc, (Z.mul_comm B), Z.mul_assoc; apply Z.mul_le_mono_nonneg_r; lia).
    set (A := Z.abs (round53 t - t)) in *. set (C := Z.abs (acc - u)) in *. set (V := v * B) in *.
    set (D := Z.abs (round53 v - v) * B) in *.
    assert (t <= u + V + D + C) by lia.
    assert (Z.abs (round53 t - (u + V)) <= A + D + C) by lia. lia.
Qed.

Lemma approx_loop_low l : forall i acc u, wf 64 l -> (i + length l <= 16)%nat ->
  0 <= u < 2 ^ (64 * Z.of_nat i) -> 0 <= acc < 2 ^ 1024 -> whole_double acc -> Z.abs (acc - u) * 2 ^ 51 <= u ->
  exists r, approx_loop l i (Fin acc) = Some r /\ approximates r (u + val 64 l * 2 ^ (64 * Z.of_nat i)).
Proof.
  induction l as [|v l IH]; intros i acc u Hw Hlen Hu Ha Hd He.
  - exists (Fin acc). split; auto. left. exists acc. cbn [val]. rewrite Z.mul_0_l, Z.add_0_r. auto.
  - cbn [length] in Hlen. pose proof (Forall_inv Hw) as Hv. pose proof (Forall_inv_tail Hw) as Hw'.
    change (0 <= v < 2 ^ 64) in Hv.
    destruct (as_f64_val v Hv) as [Ev Ev0].
    destruct (approx_step v (Z.of_nat i) acc u Hv Hu ltac:(lia) ltac:(lia) Hd He) as (S1 & S2 & S3).
    cbn [approx_loop]. rewrite (proj2 (Z.ltb_lt _ _)) by lia. rewrite Ev, powi_low by lia.
    set (B := 2 ^ (64 * Z.of_nat i)) in *.
    assert (0 < B) as HB by (apply Z.pow_pos_nonneg; lia).
    assert (mul_add (Fin (round53 v)) (Fin B) (Fin acc) = round64 (round53 v * B + acc)) as ->.
    { unfold mul_add. destruct (round53 v); auto. }
    unfold round64. set (s := round53 (round53 v * B + acc)) in *.
    cbn [val]. change (base 64) with (2 ^ 64).
    assert (2 ^ (64 * Z.of_nat (S i)) = 2 ^ 64 * B) as EB.
    { unfold B. rewrite <- Z.pow_add_r by lia. f_equal. lia. }
    destruct (Z.ltb_spec s (2 ^ 1024)) as [Hs|Hs].
    + destruct (IH (S i) s (u + v * B) Hw' ltac:(lia)) as (r & E & A); auto.
      { rewrite EB. nia. }
      exists r. split; auto. rewrite EB in A. change (2 ^ Z.of_nat 64) with (2 ^ 64).
      replace (u + (v + 2 ^ 64 * val 64 l) * B) with (u + v * B + val 64 l * (2 ^ 64 * B)) by ring. exact A.
    + (* overflow: only at the top limb *)
      assert (2 ^ 1024 - 2 ^ 973 <= u + v * B) as Hbig.
      { assert (2 ^ 1024 * 2 ^ 51 <= (u + v * B) * (2 ^ 51 + 1)) by lia.
        assert (2 ^ 1024 = 2 ^ 973 * 2 ^ 51) as E by (rewrite <- Z.pow_add_r by lia; reflexivity).
        set (M := 2 ^ 973) in *. rewrite E in *. nia. }
      assert (i = 15%nat) as ->.
      { assert (v * B <= (2 ^ 64 - 1) * B) as H1 by (apply Z.mul_le_mono_nonneg_r; lia).
        assert (2 ^ 1024 - 2 ^ 973 < 2 ^ 64 * B) as H by lia. rewrite <- EB in H.
        assert (2 ^ 1023 < 2 ^ (64 * Z.of_nat (S i))) as H2.
        { eapply Z.le_lt_trans; [|exact H]. vm_compute. discriminate. }
        apply Z.pow_lt_mono_r_iff in H2; lia. }
      destruct l; [|cbn [length] in Hlen; lia]. exists Inf. split; auto. right. split; auto. cbn [val]. lia.
Qed.

Lemma approx_low l : wf 64 l -> (length l <= 16)%nat -> approximates (approx_limbs l) (val 64 l).
Proof.
  intros Hw Hl. destruct (approx_loop_low l 0 0 0 Hw ltac:(lia)) as (r & E & A); try lia.
  - exists 0, 0. lia.
  - unfold approx_limbs. rewrite E. rewrite Z.mul_1_r in A. exact A.
Qed.

(** From 16 limbs on. *)
Lemma approx_loop_high l : forall i acc, wf 64 l -> (16 <= i)%nat -> Z.of_nat (i + length l) <= 2 ^ 31 -> l <> [] ->
  approx_loop l i acc = Some (match acc with NaN => NaN | _ => if existsb (Z.eqb 0) l then NaN else Inf end).
Proof.
  induction l as [|v l IH]; intros i acc Hw Hi Hlen Hne; [congruence|].
  cbn [length] in Hlen. pose proof (Forall_inv Hw) as Hv. pose proof (Forall_inv_tail Hw) as Hw'.
  change (0 <= v < 2 ^ 64) in Hv. destruct (as_f64_val v Hv) as [Ev Ev0].
  cbn [approx_loop existsb]. rewrite (proj2 (Z.ltb_lt _ _)) by lia. rewrite Ev, powi_high by lia.
  pose proof (round53_nonneg v ltac:(lia)) as Rn.
  assert (mul_add (Fin (round53 v)) Inf acc = match acc with NaN => NaN | _ => if 0 =? v then NaN else Inf end) as ->.
  { unfold mul_add. destruct (Z.eqb_spec 0 v) as [<-|Hv0].
    - cbn. destruct acc; reflexivity.
    - destruct (round53 v) eqn:E; [specialize (Ev0 eq_refl); congruence| |lia]. destruct acc; reflexivity. }
  destruct l as [|v2 l].
  - cbn [approx_loop existsb]. rewrite orb_false_r. reflexivity.
  - rewrite IH; auto; [|lia|discriminate].
    destruct acc; try reflexivity; destruct (0 =? v); reflexivity.
Qed.

Lemma approx_loop_app l1 : forall l2 i acc, Z.of_nat (i + length l1) <= 2 ^ 31 ->
  approx_loop (l1 ++ l2) i acc = match approx_loop l1 i acc with Some a => approx_loop l2 (i + length l1) a | None => None end.
Proof.
  induction l1 as [|v l1 IH]; intros l2 i acc H.
  - cbn. rewrite Nat.add_0_r. reflexivity.
  - cbn [app approx_loop length] in *. rewrite (proj2 (Z.ltb_lt _ _)) by lia. rewrite IH by lia.
    replace (S i + length l1)%nat with (i + S (length l1))%nat by lia. reflexivity.
Qed.

Lemma approx_loop_none l : forall i acc, (0 < length l)%nat -> 2 ^ 31 < Z.of_nat (i + length l) -> approx_loop l i acc = None.
Proof.
  induction l as [|v l IH]; intros i acc H0 H; cbn [length] in *; [lia|].
  cbn [approx_loop]. destruct (Z.ltb_spec (Z.of_nat i) (2 ^ 31)) as [Hi|Hi]; auto. apply IH; [|lia].
  destruct l; cbn [length] in *; lia.
Qed.

Lemma approx_high l : wf 64 l -> (16 < length l)%nat ->
  approx_limbs l = if (Z.of_nat (length l) <=? 2 ^ 31) && existsb (Z.eqb 0) (skipn 16 l) then NaN else Inf.
Proof.
  intros Hw Hl. destruct (Z.leb_spec (Z.of_nat (length l)) (2 ^ 31)) as [H|H]; cbn [andb].
  - assert (length (firstn 16 l) = 16%nat) as L1 by (rewrite firstn_length; lia).
    assert (length (skipn 16 l) = length l - 16)%nat as L2 by apply skipn_length.
    unfold approx_limbs. rewrite <- (firstn_skipn 16 l) at 1. rewrite approx_loop_app by lia.
    destruct (approx_loop_low (firstn 16 l) 0 0 0) as (r & E & A); try lia.
    { apply wf_firstn. exact Hw. }
    { exists 0, 0. lia. }
    rewrite E, L1. rewrite approx_loop_high; [|apply wf_skipn; exact Hw|lia|lia|intros Q; rewrite Q in L2; cbn in L2; lia].
    destruct A as [(y & -> & _)|[-> _]]; reflexivity.
  - unfold approx_limbs. rewrite approx_loop_none; auto; lia.
Qed.
