(** C106: the conversion of a BigInt to a double, against Flocq's binary64. *)
From Coq Require Import ZArith Reals List Bool Lia Lra.
From Flocq Require Import Core IEEE754.Binary IEEE754.Bits.
From Verif Require Import Base Words Spec TextSpec Arith BitSliceModel BitSliceProofs BitwiseProofs
  InternModel BigIntModel BigIntSpec BigIntProofs BigIntOps BigIntConv BigIntText BigIntMore BigIntRun BigIntHist PropBigInt PropBigInt2
  FpModel FpSpec FpProofs FpFlocq PropFloat FloatModel FloatSpec FloatProofs.
Import ListNotations.
Local Open Scope Z_scope.

(** The double that a value of the model stands for. *)
Definition stands (x : f64) (b : binary64) : Prop :=
  match x with
  | Fin n => 0 <= n /\ is_finite 53 1024 b = true /\ B2R 53 1024 b = IZR n
  | Inf => b = B754_infinity 53 1024 false
  | NaN => Binary.is_nan 53 1024 b = true
  end.

(** The integer [v] as a double, rounded to nearest even. *)
Definition nearest (v : Z) : binary64 := binary_normalize 53 1024 eq_refl eq_refl BinarySingleNaN.mode_NE v 0 false.

(** [val.mul_add(2f64.powi(64 * idx), acc)] for each limb. *)
Fixpoint fma_fold (l : list Z) (idx : Z) (acc : binary64) : binary64 :=
  match l with
  | [] => acc
  | v :: l' => fma_fold l' (idx + 1) (b64_fma BinarySingleNaN.mode_NE (nearest v) (nearest (2 ^ (64 * idx))) acc)
  end.

Lemma round53_sig x : round53 x = round_sig 53 x.
Proof. reflexivity. Qed.

Lemma round_pos x : 0 <= x -> 0 <= round53 x.
Proof. intros H. destruct (Z.eq_dec x 0) as [->|]; [reflexivity|]. apply Z.lt_le_incl. rewrite round53_sig. apply round_sig_pos; lia. Qed.

Lemma round_real x : 0 <= x -> round radix2 (SpecFloat.fexp 53 1024) ZnearestE (IZR x) = IZR (round53 x).
Proof. intros H. apply (round_int f64_fmt ieee_f64 x H). Qed.

Lemma limit_real : bpow radix2 1024 = IZR (2 ^ 1024).
Proof. symmetry. apply (IZR_Zpower radix2). lia. Qed.

Lemma nearest_stands v : 0 <= v -> stands (round64 v) (nearest v).
Proof.
  intros Hv. pose proof (round_pos v Hv) as R0. unfold nearest. 
  pose proof (binary_normalize_correct 53 1024 eq_refl eq_refl BinarySingleNaN.mode_NE v 0 false) as C. set (y := binary_normalize _ _ _ _ _ _ _ _) in *.
  replace (F2R (Float radix2 v 0)) with (IZR v) in C by (unfold F2R; cbn [Fnum Fexp bpow]; ring).
  cbn [BinarySingleNaN.round_mode] in C. rewrite round_real, <- abs_IZR, limit_real in C by exact Hv.
  rewrite (Z.abs_eq (round53 v)) in C by exact R0. unfold round64. destruct (Z.ltb_spec (round53 v) (2 ^ 1024)) as [L|L].
  - rewrite Rlt_bool_true in C by (apply IZR_lt; exact L). destruct C as (C1 & C2 & _). cbn [stands]. auto.
  - rewrite Rlt_bool_false in C by (apply IZR_le; exact L). rewrite Rlt_bool_false in C by (apply IZR_le; exact Hv).
    cbn [stands]. apply B2FF_inj. rewrite C. reflexivity.
Qed.

Lemma fin_cases n a : stands (Fin n) a -> n = 0 /\ (exists s, a = B754_zero 53 1024 s) \/ 0 < n /\ exists m e E, a = B754_finite 53 1024 false m e E.
Proof.
  intros (N & F & R). destruct a as [s|s|s pl E|s m e E]; try discriminate F.
  - left. split; [|eauto]. cbn in R. apply eq_IZR. auto.
  - right. cbn [B2R] in R. assert (F2R (Float radix2 (cond_Zopp s (Z.pos m)) e) = IZR n) as R' by exact R.
    destruct s.
    + exfalso. pose proof (F2R_lt_0 radix2 (Float radix2 (cond_Zopp true (Z.pos m)) e) ltac:(cbn; lia)) as L. rewrite R' in L. apply lt_IZR in L. lia.
    + pose proof (F2R_gt_0 radix2 (Float radix2 (cond_Zopp false (Z.pos m)) e) ltac:(cbn; lia)) as L. rewrite R' in L. apply lt_IZR in L. split; [lia|eauto].
Qed.

Lemma fma_stands x y z a b c : stands x a -> stands y b -> stands z c -> stands (mul_add x y z) (b64_fma BinarySingleNaN.mode_NE a b c).
Proof.
  intros X Y Z. assert (forall s, Binary.is_nan 53 1024 s = true -> exists g pl E, s = B754_nan 53 1024 g pl E) as NN.
  { intros s H. destruct s; try discriminate H. eauto. }
  destruct x as [n| |].
  - destruct y as [p| |].
    + destruct z as [q| |].
      * destruct X as (X1 & X2 & X3), Y as (Y1 & Y2 & Y3), Z as (Z1 & Z2 & Z3).
        replace (mul_add (Fin n) (Fin p) (Fin q)) with (round64 (n * p + q)) by (unfold mul_add; destruct n, p; reflexivity).
        assert (0 <= n * p + q) as Hv by nia. pose proof (round_pos _ Hv) as R0.
        pose proof (Bfma_correct 53 1024 eq_refl eq_refl ternop_nan_pl64 BinarySingleNaN.mode_NE a b c X2 Y2 Z2) as C. cbv zeta in C.
        change (Bfma 53 1024 eq_refl eq_refl ternop_nan_pl64 BinarySingleNaN.mode_NE a b c) with (b64_fma BinarySingleNaN.mode_NE a b c) in C.
        set (y := b64_fma BinarySingleNaN.mode_NE a b c) in *. clearbody y.
        rewrite X3, Y3, Z3, <- mult_IZR, <- plus_IZR in C. cbn [BinarySingleNaN.round_mode] in C. rewrite round_real, <- abs_IZR, limit_real in C by exact Hv.
        rewrite (Z.abs_eq (round53 _)) in C by exact R0. unfold round64. destruct (Z.ltb_spec (round53 (n * p + q)) (2 ^ 1024)) as [L|L].
        -- rewrite Rlt_bool_true in C by (apply IZR_lt; exact L). destruct C as (C1 & C2 & _). cbn [stands]. auto.
        -- rewrite Rlt_bool_false in C by (apply IZR_le; exact L). rewrite Rlt_bool_false in C by (apply IZR_le; exact Hv).
           cbn [stands]. apply B2FF_inj. rewrite C. reflexivity.
      * cbn [stands] in Z. subst c. destruct (fin_cases _ _ X) as [(-> & s & ->)|(N & m1 & e1 & E1 & ->)];
        destruct (fin_cases _ _ Y) as [(-> & t & ->)|(P & m2 & e2 & E2 & ->)]; unfold mul_add; try destruct n; try destruct p; try lia; reflexivity.
      * destruct (NN _ Z) as (g & pl & E & ->). destruct (fin_cases _ _ X) as [(-> & s & ->)|(N & m1 & e1 & E1 & ->)];
        destruct (fin_cases _ _ Y) as [(-> & t & ->)|(P & m2 & e2 & E2 & ->)]; unfold mul_add; try destruct n; try destruct p; try lia; reflexivity.
    + cbn [stands] in Y. subst b. destruct (fin_cases _ _ X) as [(-> & s & ->)|(N & m1 & e1 & E1 & ->)].
      * destruct c; reflexivity.
      * destruct n; try lia. destruct z as [q| |]; cbn [mul_add].
        -- destruct (fin_cases _ _ Z) as [(-> & t & ->)|(P & m2 & e2 & E2 & ->)]; reflexivity.
        -- cbn [stands] in Z. subst c. reflexivity.
        -- destruct (NN _ Z) as (g & pl & E & ->). reflexivity.
    + destruct (NN _ Y) as (g & pl & E & ->). destruct (fin_cases _ _ X) as [(-> & s & ->)|(N & m1 & e1 & E1 & ->)]; try destruct n; destruct c; try reflexivity; lia.
  - cbn [stands] in X. subst a. destruct y as [p| |].
    + destruct (fin_cases _ _ Y) as [(-> & s & ->)|(N & m1 & e1 & E1 & ->)].
      * destruct c; reflexivity.
      * destruct p; try lia. destruct z as [q| |]; cbn [mul_add].
        -- destruct (fin_cases _ _ Z) as [(-> & t & ->)|(P & m2 & e2 & E2 & ->)]; reflexivity.
        -- cbn [stands] in Z. subst c. reflexivity.
        -- destruct (NN _ Z) as (g & pl & E & ->). reflexivity.
    + cbn [stands] in Y. subst b. destruct z as [q| |]; cbn [mul_add].
      * destruct (fin_cases _ _ Z) as [(-> & t & ->)|(P & m2 & e2 & E2 & ->)]; reflexivity.
      * cbn [stands] in Z. subst c. reflexivity.
      * destruct (NN _ Z) as (g & pl & E & ->). reflexivity.
    + destruct (NN _ Y) as (g & pl & E & ->). destruct c; reflexivity.
  - destruct (NN _ X) as (g & pl & E & ->). destruct b, c; reflexivity.
Qed.

Lemma powi_round i : powi usize_max_f64 i = round64 (2 ^ (64 * Z.of_nat i)).
Proof. rewrite usize_max_val. cbn [powi]. rewrite <- Z.pow_mul_r by lia. reflexivity. Qed.

Lemma fold_stands : forall l i acc b, wf 64 l -> Z.of_nat (i + length l) <= 2 ^ 31 -> stands acc b ->
  exists r, approx_loop l i acc = Some r /\ stands r (fma_fold l (Z.of_nat i) b).
Proof.
  induction l as [|v l IH]; intros i acc b Hw Hl Hs; cbn [approx_loop fma_fold length] in *; [eauto|].
  inversion Hw as [|? ? Hv Hw']; subst. rewrite (proj2 (Z.ltb_lt _ _)) by lia.
  destruct (IH (S i) (mul_add (as_f64 v) (powi usize_max_f64 i) acc)
             (b64_fma BinarySingleNaN.mode_NE (nearest v) (nearest (2 ^ (64 * Z.of_nat i))) b) Hw' ltac:(lia)) as (r & E & R).
  - apply fma_stands; auto; [apply nearest_stands; lia|]. rewrite powi_round. apply nearest_stands. apply Z.pow_nonneg. lia.
  - exists r. split; auto. replace (Z.of_nat i + 1) with (Z.of_nat (S i)) by lia. exact R.
Qed.

(** The limbs of a number, least significant first; zero has one. *)
Definition limbs (x : Z) : list Z := map (fun i => limb (Z.of_nat i) x) (seq 0 (Z.to_nat (Z.log2 x / 64 + 1))).

Lemma limbs_of l : wf 64 l -> canonical l -> limbs (val 64 l) = l.
Proof.
  intros Hw Hc. unfold limbs. rewrite <- (canonical_len l Hw Hc), Nat2Z.id.
  apply nth_ext with (d := 0) (d' := 0); rewrite map_length, seq_length; auto. intros i Hi.
  set (g := fun i : nat => limb (Z.of_nat i) (val 64 l)).
  rewrite nth_indep with (d' := g 0%nat) by (rewrite map_length, seq_length; exact Hi).
  rewrite map_nth, seq_nth by exact Hi. cbn [Nat.add]. unfold g, limb. replace (2 ^ (64 * Z.of_nat i)) with (cap 64 i).
  2:{ rewrite cap_bits. f_equal. lia. }
  rewrite <- val_skipn by (auto; lia). rewrite <- (Nat.add_0_r i) at 2. rewrite <- nth_skip.
  destruct (skipn i l) as [|v t] eqn:E.
  - pose proof (skipn_length i l) as Hs. rewrite E in Hs. cbn in Hs. lia.
  - cbn [nth]. change (2 ^ 64) with (base 64). apply val_mod_base.
    assert (wf 64 (v :: t)) as H by (rewrite <- E; apply wf_skipn; auto). inversion H; auto.
Qed.

(** What comes out is what the same operations give in Flocq's binary64: each limb and each power of [2^64] rounded to nearest, one
    fused multiply-add for each limb. *)
Theorem C106_doubles_partial : forall P st hs a x,
  consistent P st hs -> is_int st hs a x -> Z.log2 (Z.abs x) < 64 * 2 ^ 31 ->
  exists r, bi_approx_float st a = Ok r /\ stands r (fma_fold (limbs (Z.abs x)) 0 (B754_zero 53 1024 false)).
Proof.
  intros P st hs a x Hc (Ia & Da) Hx.
  destruct (info P st hs a x Hc Ia Da) as (l & Hl & Hw & Hcan & Hlen & Hv & _).
  unfold bi_approx_float. rewrite (proj1 Hl). cbn [bind]. rewrite <- Hv in *. rewrite limbs_of by auto.
  pose proof (canonical_len l Hw Hcan) as El.
  assert (Z.log2 (val 64 l) / 64 < 2 ^ 31) by (apply Z.div_lt_upper_bound; lia).
  destruct (fold_stands l 0 (Fin 0) (B754_zero 53 1024 false) Hw ltac:(cbn [Nat.add]; lia)) as (r & E & R).
  { cbn [stands]. split; [lia|]. split; reflexivity. }
  exists r. unfold approx_limbs. rewrite E. split; auto.
Qed.
Print Assumptions C106_doubles_partial.

(** 2^64 + 1, two limbs. *)
Example C106_doubles_demo : exists e st p h,
  run false [From U128 (2 ^ 64 + 1)] [] interner_new 0 = Ok (e, st, p) /\ nth_error e 0 = Some (Some h) /\
  consistent (Z.of_nat p + 8) st (handles e) /\ is_int st (handles e) h (2 ^ 64 + 1) /\
  limbs (2 ^ 64 + 1) = [1; 1] /\ stands (Fin (2 ^ 64)) (fma_fold [1; 1] 0 (B754_zero 53 1024 false)).
Proof.
  do 4 eexists. split; [vm_compute; reflexivity|]. split; [reflexivity|].
  match goal with |- consistent _ ?st (handles ?e) /\ _ =>
    destruct (run_from_start false [From U128 (2 ^ 64 + 1)] e st 1) as [C D]; [vm_compute; reflexivity|vm_compute; reflexivity|] end.
  split; [exact C|]. split; [split; [vm_compute; tauto|eexists; split; vm_compute; reflexivity]|]. split; [vm_compute; reflexivity|].
  destruct (fold_stands [1; 1] 0 (Fin 0) (B754_zero 53 1024 false)) as (r & E & R).
  { repeat constructor; cbn; lia. } { cbn; lia. } { cbn [stands]. split; [lia|]. split; reflexivity. }
  replace (Fin (2 ^ 64)) with r; [exact R|]. vm_compute in E. injection E as <-. reflexivity.
Qed.
