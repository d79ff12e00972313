(** Rounding errors of single float operations and of sums of products. *)
From Coq Require Import ZArith Reals List Bool Lia Lra Psatz.
From Flocq Require Import Core BinarySingleNaN Relative Plus_error.
From Verif Require Import Base StaticIterModel VectorModel MatrixModel IeeeModel IeeeSpec.
Import ListNotations.
Local Open Scope R_scope.

Section Format.
Context {prec emax : Z} {Hp : Prec_gt_0 prec} {Hm : Prec_lt_emax prec emax}.
Notation float := (binary_float prec emax).
Notation u := (unit_roundoff prec).
Notation eta := (half_smallest prec emax).

Lemma u_bpow : u = bpow radix2 (- prec).
Proof. unfold unit_roundoff. rewrite bpow_powerRZ. reflexivity. Qed.
Lemma eta_bpow : eta = bpow radix2 (2 - emax - prec).
Proof. unfold half_smallest. rewrite bpow_powerRZ. reflexivity. Qed.
Lemma normal_bpow : smallest_normal emax = bpow radix2 (2 - emax).
Proof. unfold smallest_normal. rewrite bpow_powerRZ. reflexivity. Qed.
Lemma u_pos : 0 < u.
Proof. rewrite u_bpow. apply bpow_gt_0. Qed.
Lemma u_half : u <= / 2.
Proof. rewrite u_bpow. change (/ 2) with (bpow radix2 (-1)). apply bpow_le. unfold Prec_gt_0 in Hp. lia. Qed.
Lemma eta_pos : 0 < eta.
Proof. rewrite eta_bpow. apply bpow_gt_0. Qed.

Lemma fexp_flt : forall e, SpecFloat.fexp prec emax e = FLT_exp (3 - emax - prec) prec e.
Proof. reflexivity. Qed.

Notation rnd := (round radix2 (SpecFloat.fexp prec emax) ZnearestE).

Lemma half_bpow e : / 2 * bpow radix2 e = bpow radix2 (e - 1).
Proof. change (/ 2) with (bpow radix2 (-1)). rewrite <- bpow_plus. f_equal. lia. Qed.

Lemma round_err x : exists e h, Rabs e <= u /\ Rabs h <= eta /\ rnd x = x * (1 + e) + h.
Proof.
  destruct (error_N_FLT radix2 (3 - emax - prec) prec Hp (fun n => negb (Z.even n)) x) as (e & h & He & Hh & _ & E).
  exists e, h. rewrite half_bpow in He, Hh. rewrite u_bpow, eta_bpow. split; [|split].
  - replace (- prec)%Z with (- prec + 1 - 1)%Z by lia. exact He.
  - replace (2 - emax - prec)%Z with (3 - emax - prec - 1)%Z by lia. exact Hh.
  - exact E.
Qed.

Lemma round_err_normal x : zero_or_normal emax x -> exists e, Rabs e <= u /\ rnd x = x * (1 + e).
Proof.
  intros [->|H].
  { exists 0. rewrite Rabs_R0. split; [left; apply u_pos|]. rewrite round_0 by apply valid_rnd_N. lra. }
  destruct (relative_error_N_FLT_ex radix2 (3 - emax - prec) prec Hp (fun n => negb (Z.even n)) x) as (e & He & E).
  { rewrite normal_bpow in H. replace (3 - emax - prec + prec - 1)%Z with (2 - emax)%Z by lia. exact H. }
  exists e. rewrite half_bpow in He. rewrite u_bpow. split; [|exact E].
  replace (- prec)%Z with (- prec + 1 - 1)%Z by lia. exact He.
Qed.

Lemma plus_err x y : generic_format radix2 (SpecFloat.fexp prec emax) x -> generic_format radix2 (SpecFloat.fexp prec emax) y ->
  exists e, Rabs e <= u /\ rnd (x + y) = (x + y) * (1 + e).
Proof.
  intros Fx Fy. destruct (FLT_plus_error_N_ex radix2 (3 - emax - prec) prec (fun n => negb (Z.even n)) x y Fx Fy) as (e & He & E).
  exists e. split; [|exact E]. eapply Rle_trans; [exact He|].
  assert (u_ro radix2 prec = u) as ->.
  { unfold u_ro. rewrite half_bpow, u_bpow. f_equal. lia. }
  pose proof u_pos. apply Rmult_le_reg_r with (1 + u); [lra|]. unfold Rdiv. rewrite Rmult_assoc, Rinv_l by lra. nra.
Qed.

Lemma overflow_not_finite (x : float) s : B2SF x = binary_overflow prec emax mode_NE s -> ~ finite x.
Proof. intros E. unfold finite. destruct x; cbn in *; discriminate. Qed.

Lemma add_ok (x y : float) : finite (f_add x y) -> finite x /\ finite y /\
  exists e, Rabs e <= u /\ value (f_add x y) = (value x + value y) * (1 + e).
Proof.
  intros F. assert (finite x /\ finite y) as [Fx Fy].
  { unfold finite, f_add in *. destruct x as [|[]| |], y as [|[]| |]; cbn in *; auto; discriminate. }
  split; auto. split; auto. unfold finite, f_add in *. pose proof (Bplus_correct prec emax Hp Hm mode_NE x y Fx Fy) as C.
  destruct Rlt_bool; [|destruct C as [C _]; elim (overflow_not_finite _ _ C); exact F].
  destruct C as [C _]. unfold value. rewrite C. apply plus_err; apply generic_format_B2R.
Qed.

Lemma sub_ok (x y : float) : finite (f_sub x y) -> finite x /\ finite y /\
  exists e, Rabs e <= u /\ value (f_sub x y) = (value x - value y) * (1 + e).
Proof.
  intros F. assert (finite x /\ finite y) as [Fx Fy].
  { unfold finite, f_sub in *. destruct x as [|[]| |], y as [|[]| |]; cbn in *; auto; discriminate. }
  split; auto. split; auto. unfold finite, f_sub in *. pose proof (Bminus_correct prec emax Hp Hm mode_NE x y Fx Fy) as C.
  destruct Rlt_bool; [|destruct C as [C _]; elim (overflow_not_finite _ _ C); exact F].
  destruct C as [C _]. unfold value. rewrite C. apply plus_err; [|apply generic_format_opp]; apply generic_format_B2R.
Qed.

Lemma mul_val (x y : float) : finite (f_mul x y) -> finite x /\ finite y /\ value (f_mul x y) = rnd (value x * value y).
Proof.
  unfold finite, f_mul, value. intros F. pose proof (Bmult_correct prec emax Hp Hm mode_NE x y) as C.
  destruct Rlt_bool; [|elim (overflow_not_finite _ _ C); exact F].
  destruct C as [C [D _]]. rewrite F in D. symmetry in D. apply andb_prop in D. tauto.
Qed.

Lemma mul_ok (x y : float) : finite (f_mul x y) -> finite x /\ finite y /\
  exists e h, Rabs e <= u /\ Rabs h <= eta /\ value (f_mul x y) = value x * value y * (1 + e) + h.
Proof. intros F. destruct (mul_val x y F) as (Fx & Fy & E). split; auto. split; auto. rewrite E. apply round_err. Qed.

Lemma mul_ok_normal (x y : float) : finite (f_mul x y) -> zero_or_normal emax (value x * value y) ->
  exists e, Rabs e <= u /\ value (f_mul x y) = value x * value y * (1 + e).
Proof. intros F N. destruct (mul_val x y F) as (Fx & Fy & E). rewrite E. apply round_err_normal. exact N. Qed.

Lemma div_ok_normal (x y : float) : value y <> 0 -> finite (f_div x y) -> zero_or_normal emax (value x / value y) ->
  finite x /\ exists e, Rabs e <= u /\ value (f_div x y) = value x / value y * (1 + e).
Proof.
  unfold finite, f_div, value. intros Y F N. pose proof (Bdiv_correct prec emax Hp Hm mode_NE x y Y) as C.
  destruct Rlt_bool; [|elim (overflow_not_finite _ _ C); exact F].
  destruct C as [C [D _]]. split; [congruence|]. rewrite C. apply round_err_normal. exact N.
Qed.

(** Adding a product: one step of a dot product. *)
Lemma step_bound k acc S T p e1 h e2 : 0 <= T -> Rabs S <= T -> Rabs e1 <= u -> Rabs h <= eta -> Rabs e2 <= u -> (1 <= k)%nat ->
  Rabs (acc - S) <= ((1 + u) ^ k - 1) * T + INR k * (1 + u) ^ k * eta ->
  Rabs ((acc + (p * (1 + e1) + h)) * (1 + e2) - (S + p))
    <= ((1 + u) ^ (Datatypes.S k) - 1) * (T + Rabs p) + INR (Datatypes.S k) * (1 + u) ^ (Datatypes.S k) * eta.
Proof.
  intros HT HS H1 Hh H2 Hk HA. pose proof u_pos as U. pose proof eta_pos as E.
  set (A := ((1 + u) ^ k - 1) * T + INR k * (1 + u) ^ k * eta) in *.
  assert (Rabs (p * e1 + h) <= u * Rabs p + eta) as P.
  { eapply Rle_trans; [apply Rabs_triang|]. rewrite Rabs_mult. pose proof (Rabs_pos p). nra. }
  replace ((acc + (p * (1 + e1) + h)) * (1 + e2) - (S + p)) with ((acc - S) * (1 + e2) + (p * e1 + h) * (1 + e2) + (S + p) * e2) by ring.
  assert (Rabs (1 + e2) <= 1 + u) as Q.
  { eapply Rle_trans; [apply Rabs_triang|]. rewrite Rabs_R1. lra. }
  assert (Rabs (S + p) <= T + Rabs p) as W.
  { eapply Rle_trans; [apply Rabs_triang|]. lra. }
  assert (Rabs ((acc - S) * (1 + e2) + (p * e1 + h) * (1 + e2) + (S + p) * e2) <= A * (1 + u) + (u * Rabs p + eta) * (1 + u) + (T + Rabs p) * u) as B.
  { eapply Rle_trans; [apply Rabs_triang|]. apply Rplus_le_compat.
    - eapply Rle_trans; [apply Rabs_triang|]. apply Rplus_le_compat; rewrite Rabs_mult; apply Rmult_le_compat; auto using Rabs_pos.
    - rewrite Rabs_mult. apply Rmult_le_compat; auto using Rabs_pos. }
  eapply Rle_trans; [exact B|]. unfold A. rewrite S_INR. rewrite <- tech_pow_Rmult. set (X := (1 + u) ^ k).
  assert (1 + u <= X) as HX.
  { unfold X. destruct k as [|k]; [lia|]. rewrite <- tech_pow_Rmult. assert (1 <= (1 + u) ^ k) by (apply pow_R1_Rle; lra). nra. }
  pose proof (Rabs_pos p) as P0. pose proof (pos_INR k) as K0. clear - U E HX P0 K0 HT.
  generalize dependent X. intros X HX. revert U E P0 K0 HT HX. generalize u eta (Rabs p) (INR k). clear.
  intros v h P K U E P0 K0 HT HX.
  assert (0 <= (X - 1) * ((1 + v) * h)) as A1 by (apply Rmult_le_pos; [lra|apply Rmult_le_pos; lra]).
  assert (0 <= (X - (1 + v)) * ((1 + v) * P)) as A2 by (apply Rmult_le_pos; [lra|apply Rmult_le_pos; lra]).
  lra.
Qed.

Lemma total_magnitudes l : Rabs (total l) <= total (magnitudes l) /\ 0 <= total (magnitudes l).
Proof.
  unfold magnitudes. induction l as [|x l [IH1 IH2]]; cbn; [rewrite Rabs_R0; lra|]. pose proof (Rabs_pos x).
  split; [|lra]. eapply Rle_trans; [apply Rabs_triang|]. lra.
Qed.

Notation dot_bound := (error_bound prec emax).

Lemma total_app l m : total (l ++ m) = total l + total m.
Proof. induction l; cbn; lra. Qed.

(** The running sum of a dot product after at least one term. *)
Lemma zip_fold_bound : forall (a b : list float) acc r ps, length a = length b -> finite r -> ps <> [] ->
  zip_fold (fun x y => Ret (f_add x y)) (fun x y => Ret (f_mul x y)) a b acc = Ret r ->
  (finite acc -> Rabs (value acc - total ps) <= dot_bound (length ps) ps) ->
  finite acc /\ Forall finite a /\ Forall finite b /\
  Rabs (value r - total (ps ++ products (map value a) (map value b)))
    <= dot_bound (length ps + length a) (ps ++ products (map value a) (map value b)).
Proof.
  induction a as [|x a IH]; intros [|y b] acc r ps L F N E H; cbn [zip_fold obind] in E; try discriminate.
  - injection E as ->. cbn. rewrite app_nil_r, Nat.add_0_r. auto.
  - cbn in L. destruct (IH b (f_add acc (f_mul x y)) r (ps ++ [value x * value y])) as (Fa & Aa & Ab & B); auto.
    + destruct ps; discriminate.
    + intros Fs. destruct (add_ok _ _ Fs) as (Facc & Fm & e2 & He2 & ->). destruct (mul_ok _ _ Fm) as (_ & _ & e1 & h & He1 & Hh & ->).
      rewrite app_length. cbn [length]. rewrite Nat.add_1_r. unfold error_bound, magnitudes. rewrite map_app, !total_app. cbn [map total].
      rewrite !Rplus_0_r. apply step_bound; auto; try apply total_magnitudes.
      destruct ps; [congruence|cbn; lia].
    + destruct (add_ok _ _ Fa) as (Facc & Fm & _). destruct (mul_ok _ _ Fm) as (Fx & Fy & _).
      split; auto. split; [constructor; auto|]. split; [constructor; auto|].
      cbn [map products combine fst snd]. unfold products in *. cbn [combine map fst snd].
      rewrite <- app_assoc in B. cbn [app] in B. rewrite app_length in B. cbn [length] in B.
      replace (length ps + length (x :: a))%nat with (length ps + 1 + length a)%nat by (cbn; lia). exact B.
Qed.

Lemma zip_fold_ret : forall (a b : list float) acc, exists r, zip_fold (fun x y => Ret (f_add x y)) (fun x y : float => Ret (f_mul x y)) a b acc = Ret r.
Proof. induction a as [|x a IH]; intros [|y b] acc; cbn; eauto. Qed.

(** A product of two floats. *)
Lemma first_bound (x y : float) : finite (f_mul x y) -> Rabs (value (f_mul x y) - total [value x * value y]) <= dot_bound 1 [value x * value y].
Proof.
  intros F. destruct (mul_ok _ _ F) as (_ & _ & e & h & He & Hh & ->). unfold error_bound. cbn [total magnitudes map INR pow].
  replace (value x * value y * (1 + e) + h - (value x * value y + 0)) with (value x * value y * e + h) by ring.
  eapply Rle_trans; [apply Rabs_triang|]. rewrite (Rabs_mult _ e). pose proof (Rabs_pos (value x * value y)). pose proof u_pos. pose proof eta_pos.
  assert (Rabs (value x * value y) * Rabs e <= Rabs (value x * value y) * u) by nra. nra.
Qed.

Lemma add_zero_l (x : float) : finite x -> value (f_add f_zero x) = value x /\ finite (f_add f_zero x).
Proof. unfold finite, value, f_add, f_zero. destruct x as [[]|[]| |]; cbn; auto; discriminate. Qed.

Lemma dot_finite (a b : list float) r : length a = length b -> f_dot a b = Ret r -> finite r ->
  Forall finite a /\ Forall finite b /\
  Rabs (value r - total (products (map value a) (map value b))) <= dot_bound (length a) (products (map value a) (map value b)).
Proof.
  unfold f_dot, dot_product. intros L E F. destruct a as [|x a], b as [|y b]; try discriminate; cbn [zip_fold obind] in E.
  - injection E as <-. unfold products, error_bound. cbn. split; [constructor|split; [constructor|]]. rewrite Rminus_0_r, Rabs_R0. lra.
  - cbn in L. destruct (zip_fold_bound a b _ r [value x * value y] ltac:(lia) F ltac:(discriminate) E) as (F0 & Fa & Fb & B).
    { intros F0. destruct (add_ok _ _ F0) as (_ & Fm & _). destruct (add_zero_l _ Fm) as [-> _]. apply first_bound. exact Fm. }
    destruct (add_ok _ _ F0) as (_ & Fm & _). destruct (mul_ok _ _ Fm) as (Fx & Fy & _).
    split; [constructor; auto|]. split; [constructor; auto|]. exact B.
Qed.

(** *** Sums *)

Lemma fold_add_bound : forall l (acc r : float) xs k, finite r -> fold_left f_add l acc = r ->
  (finite acc -> Rabs (value acc - total xs) <= ((1 + u) ^ k - 1) * total (magnitudes xs)) ->
  finite acc /\ Forall finite l /\
  Rabs (value r - total (xs ++ map value l)) <= ((1 + u) ^ (k + length l) - 1) * total (magnitudes (xs ++ map value l)).
Proof.
  induction l as [|x l IH]; intros acc r xs k F E H; cbn [fold_left] in E.
  - subst r. cbn. rewrite app_nil_r, Nat.add_0_r. auto.
  - destruct (IH (f_add acc x) r (xs ++ [value x]) (S k)) as (Fa & Fl & B); auto.
    + intros Fs. destruct (add_ok _ _ Fs) as (Facc & Fx & e & He & ->). unfold magnitudes in *. rewrite map_app, !total_app. cbn [map total].
      rewrite !Rplus_0_r. specialize (H Facc). destruct (total_magnitudes xs) as [HS HT]. unfold magnitudes in HS, HT.
      set (T := total (map Rabs xs)) in *. set (S' := total xs) in *. pose proof u_pos as U. pose proof (Rabs_pos (value x)) as P0.
      replace ((value acc + value x) * (1 + e) - (S' + value x)) with ((value acc - S') * (1 + e) + (S' + value x) * e) by ring.
      assert (Rabs (1 + e) <= 1 + u) as Q by (eapply Rle_trans; [apply Rabs_triang|]; rewrite Rabs_R1; lra).
      assert (Rabs (S' + value x) <= T + Rabs (value x)) as W by (eapply Rle_trans; [apply Rabs_triang|]; lra).
      eapply Rle_trans; [apply Rabs_triang|]. rewrite !Rabs_mult.
      assert (1 <= (1 + u) ^ k) as HX by (apply pow_R1_Rle; lra).
      eapply Rle_trans; [apply Rplus_le_compat; apply Rmult_le_compat; try apply Rabs_pos; [exact H|exact Q|exact W|exact He]|].
      rewrite <- tech_pow_Rmult. revert HX U HT P0. generalize ((1 + u) ^ k). generalize u T (Rabs (value x)). clear. intros v T P X HX U HT P0.
      assert (0 <= (X - 1) * ((1 + v) * P)) by (apply Rmult_le_pos; [lra|apply Rmult_le_pos; lra]). lra.
    + destruct (add_ok _ _ Fa) as (Facc & Fx & _). split; auto. split; [constructor; auto|].
      rewrite <- app_assoc in B. cbn [app map] in B. replace (S k + length l)%nat with (k + length (x :: l))%nat in B by (cbn; lia). exact B.
Qed.

Lemma sum_finite l (r : float) : fold_left f_add l f_zero = r -> finite r ->
  Forall finite l /\ Rabs (value r - total (map value l)) <= ((1 + u) ^ (length l - 1) - 1) * total (magnitudes (map value l)).
Proof.
  intros E F. destruct l as [|x l]; cbn [fold_left] in E.
  - subst r. cbn. split; auto. rewrite Rminus_0_r, Rabs_R0. lra.
  - destruct (fold_add_bound l (f_add f_zero x) r [value x] 0 F E) as (F0 & Fl & B).
    + intros F0. destruct (add_ok _ _ F0) as (_ & Fx & _). destruct (add_zero_l x Fx) as [-> _]. cbn.
      replace (value x - (value x + 0)) with 0 by ring. rewrite Rabs_R0. lra.
    + destruct (add_ok _ _ F0) as (_ & Fx & _). split; [constructor; auto|]. replace (length (x :: l) - 1)%nat with (0 + length l)%nat by (cbn; lia). exact B.
Qed.

(** *** Sums and differences of two products *)

Lemma two_products_add (a b c d : float) : finite (f_add (f_mul a b) (f_mul c d)) ->
  (finite a /\ finite b /\ finite c /\ finite d) /\
  Rabs (value (f_add (f_mul a b) (f_mul c d)) - (value a * value b + value c * value d))
    <= dot_bound 2 [value a * value b; value c * value d].
Proof.
  intros F. destruct (add_ok _ _ F) as (F1 & F2 & e & He & E). destruct (mul_ok _ _ F1) as (Fa & Fb & _), (mul_ok _ _ F2) as (Fc & Fd & e2 & h2 & He2 & Hh2 & E2).
  split; auto. rewrite E, E2. pose proof (first_bound a b F1) as B. cbn [total] in B.
  pose proof (step_bound 1 (value (f_mul a b)) (value a * value b + 0) (Rabs (value a * value b) + 0) (value c * value d) e2 h2 e) as S.
  unfold error_bound in *. cbn [magnitudes map total length] in *. 
  rewrite !Rplus_0_r in *. apply S; auto; try lra. apply Rabs_pos.
Qed.

Lemma two_products_sub (a b c d : float) : finite (f_sub (f_mul a b) (f_mul c d)) ->
  (finite a /\ finite b /\ finite c /\ finite d) /\
  Rabs (value (f_sub (f_mul a b) (f_mul c d)) - (value a * value b - value c * value d))
    <= dot_bound 2 [value a * value b; value c * value d].
Proof.
  intros F. destruct (sub_ok _ _ F) as (F1 & F2 & e & He & E). destruct (mul_ok _ _ F1) as (Fa & Fb & _), (mul_ok _ _ F2) as (Fc & Fd & e2 & h2 & He2 & Hh2 & E2).
  split; auto. rewrite E, E2. pose proof (first_bound a b F1) as B. cbn [total] in B.
  pose proof (step_bound 1 (value (f_mul a b)) (value a * value b + 0) (Rabs (value a * value b) + 0) (- (value c * value d)) e2 (- h2) e) as S.
  unfold error_bound in *. cbn [magnitudes map total length] in *. rewrite !Rabs_Ropp in S.
  rewrite !Rplus_0_r in *.
  replace (value (f_mul a b) + (- (value c * value d) * (1 + e2) + - h2)) with (value (f_mul a b) - (value c * value d * (1 + e2) + h2)) in S by ring.
  replace (value a * value b + - (value c * value d)) with (value a * value b - value c * value d) in S by ring.
  apply S; auto; try lra. apply Rabs_pos.
Qed.
End Format.
