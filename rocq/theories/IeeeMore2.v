(** Float sums and products that stay in range. *)
From Coq Require Import ZArith Reals List Bool Lia Lra Psatz.
From Flocq Require Import Core BinarySingleNaN.
From Verif Require Import Base StaticIterModel VectorModel MatrixModel IeeeModel IeeeSpec IeeeProofs IeeeMore.
Import ListNotations.
Local Open Scope R_scope.

Section Format.
Context {prec emax : Z} {Hp : Prec_gt_0 prec} {Hm : Prec_lt_emax prec emax}.
Notation float := (binary_float prec emax).
Notation u := (unit_roundoff prec).
Notation eta := (half_smallest prec emax).
Notation rnd := (round radix2 (SpecFloat.fexp prec emax) ZnearestE).
Notation top := (powerRZ 2 emax).

Lemma top_bpow : top = bpow radix2 emax.
Proof. rewrite bpow_powerRZ. reflexivity. Qed.

Lemma mul_in_range (x y : float) : finite x -> finite y -> Rabs (rnd (value x * value y)) < top ->
  finite (f_mul x y) /\ value (f_mul x y) = rnd (value x * value y).
Proof.
  unfold finite, f_mul, value. intros Fx Fy H. pose proof (Bmult_correct prec emax Hp Hm mode_NE x y) as C.
  rewrite Rlt_bool_true in C by (rewrite <- top_bpow; exact H). destruct C as (C & D & _). rewrite D, Fx, Fy. split; auto.
Qed.

Lemma add_in_range (x y : float) : finite x -> finite y -> Rabs (rnd (value x + value y)) < top ->
  finite (f_add x y) /\ value (f_add x y) = rnd (value x + value y).
Proof.
  unfold finite, f_add, value. intros Fx Fy H. pose proof (Bplus_correct prec emax Hp Hm mode_NE x y Fx Fy) as C.
  rewrite Rlt_bool_true in C by (rewrite <- top_bpow; exact H). destruct C as (C & D & _). split; auto.
Qed.

Notation dot_bound := (error_bound prec emax).
Notation mags l := (total (magnitudes l)).
(** What a computed sum of products can be at most. *)
Definition reach (k : nat) (ps : list R) : R := mags ps + dot_bound k ps.

Lemma reach_eq k ps : reach k ps = (1 + u) ^ k * mags ps + INR k * (1 + u) ^ k * eta.
Proof. unfold reach, error_bound. ring. Qed.

Lemma mags_app l m : mags (l ++ m) = mags l + mags m.
Proof. unfold magnitudes. rewrite map_app. apply total_app. Qed.
Lemma mags_pos l : 0 <= mags l.
Proof. apply total_magnitudes. Qed.

Lemma reach_mono k j ps qs : reach k ps <= reach (k + j) (ps ++ qs).
Proof.
  rewrite !reach_eq, mags_app, pow_add, plus_INR. pose proof (mags_pos ps). pose proof (mags_pos qs). pose proof (@u_pos prec). pose proof (@eta_pos prec emax).
  pose proof (pos_INR k). pose proof (pos_INR j).
  assert (1 <= (1 + u) ^ k) as A by (apply pow_R1_Rle; lra). assert (1 <= (1 + u) ^ j) as B by (apply pow_R1_Rle; lra).
  revert A B. generalize ((1 + u) ^ k) ((1 + u) ^ j). intros X Y A B. apply Rplus_le_compat.
  - assert (X <= X * Y) by nra. assert (X * mags ps <= X * Y * mags ps) by (apply Rmult_le_compat_r; auto).
    assert (0 <= X * Y * mags qs) by (apply Rmult_le_pos; auto; nra). lra.
  - assert (X <= X * Y) by nra. assert (INR k * X <= (INR k + INR j) * (X * Y)) by (apply Rmult_le_compat; nra).
    apply Rmult_le_compat_r; lra.
Qed.

Lemma close_bound r k ps : Rabs (r - total ps) <= dot_bound k ps -> Rabs r <= reach k ps.
Proof.
  intros H. destruct (total_magnitudes ps) as [T _]. unfold reach. replace r with ((r - total ps) + total ps) by ring.
  eapply Rle_trans; [apply Rabs_triang|]. lra.
Qed.

Lemma product_in_range (x y : float) : finite x -> finite y -> reach 1 [value x * value y] < top ->
  finite (f_mul x y).
Proof.
  intros Fx Fy H. apply mul_in_range; auto. eapply Rle_lt_trans; [|exact H].
  destruct (@round_err _ emax Hp (value x * value y)) as (e & h & He & Hh & ->). rewrite reach_eq. cbn [magnitudes map total pow INR].
  eapply Rle_trans; [apply Rabs_triang|]. rewrite Rabs_mult. pose proof (Rabs_pos (value x * value y)). pose proof (@u_pos prec). pose proof (@eta_pos prec emax).
  assert (Rabs (1 + e) <= 1 + u) by (eapply Rle_trans; [apply Rabs_triang|]; rewrite Rabs_R1; lra). nra.
Qed.

Lemma reach_one_le p ps k : (1 <= k)%nat -> reach 1 [p] <= reach (k + 1) (ps ++ [p]).
Proof.
  intros _. rewrite !reach_eq, mags_app, plus_INR, pow_add. change (mags [p]) with (Rabs p + 0). cbn [INR pow].
  pose proof (mags_pos ps) as M. pose proof (@u_pos prec). pose proof (@eta_pos prec emax). pose proof (pos_INR k). pose proof (Rabs_pos p).
  assert (1 <= (1 + u) ^ k) as A by (apply pow_R1_Rle; lra). revert A. generalize ((1 + u) ^ k). intros X A.
  assert (0 <= (X - 1) * (1 + u)) as Y by (apply Rmult_le_pos; lra). rewrite !Rmult_1_r. revert Y M. generalize (mags ps). intros T Y M.
  repeat match goal with H : _ <= _ |- _ => revert H | H : _ < _ |- _ => revert H end. generalize u eta (Rabs p) (INR k).
  intros v h P K. intros. replace (1 * (1 + v) * h) with ((1 + v) * h) by ring.
  apply Rplus_le_compat.
  - apply Rmult_le_compat; lra.
  - apply Rmult_le_compat_r; [lra|]. assert (0 <= K * (X * (1 + v))) by (apply Rmult_le_pos; [lra|apply Rmult_le_pos; lra]). lra.
Qed.

Lemma zip_fold_in_range : forall (a b : list float) acc ps, length a = length b -> ps <> [] ->
  Forall finite a -> Forall finite b -> finite acc -> Rabs (value acc - total ps) <= dot_bound (length ps) ps ->
  reach (length ps + length a) (ps ++ products (map value a) (map value b)) < top ->
  exists r, zip_fold (fun x y => Ret (f_add x y)) (fun x y => Ret (f_mul x y)) a b acc = Ret r /\ finite r.
Proof.
  induction a as [|x a IH]; intros [|y b] acc ps L N Fa Fb F B R; try discriminate; [exists acc; auto|].
  inversion_clear Fa. inversion_clear Fb. cbn [zip_fold obind].
  set (p := value x * value y) in *.
  assert (ps ++ products (map value (x :: a)) (map value (y :: b)) = (ps ++ [p]) ++ products (map value a) (map value b)) as Q.
  { rewrite <- app_assoc. reflexivity. }
  rewrite Q in R. assert (length ps + length (x :: a) = length (ps ++ [p]) + length a)%nat as Q2 by (rewrite app_length; cbn; lia). rewrite Q2 in R.
  assert (reach (length ps + 1) (ps ++ [p]) < top) as R1.
  { eapply Rle_lt_trans; [apply (reach_mono _ (length a) _ (products (map value a) (map value b)))|]. rewrite app_length in R. exact R. }
  assert (1 <= length ps)%nat as Hk by (destruct ps; [congruence|cbn; lia]).
  assert (finite (f_mul x y)) as Fm.
  { apply product_in_range; auto. eapply Rle_lt_trans; [apply (reach_one_le _ ps (length ps) Hk)|]. exact R1. }
  destruct (mul_ok _ _ Fm) as (_ & _ & e1 & h & He1 & Hh & Em).
  destruct (@plus_err prec emax Hp (value acc) (value (f_mul x y))) as (e2 & He2 & Ep); try apply generic_format_B2R.
  assert (Rabs (rnd (value acc + value (f_mul x y)) - total (ps ++ [p])) <= dot_bound (length (ps ++ [p])) (ps ++ [p])) as Cl.
  { rewrite Ep, Em. rewrite app_length. cbn [length]. rewrite Nat.add_1_r. unfold error_bound, magnitudes. rewrite map_app, !total_app. cbn [map total].
    rewrite !Rplus_0_r. apply step_bound; auto; apply total_magnitudes. }
  destruct (add_in_range acc (f_mul x y) F Fm) as [Fs Es].
  { eapply Rle_lt_trans; [apply (close_bound _ _ _ Cl)|]. rewrite app_length. exact R1. }
  apply (IH b _ (ps ++ [p])); auto; try (cbn in L; lia).
  - destruct ps; discriminate.
  - rewrite Es. exact Cl.
Qed.

Lemma dot_in_range (a b : list float) : length a = length b -> Forall finite a -> Forall finite b ->
  reach (length a) (products (map value a) (map value b)) < top -> exists r, f_dot a b = Ret r /\ finite r.
Proof.
  unfold f_dot, dot_product. intros L Fa Fb R. destruct a as [|x a], b as [|y b]; try discriminate; cbn [zip_fold obind].
  - exists f_zero. split; reflexivity.
  - inversion_clear Fa. inversion_clear Fb.
    assert (finite (f_mul x y)) as Fm.
    { apply product_in_range; auto. eapply Rle_lt_trans; [apply (reach_mono 1 (length a) _ (products (map value a) (map value b)))|]. exact R. }
    destruct (add_zero_l _ Fm) as [E0 F0]. apply (zip_fold_in_range a b _ [value x * value y]); auto; try discriminate.
    rewrite E0. apply first_bound. exact Fm.
Qed.

(** *** Sums *)
Lemma fold_add_in_range : forall (l : list float) acc xs k, Forall finite l -> finite acc ->
  Rabs (value acc - total xs) <= ((1 + u) ^ k - 1) * mags xs ->
  (1 + u) ^ (k + length l) * mags (xs ++ map value l) < top -> finite (fold_left f_add l acc).
Proof.
  induction l as [|x l IH]; intros acc xs k Fl F B R; cbn [fold_left]; auto. inversion_clear Fl.
  assert (xs ++ map value (x :: l) = (xs ++ [value x]) ++ map value l) as Q by (rewrite <- app_assoc; reflexivity). rewrite Q in R.
  replace (k + length (x :: l))%nat with (S k + length l)%nat in R by (cbn; lia).
  destruct (@plus_err prec emax Hp (value acc) (value x)) as (e & He & Ep); try apply generic_format_B2R.
  assert (Rabs (rnd (value acc + value x) - total (xs ++ [value x])) <= ((1 + u) ^ S k - 1) * mags (xs ++ [value x])) as Cl.
  { rewrite Ep, mags_app, total_app. cbn [magnitudes map total]. rewrite !Rplus_0_r. destruct (total_magnitudes xs) as [HS HT].
    revert B HS HT. generalize (mags xs) (total xs). intros T S' B HS HT. pose proof (@u_pos prec) as U. pose proof (Rabs_pos (value x)) as P0.
    replace ((value acc + value x) * (1 + e) - (S' + value x)) with ((value acc - S') * (1 + e) + (S' + value x) * e) by ring.
    assert (Rabs (1 + e) <= 1 + u) as Q' by (eapply Rle_trans; [apply Rabs_triang|]; rewrite Rabs_R1; lra).
    assert (Rabs (S' + value x) <= T + Rabs (value x)) as W by (eapply Rle_trans; [apply Rabs_triang|]; lra).
    eapply Rle_trans; [apply Rabs_triang|]. rewrite !Rabs_mult.
    assert (1 <= (1 + u) ^ k) as HX by (apply pow_R1_Rle; lra).
    eapply Rle_trans; [apply Rplus_le_compat; apply Rmult_le_compat; try apply Rabs_pos; [exact B|exact Q'|exact W|exact He]|].
    rewrite <- tech_pow_Rmult. revert HX U HT P0. generalize ((1 + u) ^ k). generalize u (Rabs (value x)). clear. intros v P X HX U HT P0.
    assert (0 <= (X - 1) * ((1 + v) * P)) by (apply Rmult_le_pos; [lra|apply Rmult_le_pos; lra]). lra. }
  destruct (add_in_range acc x F H) as [Fs Es].
  { eapply Rle_lt_trans; [|exact R]. destruct (total_magnitudes (xs ++ [value x])) as [HS HT].
    apply Rle_trans with ((1 + u) ^ S k * mags (xs ++ [value x])).
    - replace (rnd (value acc + value x)) with ((rnd (value acc + value x) - total (xs ++ [value x])) + total (xs ++ [value x])) by ring.
      eapply Rle_trans; [apply Rabs_triang|]. lra.
    - rewrite (mags_app (xs ++ [value x])). pose proof (@u_pos prec). apply Rmult_le_compat; auto.
      + apply pow_le. lra.
      + apply Rle_pow; [lra|lia].
      + pose proof (mags_pos (map value l)). lra. }
  apply (IH _ (xs ++ [value x]) (S k)); auto. rewrite Es. exact Cl.
Qed.

Lemma sum_in_range (l : list float) : Forall finite l -> (1 + u) ^ (length l - 1) * mags (map value l) < top ->
  finite (fold_left f_add l f_zero).
Proof.
  intros Fl R. destruct l as [|x l]; [reflexivity|]. inversion_clear Fl. cbn [fold_left]. destruct (add_zero_l x H) as [E F].
  apply (fold_add_in_range l _ [value x] 0); auto.
  - rewrite E. cbn. replace (value x - (value x + 0)) with 0 by ring. rewrite Rabs_R0. lra.
  - replace (0 + length l)%nat with (length (x :: l) - 1)%nat by (cbn; lia). exact R.
Qed.

(** *** Products *)
Lemma u_le_one : 0 <= 1 - u.
Proof. pose proof (@u_half prec Hp). lra. Qed.

Definition multiplied (l : list R) : R := fold_left Rmult l 1.

Lemma fold_mul_in_range : forall (l : list float) acc (P : R) k, Forall finite l -> finite acc ->
  (1 - u) ^ k * Rabs P <= Rabs (value acc) -> Rabs (value acc - P) <= ((1 + u) ^ k - 1) * Rabs P ->
  (forall j, (0 < j <= length l)%nat -> let Q := fold_left Rmult (map value (firstn j l)) P in
     (Q = 0 \/ smallest_normal emax <= (1 - u) ^ (k + j) * Rabs Q) /\ (1 + u) ^ (k + j) * Rabs Q < top) ->
  let r := fold_left f_mul l acc in let Q := fold_left Rmult (map value l) P in
  finite r /\ Rabs (value r - Q) <= ((1 + u) ^ (k + length l) - 1) * Rabs Q.
Proof.
  induction l as [|x l IH]; intros acc P k Fl F B1 B2 R; cbn [fold_left map length]; [rewrite Nat.add_0_r; auto|].
  inversion_clear Fl. pose proof u_le_one as U1. pose proof (@u_pos prec) as U.
  destruct (R 1%nat) as [R1 R2]; [cbn; lia|]. cbn [firstn map fold_left] in R1, R2. rewrite Nat.add_1_r in R1, R2.
  assert (0 <= (1 - u) ^ k) as K0 by (apply pow_le; auto).
  assert (1 <= (1 + u) ^ k) as K1 by (apply pow_R1_Rle; lra).
  assert (Rabs (value acc * value x - P * value x) <= ((1 + u) ^ k - 1) * Rabs (P * value x)) as C0.
  { replace (value acc * value x - P * value x) with ((value acc - P) * value x) by ring. rewrite !Rabs_mult. pose proof (Rabs_pos (value x)). nra. }
  assert (zero_or_normal emax (value acc * value x)) as Z.
  { destruct R1 as [R1|R1].
    - left. apply Rmult_integral in R1. destruct R1 as [->| ->]; [|ring].
      rewrite Rabs_R0, Rmult_0_r, Rminus_0_r in B2. pose proof (Rabs_pos (value acc)) as G.
      destruct (Req_dec (value acc) 0) as [->|Ne]; [ring|]. apply Rabs_pos_lt in Ne. lra.
    - right. eapply Rle_trans; [exact R1|]. rewrite !Rabs_mult, <- tech_pow_Rmult. pose proof (Rabs_pos (value x)) as X0. pose proof (Rabs_pos P).
      apply Rle_trans with ((1 - u) ^ k * Rabs P * Rabs (value x)); [|apply Rmult_le_compat_r; auto].
      assert (0 <= (1 - u) ^ k * Rabs P * Rabs (value x)) by (apply Rmult_le_pos; auto; apply Rmult_le_pos; auto). nra. }
  destruct (@round_err_normal prec emax Hp (value acc * value x) Z) as (e & He & Ee).
  assert (Rabs (rnd (value acc * value x) - P * value x) <= ((1 + u) ^ S k - 1) * Rabs (P * value x)) as C1.
  { rewrite Ee. replace (value acc * value x * (1 + e) - P * value x) with ((value acc * value x - P * value x) * (1 + e) + P * value x * e) by ring.
    assert (Rabs (1 + e) <= 1 + u) as Q' by (eapply Rle_trans; [apply Rabs_triang|]; rewrite Rabs_R1; lra).
    eapply Rle_trans; [apply Rabs_triang|]. rewrite (Rabs_mult _ (1 + e)), (Rabs_mult _ e). rewrite <- tech_pow_Rmult.
    pose proof (Rabs_pos (P * value x)) as G. pose proof (Rabs_pos (value acc * value x - P * value x)).
    assert (Rabs (value acc * value x - P * value x) * Rabs (1 + e) <= ((1 + u) ^ k - 1) * Rabs (P * value x) * (1 + u)) by (apply Rmult_le_compat; auto using Rabs_pos).
    assert (Rabs (P * value x) * Rabs e <= Rabs (P * value x) * u) by (apply Rmult_le_compat_l; auto). lra. }
  destruct (mul_in_range acc x F H) as [Fm Em].
  { eapply Rle_lt_trans; [|exact R2]. replace (rnd (value acc * value x)) with ((rnd (value acc * value x) - P * value x) + P * value x) by ring.
    eapply Rle_trans; [apply Rabs_triang|]. lra. }
  replace (k + S (length l))%nat with (S k + length l)%nat by lia.
  apply (IH (f_mul acc x) (P * value x) (S k)); auto.
  - rewrite Em, Ee, !Rabs_mult, <- tech_pow_Rmult. pose proof (Rabs_pos (value x)) as X0. pose proof (Rabs_pos P). pose proof (Rabs_pos (value acc)).
    assert (1 - u <= Rabs (1 + e)) as Q'. { pose proof (Rle_abs (1 + e)). pose proof (Rle_abs (- e)) as T. rewrite Rabs_Ropp in T. lra. }
    replace ((1 - u) * (1 - u) ^ k * (Rabs P * Rabs (value x))) with ((1 - u) ^ k * Rabs P * Rabs (value x) * (1 - u)) by ring.
    apply Rmult_le_compat; auto; [apply Rmult_le_pos; auto; apply Rmult_le_pos; auto|apply Rmult_le_compat_r; auto].
  - rewrite Em. exact C1.
  - intros j Hj. specialize (R (S j)). cbn [firstn map fold_left] in R. replace (S k + j)%nat with (k + S j)%nat by lia. apply R. cbn. lia.
Qed.

Lemma one_value : finite (f_one : float) /\ value (f_one : float) = 1.
Proof. unfold finite, value, f_one. split; [apply is_finite_Bone|apply Bone_correct]. Qed.

(** *** Whole numbers *)
Lemma whole_prod : forall (a : list float) m acc k, Forall2 is_whole_number a m -> is_whole_number acc k ->
  (Z.max 1 (Z.abs k) * fold_right Z.mul 1 (map (fun z => Z.max 1 (Z.abs z)) m) <= 2 ^ prec)%Z ->
  is_whole_number (fold_left f_mul a acc) (k * fold_right Z.mul 1 m)%Z.
Proof.
  intros a m acc k F. revert acc k. induction F as [|x z a m W F IH]; intros acc k Wk H; cbn [map fold_right fold_left] in *.
  - rewrite Z.mul_1_r. exact Wk.
  - assert (1 <= fold_right Z.mul 1 (map (fun z => Z.max 1 (Z.abs z)) m))%Z as G by (clear; induction m; cbn [map fold_right]; lia).
    rewrite Z.mul_assoc. assert (Z.max 1 (Z.abs (k * z)) <= Z.max 1 (Z.abs k) * Z.max 1 (Z.abs z))%Z as T by (rewrite Z.abs_mul; nia).
    apply IH.
    + apply whole_mul; auto. nia.
    + eapply Z.le_trans; [|exact H]. rewrite Z.mul_assoc. apply Z.mul_le_mono_nonneg_r; lia.
Qed.
Lemma whole_one : is_whole_number (f_one : float) 1.
Proof. exact one_value. Qed.
End Format.
