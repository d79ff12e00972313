(** Whole numbers, moduli, quotients and triangular determinants over floats. *)
From Coq Require Import ZArith Reals List Bool Lia Lra Psatz.
From Flocq Require Import Core BinarySingleNaN Relative Plus_error.
From Verif Require Import Base StaticIterModel VectorModel CompoundsSpec MatrixModel MatrixProofs IeeeModel IeeeSpec IeeeProofs.
Import ListNotations.
Local Open Scope R_scope.

Section Format.
Context {prec emax : Z} {Hp : Prec_gt_0 prec} {Hm : Prec_lt_emax prec emax}.
Notation float := (binary_float prec emax).
Notation u := (unit_roundoff prec).
Notation eta := (half_smallest prec emax).
Notation rnd := (round radix2 (SpecFloat.fexp prec emax) ZnearestE).
Notation format := (generic_format radix2 (SpecFloat.fexp prec emax)).

(** *** Whole numbers *)

Lemma whole_format n : (Z.abs n <= 2 ^ prec)%Z -> format (IZR n).
Proof.
  intros H. unfold Prec_gt_0 in Hp. unfold Prec_lt_emax in Hm. destruct (Z.eq_dec (Z.abs n) (2 ^ prec)) as [E|E].
  - assert (format (bpow radix2 prec)) as B.
    { apply generic_format_bpow. unfold SpecFloat.fexp, SpecFloat.emin. lia. }
    assert (bpow radix2 prec = IZR (2 ^ prec)) as Q by (rewrite <- (IZR_Zpower radix2) by lia; reflexivity).
    rewrite Q in B. destruct (Z.abs_spec n) as [[_ A]|[_ A]].
    + rewrite A in E. rewrite E. exact B.
    + replace n with (- 2 ^ prec)%Z by lia. rewrite opp_IZR. apply generic_format_opp. exact B.
  - apply generic_format_FLT. exists (Float radix2 n 0).
    + unfold F2R. cbn. lra.
    + change (Z.abs n < 2 ^ prec)%Z. lia.
    + change (3 - emax - prec <= 0)%Z. lia.
Qed.

Lemma whole_small n : (Z.abs n <= 2 ^ prec)%Z -> Rabs (IZR n) < bpow radix2 emax.
Proof.
  intros H. unfold Prec_gt_0 in Hp. unfold Prec_lt_emax in Hm. rewrite <- abs_IZR.
  apply Rle_lt_trans with (bpow radix2 prec); [|apply bpow_lt; lia].
  rewrite <- (IZR_Zpower radix2) by lia. apply IZR_le. exact H.
Qed.

Lemma whole_add (x y : float) m n : is_whole_number x m -> is_whole_number y n -> (Z.abs (m + n) <= 2 ^ prec)%Z -> is_whole_number (f_add x y) (m + n).
Proof.
  intros [Fx Ex] [Fy Ey] H. pose proof (Bplus_correct prec emax Hp Hm mode_NE x y Fx Fy) as C. unfold value in *.
  rewrite Ex, Ey, <- plus_IZR in C. rewrite round_generic in C by (try apply valid_rnd_N; apply whole_format; auto).
  rewrite Rlt_bool_true in C by (apply whole_small; auto). destruct C as (C1 & C2 & _). split; auto.
Qed.

Lemma whole_mul (x y : float) m n : is_whole_number x m -> is_whole_number y n -> (Z.abs (m * n) <= 2 ^ prec)%Z -> is_whole_number (f_mul x y) (m * n).
Proof.
  intros [Fx Ex] [Fy Ey] H. pose proof (Bmult_correct prec emax Hp Hm mode_NE x y) as C. unfold value in *.
  rewrite Ex, Ey, <- mult_IZR in C. rewrite round_generic in C by (try apply valid_rnd_N; apply whole_format; auto).
  rewrite Rlt_bool_true in C by (apply whole_small; auto). destruct C as (C1 & C2 & _). split; auto.
  unfold finite in *. unfold f_mul. rewrite C2, Fx, Fy. reflexivity.
Qed.

Lemma whole_zero : is_whole_number (f_zero : float) 0.
Proof. split; reflexivity. Qed.

Lemma whole_dot : forall (a b : list float) m n acc k, Forall2 is_whole_number a m -> Forall2 is_whole_number b n -> is_whole_number acc k -> length a = length b ->
  (Z.abs k + fold_right Z.add 0 (map (fun p => Z.abs (fst p * snd p)) (combine m n)) <= 2 ^ prec)%Z ->
  exists r, zip_fold (fun x y => Ret (f_add x y)) (fun x y => Ret (f_mul x y)) a b acc = Ret r /\
    is_whole_number r (k + fold_right Z.add 0 (map (fun p => fst p * snd p) (combine m n)))%Z.
Proof.
  induction a as [|x a IH]; intros [|y b] m n acc k Fa Fb W L H; try discriminate.
  - inversion Fa; subst. exists acc. split; auto. cbn. rewrite Z.add_0_r. exact W.
  - inversion Fa as [|? zm ? m' Wx Fa']; subst. inversion Fb as [|? zn ? n' Wy Fb']; subst. cbn [combine map fold_right fst snd] in *.
    cbn [zip_fold obind].
    assert (forall l, (0 <= fold_right Z.add 0 (map (fun p : Z * Z => Z.abs (fst p * snd p)) l))%Z) as P.
    { induction l as [|[? ?] l IHl]; cbn in *; lia. }
    specialize (P (combine m' n')).
    destruct (IH b m' n' (f_add acc (f_mul x y)) (k + zm * zn)%Z) as (r & E & R); auto.
    + apply whole_add; auto; [apply whole_mul; auto; lia|lia].
    + lia.
    + exists r. split; auto. replace (k + (zm * zn + fold_right Z.add 0 (map (fun p => fst p * snd p) (combine m' n'))))%Z
        with (k + zm * zn + fold_right Z.add 0 (map (fun p => fst p * snd p) (combine m' n')))%Z by lia. exact R.
Qed.

Lemma whole_sum : forall (a : list float) m acc k, Forall2 is_whole_number a m -> is_whole_number acc k ->
  (Z.abs k + fold_right Z.add 0 (map Z.abs m) <= 2 ^ prec)%Z ->
  is_whole_number (fold_left f_add a acc) (k + fold_right Z.add 0 m)%Z.
Proof.
  intros a m acc k F. revert acc k. induction F as [|x z a m W F IH]; intros acc k Wk H; cbn in *.
  - rewrite Z.add_0_r. exact Wk.
  - assert (0 <= fold_right Z.add 0 (map Z.abs m))%Z by (clear; induction m; cbn; lia).
    replace (k + (z + fold_right Z.add 0 m))%Z with (k + z + fold_right Z.add 0 m)%Z by lia.
    apply IH; [apply whole_add; auto; lia|lia].
Qed.

(** *** Moduli *)

Lemma normal_format : format (smallest_normal emax).
Proof.
  rewrite normal_bpow. apply generic_format_bpow. unfold Prec_gt_0 in Hp. unfold Prec_lt_emax in Hm. unfold SpecFloat.fexp, SpecFloat.emin. lia.
Qed.
Lemma normal_pos : 0 < smallest_normal emax.
Proof. rewrite normal_bpow. apply bpow_gt_0. Qed.
Lemma normal_le1 : smallest_normal emax <= 1.
Proof. rewrite normal_bpow. change 1 with (bpow radix2 0). apply bpow_le. unfold Prec_gt_0 in Hp. unfold Prec_lt_emax in Hm. lia. Qed.

Lemma round_ge_normal x : smallest_normal emax <= x -> smallest_normal emax <= rnd x.
Proof. intros H. apply round_ge_generic; auto; [apply fexp_correct; exact Hp|apply valid_rnd_N|apply normal_format]. Qed.

(** The value of a rounded square. *)
Lemma square_normal (x : float) : finite (f_mul x x) -> zero_or_normal emax (value x * value x) ->
  (value x * value x = 0 /\ value (f_mul x x) = 0 \/ smallest_normal emax <= value x * value x /\ smallest_normal emax <= value (f_mul x x)) /\
  (1 - u) * (value x * value x) <= value (f_mul x x) <= (1 + u) * (value x * value x).
Proof.
  intros F N. destruct (mul_ok_normal x x F N) as (e & He & E). destruct (mul_val x x F) as (_ & _ & V).
  assert (0 <= value x * value x) as P by nra. apply Rabs_le_inv in He. split.
  - destruct N as [N|N].
    + left. split; auto. rewrite E, N. lra.
    + right. rewrite Rabs_pos_eq in N by lra. split; auto. rewrite V. apply round_ge_normal. exact N.
  - rewrite E. split; nra.
Qed.

Lemma sum_normal (x y : float) : finite (f_add x y) -> value x = 0 \/ smallest_normal emax <= value x -> value y = 0 \/ smallest_normal emax <= value y ->
  value (f_add x y) = 0 \/ smallest_normal emax <= value (f_add x y).
Proof.
  intros F Hx Hy. destruct (add_ok _ _ F) as (Fx & Fy & _).
  unfold finite, f_add in *. pose proof (Bplus_correct prec emax Hp Hm mode_NE x y Fx Fy) as C.
  destruct Rlt_bool; [|destruct C as [C _]; elim (overflow_not_finite _ _ C); exact F].
  destruct C as [C _]. unfold value in *. rewrite C. pose proof normal_pos.
  destruct Hx as [->|Hx], Hy as [->|Hy]; [left; rewrite Rplus_0_r; apply round_0, valid_rnd_N| | |]; right; apply round_ge_normal; lra.
Qed.

Lemma abs_squared_bounds (a : complex float) : finite (f_abs_squared a) ->
  zero_or_normal emax (value (real a) * value (real a)) -> zero_or_normal emax (value (imag a) * value (imag a)) ->
  let N := value (real a) * value (real a) + value (imag a) * value (imag a) in
  (1 - u) ^ 2 * N <= value (f_abs_squared a) <= (1 + u) ^ 2 * N /\
  (value (f_abs_squared a) = 0 \/ smallest_normal emax <= value (f_abs_squared a)).
Proof.
  intros F Nr Ni N. unfold f_abs_squared, abs_squared in *. destruct (add_ok _ _ F) as (F1 & F2 & e & He & E).
  destruct (square_normal _ F1 Nr) as [Z1 B1], (square_normal _ F2 Ni) as [Z2 B2]. split.
  - rewrite E. apply Rabs_le_inv in He. pose proof (@u_pos prec). pose proof (@u_half prec Hp).
    assert (0 <= N) by (unfold N; nra).
    set (p := value (f_mul (real a) (real a))) in *. set (q := value (f_mul (imag a) (imag a))) in *.
    assert ((1 - u) * N <= p + q <= (1 + u) * N) as B by (unfold N; lra).
    assert (0 <= p + q) by nra. cbn [pow]. rewrite !Rmult_1_r. split; nra.
  - apply sum_normal; auto; [destruct Z1 as [[_ Z]|[_ Z]]|destruct Z2 as [[_ Z]|[_ Z]]]; auto.
Qed.

Lemma sqrt_ok (x : float) : finite x -> value x = 0 \/ smallest_normal emax <= value x ->
  finite (f_sqrt x) /\ exists e, Rabs e <= u /\ value (f_sqrt x) = sqrt (value x) * (1 + e).
Proof.
  intros F H. unfold f_sqrt. destruct (Bsqrt_correct prec emax Hp Hm mode_NE x) as (C1 & C2 & _). pose proof normal_pos as NP.
  assert (0 <= value x) as P by (destruct H; lra). split.
  - unfold finite. rewrite C2. destruct x as [|[]| |[]]; auto; try discriminate.
    exfalso. unfold value, B2R in P. pose proof (F2R_lt_0 radix2 (Float radix2 (cond_Zopp true (Zpos m)) e) ltac:(cbn; lia)). lra.
  - unfold value at 1. rewrite C1. apply round_err_normal. fold (value x). destruct H as [->|H]; [left; apply sqrt_0|]. right.
    rewrite Rabs_pos_eq by apply sqrt_pos. pose proof normal_le1. destruct (Rle_dec 1 (value x)) as [G|G].
    + apply Rle_trans with 1; auto. rewrite <- sqrt_1. apply sqrt_le_1; lra.
    + apply Rle_trans with (value x); auto. rewrite <- (sqrt_square (value x)) at 1 by lra. apply sqrt_le_1; nra.
Qed.
Lemma abs_ok (a : complex float) : finite (f_abs_squared a) ->
  zero_or_normal emax (value (real a) * value (real a)) -> zero_or_normal emax (value (imag a) * value (imag a)) ->
  let m := sqrt (value (real a) * value (real a) + value (imag a) * value (imag a)) in
  finite (f_abs a) /\ Rabs (value (f_abs a) - m) <= ((1 + u) ^ 2 - 1) * m.
Proof.
  intros F Nr Ni m. destruct (abs_squared_bounds a F Nr Ni) as [[B1 B2] Z]. destruct (sqrt_ok _ F Z) as [Fs (e & He & E)].
  split; [exact Fs|]. unfold f_abs. rewrite E. apply Rabs_le_inv in He. pose proof (@u_pos prec). pose proof (@u_half prec Hp).
  set (N := value (real a) * value (real a) + value (imag a) * value (imag a)) in *. assert (0 <= N) as HN by (unfold N; nra).
  assert (sqrt ((1 - u) ^ 2 * N) = (1 - u) * m) as S1.
  { rewrite sqrt_mult by nra. rewrite sqrt_pow2 by lra. reflexivity. }
  assert (sqrt ((1 + u) ^ 2 * N) = (1 + u) * m) as S2.
  { rewrite sqrt_mult by nra. rewrite sqrt_pow2 by lra. reflexivity. }
  assert ((1 - u) * m <= sqrt (value (f_abs_squared a)) <= (1 + u) * m) as [L R].
  { rewrite <- S1, <- S2. split; apply sqrt_le_1_alt; auto. }
  assert (0 <= m) by apply sqrt_pos. set (s := sqrt (value (f_abs_squared a))) in *. apply Rabs_le. cbn [pow]. rewrite Rmult_1_r. split; nra.
Qed.

(** *** Quotients *)

Lemma div_ok (x y : float) : value y <> 0 -> finite (f_div x y) ->
  finite x /\ exists e h, Rabs e <= u /\ Rabs h <= eta /\ value (f_div x y) = value x / value y * (1 + e) + h.
Proof.
  unfold finite, f_div, value. intros Y F. pose proof (Bdiv_correct prec emax Hp Hm mode_NE x y Y) as C.
  destruct Rlt_bool; [|elim (overflow_not_finite _ _ C); exact F].
  destruct C as [C [D _]]. split; [congruence|]. rewrite C. apply round_err.
Qed.

Lemma k_low v K t e : 0 < v -> v <= / 2 -> K * (1 - v) ^ 2 = 1 + v -> 0 < t <= (1 + v) ^ 2 -> - v <= e -> (2 - K) * t <= 1 + e.
Proof.
  intros V1 V2 EK [T1 T2] He. destruct (Rle_dec 2 K) as [G|G].
  { assert (0 <= (K - 2) * t) by (apply Rmult_le_pos; lra). lra. }
  assert ((2 - K) * t <= (2 - K) * (1 + v) ^ 2) as A by (apply Rmult_le_compat_l; lra).
  assert ((2 - K) * (1 + v) ^ 2 <= 1 - v); [|lra].
  assert (0 < (1 - v) ^ 2) as P by (cbn; nra). apply Rmult_le_reg_r with ((1 - v) ^ 2); auto.
  replace ((2 - K) * (1 + v) ^ 2 * (1 - v) ^ 2) with (2 * (1 + v) ^ 2 * (1 - v) ^ 2 - (1 + v) ^ 2 * (K * (1 - v) ^ 2)) by ring. rewrite EK.
  assert (0 <= v * v) as V by nra. assert (v * v <= / 4) as W by nra.
  assert (0 <= (1 - v) * (1 - v) ^ 2 - (2 * (1 + v) ^ 2 * (1 - v) ^ 2 - (1 + v) ^ 2 * (1 + v))); [|lra].
  replace ((1 - v) * (1 - v) ^ 2 - (2 * (1 + v) ^ 2 * (1 - v) ^ 2 - (1 + v) ^ 2 * (1 + v))) with (v * v * (10 - 2 * (v * v))) by ring.
  apply Rmult_le_pos; lra.
Qed.

(** A quotient of an approximate numerator by an approximate divisor. *)
Lemma quotient_bound (n d : float) N D M E : 0 < D -> (1 - u) ^ 2 * D <= value d <= (1 + u) ^ 2 * D -> finite (f_div n d) ->
  (finite n -> Rabs (value n - N) <= E) -> Rabs N <= M ->
  Rabs (value (f_div n d) - N / D) <= ((1 + u) / (1 - u) ^ 2 * (M + E) - M) / D + eta.
Proof.
  intros HD [B1 B2] F HE HM. pose proof (@u_pos prec) as U. pose proof (@u_half prec Hp) as U2.
  assert (0 < (1 - u) ^ 2) as P1 by (cbn; nra). assert (0 < value d) as Pd by nra.
  destruct (div_ok n d) as (Fn & e & h & He & Hh & ->); auto; [lra|]. specialize (HE Fn). apply Rabs_le_inv in He.
  set (t := value d / D). assert (value d = t * D) as Et by (unfold t; field; lra).
  assert ((1 - u) ^ 2 <= t <= (1 + u) ^ 2) as [T1 T2].
  { unfold t. split; apply Rmult_le_reg_r with D; auto; unfold Rdiv; rewrite Rmult_assoc, Rinv_l; lra. }
  set (k := (1 + e) / t). set (K := (1 + u) / (1 - u) ^ 2).
  assert (value n / value d * (1 + e) + h - N / D = ((value n - N) * k + N * (k - 1)) / D + h) as ->.
  { unfold k. rewrite Et. field. split; lra. }
  assert (0 < t) as Pt by lra.
  assert (0 <= k <= K) as [K1 K2].
  { unfold k, K. split; [apply Rmult_le_pos; [lra|left; apply Rinv_0_lt_compat; lra]|].
    apply Rmult_le_compat; try lra; [left; apply Rinv_0_lt_compat; lra|apply Rinv_le; lra]. }
  assert (1 <= K) as K3.
  { unfold K. apply Rmult_le_reg_r with ((1 - u) ^ 2); auto. unfold Rdiv. rewrite Rmult_assoc, Rinv_l by lra. cbn [pow] in *. nra. }
  assert (2 - K <= k) as K4.
  { unfold k. apply Rmult_le_reg_r with t; auto. unfold Rdiv. rewrite Rmult_assoc, Rinv_l by lra. rewrite Rmult_1_r.
    assert (K * (1 - u) ^ 2 = 1 + u) as EK by (unfold K; field; lra).
    apply (k_low u); auto; lra. }
  assert (Rabs ((value n - N) * k + N * (k - 1)) <= E * K + M * (K - 1)) as B.
  { eapply Rle_trans; [apply Rabs_triang|]. rewrite !Rabs_mult. apply Rplus_le_compat; apply Rmult_le_compat; auto using Rabs_pos.
    - rewrite Rabs_pos_eq by lra. exact K2.
    - apply Rabs_le. lra. }
  eapply Rle_trans; [apply Rabs_triang|]. apply Rplus_le_compat; auto. unfold Rdiv. rewrite Rabs_mult, (Rabs_pos_eq (/ D)) by (left; apply Rinv_0_lt_compat; auto).
  apply Rmult_le_compat_r; [left; apply Rinv_0_lt_compat; auto|]. fold K. lra.
Qed.

(** *** Matrix products *)

Lemma cell_at (m : list (list float)) row col i j : shape row col m -> (i < row)%nat -> (j < col)%nat -> value (at_ f_zero m i j) = cell m i j.
Proof.
  intros S Hi Hj. unfold at_, cell, entry. destruct (shape_row _ _ _ i S Hi) as (r & E & L). rewrite E.
  rewrite (nth_error_nth m i [] E). rewrite (nth_error_nth' r B754_nan) by lia. reflexivity.
Qed.

Lemma mat_entry row col col2 (a b : list (list float)) i j : shape row col a -> shape col col2 b -> (i < row)%nat -> (j < col2)%nat ->
  forall n s acc, (s + n = col)%nat ->
  fold_left (fun acc k => obind acc (fun acc =>
      obind (mat_get a i k) (fun x => obind (mat_get b k j) (fun y => Ret (f_add acc (f_mul x y)))))) (seq s n) (Ret acc)
  = zip_fold (fun x y => Ret (f_add x y)) (fun x y => Ret (f_mul x y))
      (map (fun k => at_ f_zero a i k) (seq s n)) (map (fun k => at_ f_zero b k j) (seq s n)) acc.
Proof.
  intros Sa Sb Hi Hj. induction n as [|n IH]; intros s acc E; [reflexivity|]. cbn [seq fold_left map zip_fold obind].
  rewrite (mat_get_at f_zero row col a i s Sa Hi ltac:(lia)), (mat_get_at f_zero col col2 b s j Sb ltac:(lia) Hj). cbn [obind].
  apply IH. lia.
Qed.

Lemma mat_mul_tab row col col2 (a b : list (list float)) : shape row col a -> shape col col2 b -> (0 < col)%nat ->
  exists g, f_mat_mul row col col2 a b = Ret (tabulate row col2 g) /\
  forall i j, (i < row)%nat -> (j < col2)%nat -> finite (g i j) ->
    Rabs (value (g i j) - total (map (fun k => cell a i k * cell b k j) (seq 0 col)))
      <= error_bound prec emax col (map (fun k => cell a i k * cell b k j) (seq 0 col)).
Proof.
  intros Sa Sb Hc.
  pose (L i := map (fun k => at_ f_zero a i k) (seq 1 (col - 1))). pose (R' j := map (fun k => at_ f_zero b k j) (seq 1 (col - 1))).
  pose (g i j := match zip_fold (fun x y => Ret (f_add x y)) (fun x y => Ret (f_mul x y)) (L i) (R' j)
                   (f_mul (at_ f_zero a i 0) (at_ f_zero b 0 j)) with Ret x => x | _ => f_zero end).
  assert (forall i j, zip_fold (fun x y => Ret (f_add x y)) (fun x y => Ret (f_mul x y)) (L i) (R' j)
                   (f_mul (at_ f_zero a i 0) (at_ f_zero b 0 j)) = Ret (g i j)) as G.
  { intros i j. unfold g. destruct (zip_fold_ret (L i) (R' j) (f_mul (at_ f_zero a i 0) (at_ f_zero b 0 j))) as (r & ->). reflexivity. }
  clearbody g. exists g. split.
  - unfold f_mat_mul, mat_mul. apply from_fn_ok. intros i Hi. apply from_fn_ok. intros j Hj.
    rewrite (mat_get_at f_zero row col a i 0 Sa Hi Hc), (mat_get_at f_zero col col2 b 0 j Sb Hc Hj). cbn [obind].
    rewrite (mat_entry row col col2 a b i j Sa Sb Hi Hj (col - 1) 1) by lia. apply G.
  - intros i j Hi Hj F.
    assert (length (L i) = length (R' j)) as Len by (unfold L, R'; rewrite !map_length; reflexivity).
    destruct (zip_fold_bound (L i) (R' j) _ (g i j) [value (at_ f_zero a i 0) * value (at_ f_zero b 0 j)] Len F ltac:(discriminate) (G i j))
      as (F0 & _ & _ & B); [intros F0; apply first_bound; exact F0|].
    assert ([value (at_ f_zero a i 0) * value (at_ f_zero b 0 j)] ++ products (map value (L i)) (map value (R' j))
        = map (fun k => cell a i k * cell b k j) (seq 0 col)) as Q.
      { assert (forall n s, (s + n = col)%nat -> products (map value (map (fun k => at_ f_zero a i k) (seq s n))) (map value (map (fun k => at_ f_zero b k j) (seq s n)))
          = map (fun k => cell a i k * cell b k j) (seq s n)) as W.
        { clear - Sa Sb Hi Hj. induction n; intros s E; [reflexivity|]. cbn [seq map]. unfold products in *. cbn [combine map fst snd].
          rewrite IHn by lia. rewrite (cell_at a row col), (cell_at b col col2) by (auto; lia). reflexivity. }
        unfold L, R'. rewrite W by lia. rewrite (cell_at a row col), (cell_at b col col2) by (auto; lia).
        destruct col as [|c]; [lia|]. cbn [seq map app]. replace (S c - 1)%nat with c by lia. reflexivity. }
      rewrite Q in B. unfold L in B. rewrite map_length, seq_length in B. cbn [length] in B.
      replace (1 + (col - 1))%nat with col in B by lia. exact B.
Qed.

(** *** Elimination in a triangular matrix *)

(** Equal up to the sign of zero. *)
Definition same (x y : float) : Prop := x = y \/ (finite x /\ finite y /\ value x = 0 /\ value y = 0).

Lemma for_loop_inv {A} (P : A -> Prop) body : forall len start s, (forall s i, (start <= i < start + len)%nat -> P s -> exists s', body s i = Ret s' /\ P s') ->
  P s -> exists s', for_loop body start len s = Ret s' /\ P s'.
Proof.
  induction len; intros start s H Ps; cbn [for_loop]; eauto.
  destruct (H s start ltac:(lia) Ps) as (s1 & -> & P1). cbn [obind]. apply IHlen; auto. intros. apply H; auto. lia.
Qed.

Lemma zero_cases (x : float) : finite x -> value x = 0 -> exists s, x = B754_zero s.
Proof.
  intros F V. destruct x as [s|s| |s m e B]; try discriminate; eauto. exfalso. unfold value, B2R in V.
  destruct s; [pose proof (F2R_lt_0 radix2 (Float radix2 (cond_Zopp true (Zpos m)) e) ltac:(cbn; lia))|pose proof (F2R_gt_0 radix2 (Float radix2 (cond_Zopp false (Zpos m)) e) ltac:(cbn; lia))]; lra.
Qed.

Lemma zero_div (x t : float) : finite x -> value x = 0 -> finite t -> value t <> 0 -> exists s, f_div x t = B754_zero s.
Proof.
  intros F V Ft Vt. destruct (zero_cases x F V) as (s & ->). destruct t as [s'|s'| |s' m e B]; try discriminate; [elim Vt; reflexivity|].
  cbn. eauto.
Qed.

Lemma mul_zero_r (y : float) s : finite y -> exists s', f_mul y (B754_zero s) = B754_zero s'.
Proof. intros F. destruct y as [s'|s'| |s' m e B]; try discriminate; cbn; eauto. Qed.

Lemma sub_zero (x : float) s : finite x -> same (f_sub x (B754_zero s)) x.
Proof.
  intros F. destruct x as [s'|s'| |s' m e B]; try discriminate; unfold f_sub; cbn.
  - right. destruct s, s'; cbn; unfold finite, value; cbn; auto.
  - left. reflexivity.
Qed.

Lemma same_trans x y z : same x y -> same y z -> same x z.
Proof. intros [->|(A & B & C & D)] [->|(E & F & G & H)]; unfold same; tauto. Qed.

Lemma same_finite x y : same x y -> finite y -> finite x.
Proof. intros [->|(A & B & C & D)]; auto. Qed.
Lemma same_value x y : same x y -> value x = value y.
Proof. intros [->|(A & B & C & D)]; auto. congruence. Qed.
Lemma same_nonzero x y : same x y -> value y <> 0 -> x = y.
Proof. intros [->|(A & B & C & D)]; auto. intros. congruence. Qed.

Lemma is_zero_value (x : float) : finite x -> f_is_zero x = true <-> value x = 0.
Proof.
  intros F. unfold f_is_zero, f_partial_cmp. rewrite (Bcompare_correct prec emax x f_zero F eq_refl). unfold value. cbn [B2R f_zero].
  destruct (Rcompare_spec (B2R x) 0); split; intros; try discriminate; auto; lra.
Qed.

Section Triangular.
Context (n : nat) (m0 : list (list float)) (S0 : shape n n m0).
Context (Fin : forall i j, (i < n)%nat -> (j < n)%nat -> finite (at_ f_zero m0 i j)).
Context (Low : forall i j, (j < i)%nat -> (i < n)%nat -> value (at_ f_zero m0 i j) = 0).
Context (Dia : forall i, (i < n)%nat -> value (at_ f_zero m0 i i) <> 0).

Definition alike (m : list (list float)) : Prop :=
  shape n n m /\ forall i j, (i < n)%nat -> (j < n)%nat -> same (at_ f_zero m i j) (at_ f_zero m0 i j).

Lemma alike_finite m i j : alike m -> (i < n)%nat -> (j < n)%nat -> finite (at_ f_zero m i j).
Proof. intros [_ A] Hi Hj. eapply same_finite; eauto. Qed.

Lemma eliminate_alike m row r top : alike m -> (row < n)%nat -> (row < r < n)%nat -> finite top -> value top <> 0 ->
  exists m', eliminate f_sub f_mul (fun x y => Ret (f_div x y)) mat_get mat_set n row row top m r = Ret m' /\ alike m'.
Proof.
  intros A Hrow Hr Ft Vt. unfold eliminate. rewrite (mat_get_at f_zero n n m r row (proj1 A)) by lia. cbn [obind].
  destruct (zero_div (at_ f_zero m r row) top) as (s & ->); auto.
  { apply alike_finite; auto; lia. }
  { rewrite (same_value _ _ (proj2 A r row ltac:(lia) ltac:(lia))). apply Low; lia. }
  apply (for_loop_inv alike); auto. intros m' c Hc A'.
  rewrite (mat_get_at f_zero n n m' r c (proj1 A')), (mat_get_at f_zero n n m' row c (proj1 A')) by lia. cbn [obind].
  destruct (mul_zero_r (at_ f_zero m' row c) s) as (s' & ->); [apply alike_finite; auto; lia|].
  destruct (static_set_ok f_zero n m' r c (f_sub (at_ f_zero m' r c) (B754_zero s')) (proj1 A') ltac:(lia) ltac:(lia)) as (m'' & E & S'' & H).
  exists m''. split; auto. split; auto. intros i j Hi Hj. rewrite H by auto. destruct (Nat.eq_dec i r) as [->|], (Nat.eq_dec j c) as [->|]; cbn;
    rewrite ?Nat.eqb_refl; cbn.
  - apply same_trans with (at_ f_zero m' r c); [|apply A'; auto]. apply sub_zero, alike_finite; auto.
  - rewrite (proj2 (Nat.eqb_neq j c)) by auto. apply A'; auto.
  - rewrite (proj2 (Nat.eqb_neq i r)) by auto. apply A'; auto.
  - rewrite (proj2 (Nat.eqb_neq i r)) by auto. apply A'; auto.
Qed.

Lemma min_rest m col best : alike m -> forall len start off, (col < start)%nat -> (start + len = n)%nat ->
  min_nonzero f_is_zero f_partial_cmp mat_get m col start len off best = Ret best.
Proof.
  intros A. induction len; intros start off Hs E; cbn [min_nonzero]; auto.
  rewrite (mat_get_at f_zero n n m start col (proj1 A)) by lia. cbn [obind].
  rewrite (proj2 (is_zero_value _ (alike_finite m start col A ltac:(lia) ltac:(lia)))).
  - apply IHlen; lia.
  - rewrite (same_value _ _ (proj2 A start col ltac:(lia) ltac:(lia))). apply Low; lia.
Qed.

Lemma column_alike m c : alike m -> (c < n)%nat ->
  exists m', gauss_col f_sub f_mul f_neg (fun x y => Ret (f_div x y)) f_is_zero f_partial_cmp mat_get mat_set swap_rows n n (m, f_one, c) c
    = Ret (m', f_one, S c) /\ alike m'.
Proof.
  intros A Hc. unfold gauss_col. destruct (n - c)%nat as [|k] eqn:E; [lia|]. cbn [all_zero min_nonzero].
  rewrite (mat_get_at f_zero n n m c c (proj1 A)) by lia. cbn [obind].
  pose proof (same_nonzero _ _ (proj2 A c c Hc Hc) (Dia c Hc)) as Q.
  assert (f_is_zero (at_ f_zero m c c) = false) as ->.
  { apply Bool.not_true_iff_false. intros X. apply is_zero_value in X; [|apply alike_finite; auto]. rewrite Q in X. elim (Dia c Hc X). }
  cbn [obind]. rewrite min_rest by (auto; lia). cbn [obind]. rewrite Nat.add_0_l, Nat.eqb_refl. cbn [obind].
  rewrite (mat_get_at f_zero n n m c c (proj1 A)) by lia. cbn [obind].
  destruct (for_loop_inv alike (eliminate f_sub f_mul (fun x y => Ret (f_div x y)) mat_get mat_set n c c (at_ f_zero m c c)) (n - S c) (S c) m) as (m' & -> & A'); auto.
  - intros m1 r Hr A1. apply eliminate_alike; auto; try lia; rewrite Q; auto.
  - cbn [obind]. eauto.
Qed.

Lemma triangular_gauss : exists m', static_gauss f_one f_sub f_mul f_neg (fun x y => Ret (f_div x y)) f_is_zero f_partial_cmp n n m0 = Ret (m', f_one) /\ alike m'.
Proof.
  unfold static_gauss, gauss_elim.
  assert (forall len c m, (c + len = n)%nat -> alike m -> exists m', for_loop (gauss_col f_sub f_mul f_neg (fun x y => Ret (f_div x y)) f_is_zero f_partial_cmp mat_get mat_set swap_rows n n)
    c len (m, f_one, c) = Ret (m', f_one, n) /\ alike m') as G.
  { induction len; intros c m E A; cbn [for_loop].
    - exists m. split; auto. do 2 f_equal. lia.
    - destruct (column_alike m c A ltac:(lia)) as (m1 & -> & A1). cbn [obind]. apply IHlen; auto. lia. }
  destruct (G n 0%nat m0 eq_refl) as (m' & -> & A').
  - split; auto. intros. left. reflexivity.
  - cbn [obind]. eauto.
Qed.
End Triangular.

Lemma div_one (x : float) : f_div x f_one = x.
Proof.
  assert (value (f_one : float) = 1) as V1 by apply Bone_correct.
  destruct x as [s|s| |s m e B].
  - unfold f_div. pose proof (is_finite_Bone prec emax Hp Hm) as F1. unfold f_one in *. pose proof (Bsign_Bone prec emax Hp Hm) as Sg.
    destruct Bone as [s1|s1| |s1 m1 e1 B1] eqn:E; try discriminate; cbn in *; [unfold value in V1; cbn in V1; lra|]. subst s1. rewrite xorb_false_r. reflexivity.
  - unfold f_div. pose proof (is_finite_Bone prec emax Hp Hm) as F1. unfold f_one in *. pose proof (Bsign_Bone prec emax Hp Hm) as Sg.
    destruct Bone as [s1|s1| |s1 m1 e1 B1] eqn:E; try discriminate; cbn in *; [unfold value in V1; cbn in V1; lra|]. subst s1. rewrite xorb_false_r. reflexivity.
  - reflexivity.
  - set (x := B754_finite s m e B : float). assert (finite x) as F by reflexivity.
    assert (B2R (f_one : float) <> 0) as Y by (unfold value in V1; lra).
    pose proof (Bdiv_correct prec emax Hp Hm mode_NE x f_one Y) as C.
    change (B2R (f_one : float)) with (value (f_one : float)) in C. rewrite V1 in C. replace (B2R x / 1) with (B2R x) in C by field.
    rewrite round_generic in C by (try apply valid_rnd_N; apply generic_format_B2R). rewrite Rlt_bool_true in C by apply abs_B2R_lt_emax.
    destruct C as (C1 & C2 & C3). apply B2R_Bsign_inj; auto.
    unfold f_div in *. rewrite C3; [|destruct (Bdiv mode_NE x f_one); auto; discriminate C2].
    unfold f_one. rewrite Bsign_Bone, xorb_false_r. reflexivity.
Qed.
End Format.
