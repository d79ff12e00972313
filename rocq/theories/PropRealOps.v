(** C127 to C129: roots, powers and logarithms of floats, reciprocal trigonometric functions, and
    distances, all in exact real arithmetic (RealOpsModel.v): [Some x] is a float holding the real [x],
    [None] is NaN or an infinity. *)
From Coq Require Import Reals List ZArith Lra Lia Psatz.
From Verif Require Import Base StaticIterModel VectorModel RealOpsModel RealOpsProofs.
Import ListNotations.
Local Open Scope R_scope.

(** ** C127 *)

(** [pow] by a whole number of times is repeated multiplication. *)
Theorem C127_pow : forall x n, fl_pow (Some x) (Some (INR n)) = Some (x ^ n).
Proof. intros. apply powf_nat. Qed.

Theorem C127_sqrt : forall x,
  (0 <= x -> exists r, fl_sqrt (Some x) = Some r /\ 0 <= r /\ r * r = x) /\
  (x < 0 -> fl_sqrt (Some x) = None) /\ default_sqrt (Some x) = fl_sqrt (Some x).
Proof.
  intros x. split; [|split].
  - intros Hx. exists (sqrt x). cbn. destruct (Rle_dec 0 x); [|lra]. split; auto. split; [apply sqrt_pos|apply sqrt_sqrt; auto].
  - intros Hx. cbn. destruct (Rle_dec 0 x); [lra|auto].
  - unfold default_sqrt. change (fl_add fl_one fl_one) with (Some (1 + 1)). unfold fl_one. rewrite fl_div_some by lra.
    cbn [fl_pow lift2 fl_sqrt lift1]. destruct (Rle_dec 0 x) as [Hx|Hx].
    + destruct (Req_dec x 0) as [->|].
      * rewrite powf_zero by lra. rewrite sqrt_0. auto.
      * rewrite powf_pos by lra. f_equal. replace (1 / (1 + 1)) with (/ 2) by lra. apply Rpower_sqrt. lra.
    + apply powf_frac_neg; lra.
Qed.

Lemma root_pos x b : 0 < x -> b <> 0 -> Rpower (Rpower x (1 / b)) b = x.
Proof. intros Hx Hb. rewrite Rpower_mult. replace (1 / b * b) with 1 by (field; auto). apply Rpower_1; auto. Qed.

(** Expected of [root] and [cbrt]: the number whose power is [x], if there is one. *)
Definition odd_root (x : R) (n : nat) (r : fl) : Prop := exists v, r = Some v /\ v ^ n = x.

Theorem C127_root_refuted : exists x, (exists v, v ^ 3 = x) /\ ~ odd_root x 3 (fl_cbrt (Some x)) /\
  ~ odd_root x 3 (fl_root (Some x) (Some (INR 3))) /\ fl_cbrt (Some x) = None.
Proof.
  exists (-8). split; [exists (-2); lra|].
  assert (fl_cbrt (Some (-8)) = None) as E.
  { unfold fl_cbrt. change (fl_add (fl_add fl_one fl_one) fl_one) with (Some (1 + 1 + 1)). unfold fl_one.
    rewrite fl_div_some by lra. cbn. apply powf_frac_neg; lra. }
  split; [rewrite E; intros (v & H & _); discriminate|]. split; auto.
  unfold fl_root, fl_one. replace (INR 3) with (1 + 1 + 1) by (cbn; lra). rewrite fl_div_some by lra. cbn [fl_pow lift2].
  rewrite powf_frac_neg by lra. intros (v & H & _). discriminate.
Qed.

(** Non-negative numbers have their roots. *)
Theorem C127_root_partial : forall x n, 0 <= x -> (0 < n)%nat ->
  exists r, fl_root (Some x) (Some (INR n)) = Some r /\ 0 <= r /\ r ^ n = x.
Proof.
  intros x n Hx Hn. assert (0 < INR n) as Hp by (apply lt_0_INR; auto).
  unfold fl_root, fl_one. rewrite fl_div_some by lra. cbn [fl_pow lift2].
  destruct (Req_dec x 0) as [->|].
  - exists 0. rewrite powf_zero by (apply Rdiv_lt_0_compat; lra). split; auto. split; [lra|]. apply pow_i. auto.
  - exists (Rpower x (1 / INR n)). rewrite powf_pos by lra. split; auto.
    assert (0 < Rpower x (1 / INR n)) by apply exp_pos. split; [lra|].
    rewrite <- Rpower_pow by auto. apply root_pos; lra.
Qed.

Theorem C127_cbrt_partial : forall x, 0 <= x -> exists r, fl_cbrt (Some x) = Some r /\ 0 <= r /\ r ^ 3 = x.
Proof.
  intros x Hx. destruct (C127_root_partial x 3 Hx ltac:(lia)) as (r & E & H). exists r. split; auto.
Qed.

(** Negative numbers have none, in contrast to std's [cbrt] and to the mathematical odd root. *)
Theorem C127_negative_partial : forall x n, x < 0 -> (1 < n)%nat ->
  fl_root (Some x) (Some (INR n)) = None /\ fl_cbrt (Some x) = None.
Proof.
  intros x n Hx Hn. assert (1 < INR n) as Hp by (apply (lt_INR 1); auto). split.
  - unfold fl_root, fl_one. rewrite fl_div_some by lra. cbn. apply powf_frac_neg; auto.
    split; [apply Rdiv_lt_0_compat; lra|]. apply Rmult_lt_reg_r with (INR n); [lra|]. unfold Rdiv. rewrite Rmult_assoc, Rinv_l; lra.
  - unfold fl_cbrt. change (fl_add (fl_add fl_one fl_one) fl_one) with (Some (1 + 1 + 1)). unfold fl_one.
    rewrite fl_div_some by lra. cbn. apply powf_frac_neg; lra.
Qed.

(** [log] is the exponent that gives the number back, and inverts [pow]. *)
Theorem C127_log : forall x b, 0 < x -> 0 < b -> b <> 1 ->
  (exists l, fl_log (Some x) (Some b) = Some l /\ fl_pow (Some b) (Some l) = Some x) /\
  (forall y, exists p, fl_pow (Some b) (Some y) = Some p /\ fl_log (Some p) (Some b) = Some y).
Proof.
  intros x b Hx Hb Hn. assert (ln b <> 0) as Hl by (apply ln_neq_0; auto).
  assert (forall z, 0 < z -> fl_log (Some z) (Some b) = Some (ln z / ln b)) as L.
  { intros z Hz. unfold fl_log, fl_ln. cbn [lift1]. destruct (Rlt_dec 0 z); [|lra]. destruct (Rlt_dec 0 b); [|lra].
    apply fl_div_some. auto. }
  split.
  - exists (ln x / ln b). split; [apply L; auto|]. cbn. rewrite powf_pos by auto. f_equal. unfold Rpower.
    replace (ln x / ln b * ln b) with (ln x) by (field; auto). apply exp_ln. auto.
  - intros y. exists (Rpower b y). cbn [fl_pow lift2]. rewrite powf_pos by auto. split; auto.
    rewrite L by apply exp_pos. f_equal. unfold Rpower. rewrite ln_exp. field. auto.
Qed.

Example C127_demo : odd_root 27 3 (fl_cbrt (Some 27)) /\ fl_pow (Some (-2)) (Some (INR 3)) = Some (-8).
Proof.
  split.
  - destruct (C127_cbrt_partial 27 ltac:(lra)) as (r & E & _ & H). exists r. auto.
  - rewrite C127_pow. f_equal. lra.
Qed.
Example C127_log_demo : exists l, fl_log (Some 8) (Some 2) = Some l /\ fl_pow (Some 2) (Some l) = Some 8.
Proof. apply C127_log; lra. Qed.

Print Assumptions C127_pow.
Print Assumptions C127_sqrt.
Print Assumptions C127_root_refuted.
Print Assumptions C127_root_partial.
Print Assumptions C127_cbrt_partial.
Print Assumptions C127_negative_partial.
Print Assumptions C127_log.

(** ** C128 *)

(** Where sine, cosine and tangent are defined and not zero, [csc], [sec] and [cot] are their
    multiplicative inverses; otherwise they are not finite numbers. *)
Theorem C128_reciprocals : forall x,
  (sin x <> 0 -> exists v, fl_csc (Some x) = Some v /\ v * sin x = 1) /\
  (sin x = 0 -> fl_csc (Some x) = None /\ fl_cot (Some x) = None) /\
  (cos x <> 0 -> exists v, fl_sec (Some x) = Some v /\ v * cos x = 1) /\
  (cos x = 0 -> fl_sec (Some x) = None) /\
  (sin x <> 0 -> cos x <> 0 -> exists t v, fl_tan (Some x) = Some t /\ fl_cot (Some x) = Some v /\
     t * cos x = sin x /\ v * sin x = cos x).
Proof.
  intros x. unfold fl_csc, fl_sec, fl_cot. cbn [fl_sin fl_cos fl_tan lift1].
  split; [|split; [|split; [|split]]].
  - intros H. rewrite fl_div_some by auto. eexists. split; [reflexivity|]. field. auto.
  - intros H. split.
    + cbn. destruct (Req_EM_T (sin x) 0); [auto|contradiction].
    + destruct (Req_EM_T (cos x) 0); auto. cbn. destruct (Req_EM_T (tan x) 0) as [|N]; auto. exfalso. apply N. unfold tan. rewrite H. lra.
  - intros H. rewrite fl_div_some by auto. eexists. split; [reflexivity|]. field. auto.
  - intros H. cbn. destruct (Req_EM_T (cos x) 0); [auto|contradiction].
  - intros Hs Hc. destruct (Req_EM_T (cos x) 0); [contradiction|].
    assert (tan x <> 0) as Ht.
    { unfold tan. intros E. apply Hs. apply Rmult_eq_reg_r with (/ cos x); [|apply Rinv_neq_0_compat; auto].
      rewrite Rmult_0_l. exact E. }
    rewrite fl_div_some by auto. do 2 eexists. split; [reflexivity|]. split; [reflexivity|].
    unfold tan in *. split; field; auto.
Qed.

(** The identities sec^2 = 1 + tan^2 and csc^2 = 1 + cot^2. *)
Theorem C128_identities : forall x, sin x <> 0 -> cos x <> 0 ->
  exists s c t k, fl_sec (Some x) = Some s /\ fl_csc (Some x) = Some c /\ fl_tan (Some x) = Some t /\ fl_cot (Some x) = Some k /\
    s * s = 1 + t * t /\ c * c = 1 + k * k.
Proof.
  intros x Hs Hc. destruct (C128_reciprocals x) as (A & _ & B & _ & C).
  destruct (A Hs) as (c & Ec & Hcs). destruct (B Hc) as (s & Es & Hss). destruct (C Hs Hc) as (t & k & Et & Ek & Ht & Hk).
  exists s, c, t, k. repeat (split; [assumption|]).
  pose proof (sin2_cos2 x) as P. unfold Rsqr in P. split.
  - apply Rmult_eq_reg_r with (cos x * cos x); [|nra].
    replace (s * s * (cos x * cos x)) with ((s * cos x) * (s * cos x)) by ring.
    replace ((1 + t * t) * (cos x * cos x)) with (cos x * cos x + (t * cos x) * (t * cos x)) by ring. rewrite Hss, Ht. lra.
  - apply Rmult_eq_reg_r with (sin x * sin x); [|nra].
    replace (c * c * (sin x * sin x)) with ((c * sin x) * (c * sin x)) by ring.
    replace ((1 + k * k) * (sin x * sin x)) with (sin x * sin x + (k * sin x) * (k * sin x)) by ring. rewrite Hcs, Hk. lra.
Qed.

Example C128_demo : sin (PI / 4) <> 0 /\ cos (PI / 4) <> 0.
Proof.
  pose proof PI_RGT_0. split; apply Rgt_not_eq; [apply sin_gt_0|apply cos_gt_0]; lra.
Qed.

Print Assumptions C128_reciprocals.
Print Assumptions C128_identities.

(** ** C129 *)

(** [distance] of two vectors of real numbers is the Euclidean one: never NaN, symmetric, zero exactly for equal
    vectors, and subject to the triangle inequality, in every dimension. *)
Theorem C129_metric : forall a b c : list R, length a = length b -> length b = length c ->
  exists ab ba bc ac,
    fl_distance (map Some a) (map Some b) = Ret (Some ab) /\ fl_distance (map Some b) (map Some a) = Ret (Some ba) /\
    fl_distance (map Some b) (map Some c) = Ret (Some bc) /\ fl_distance (map Some a) (map Some c) = Ret (Some ac) /\
    0 <= ab /\ ab = ba /\ (ab = 0 <-> a = b) /\ ac <= ab + bc /\
    fl_distance_squared (map Some a) (map Some b) = Ret (Some (ab * ab)).
Proof.
  intros a b c L M. exists (sqrt (norm2 (rsub a b))), (sqrt (norm2 (rsub b a))), (sqrt (norm2 (rsub b c))), (sqrt (norm2 (rsub a c))).
  destruct (fl_distance_some a b L) as [S1 E1]. destruct (fl_distance_some b a (eq_sym L)) as [_ E2].
  destruct (fl_distance_some b c M) as [_ E3]. destruct (fl_distance_some a c (eq_trans L M)) as [_ E4].
  do 4 (split; [assumption|]). split; [apply sqrt_pos|]. split; [rewrite norm2_sym; auto|]. split; [|split].
  - split.
    + intros H. apply sqrt_eq_0 in H; [|apply norm2_nonneg]. apply rsub_zero; auto. apply norm2_zero. auto.
    + intros <-. rewrite rsub_self. apply sqrt_0.
  - rewrite (rsub_via a b c L M). apply minkowski. rewrite !rsub_length by auto. auto.
  - rewrite S1. rewrite sqrt_sqrt by apply norm2_nonneg. auto.
Qed.

(** In two dimensions: the usual formula. *)
Theorem C129_plane : forall x y u v : R,
  fl_distance [Some x; Some y] [Some u; Some v] = Ret (Some (sqrt ((x - u) * (x - u) + (y - v) * (y - v)))).
Proof.
  intros. destruct (fl_distance_some [x; y] [u; v] eq_refl) as [_ E]. etransitivity; [exact E|]. unfold norm2. cbn. do 3 f_equal. lra.
Qed.

(** [Complex::abs]: the distance from 0, zero only for 0, multiplicative, and subject to the triangle
    inequality. *)
Theorem C129_complex_abs : forall a b c d : R,
  let z := Cx (Some a) (Some b) in let w := Cx (Some c) (Some d) in
  exists r s p t, fl_abs z = Some r /\ fl_abs w = Some s /\
    fl_abs (c_mul fl_add fl_sub fl_mul z w) = Some p /\ fl_abs (c_add fl_add z w) = Some t /\
    0 <= r /\ r * r = a * a + b * b /\ (r = 0 <-> a = 0 /\ b = 0) /\ p = r * s /\ t <= r + s.
Proof.
  intros a b c d z w.
  assert (forall x y, fl_abs (Cx (Some x) (Some y)) = Some (sqrt (norm2 [x; y]))) as F.
  { intros x y. unfold fl_abs, abs_squared. cbn [real imag fl_mul fl_add lift2 fl_sqrt lift1].
    destruct (Rle_dec 0 (x * x + y * y)); [|nra]. do 2 f_equal. unfold norm2. cbn. lra. }
  exists (sqrt (norm2 [a; b])), (sqrt (norm2 [c; d])), (sqrt (norm2 [a * c - b * d; a * d + c * b])), (sqrt (norm2 [a + c; b + d])).
  split; [apply F|]. split; [apply F|]. split; [apply F|]. split; [apply F|].
  split; [apply sqrt_pos|]. split; [rewrite sqrt_sqrt by apply norm2_nonneg; unfold norm2; cbn; lra|]. split; [|split].
  - split.
    + intros H. apply sqrt_eq_0 in H; [|apply norm2_nonneg]. unfold norm2 in H. cbn in H. nra.
    + intros [-> ->]. replace (norm2 [0; 0]) with 0 by (unfold norm2; cbn; lra). apply sqrt_0.
  - rewrite <- sqrt_mult by apply norm2_nonneg. f_equal. unfold norm2. cbn. ring.
  - apply (minkowski [a; b] [c; d] eq_refl).
Qed.

Example C129_demo : fl_distance [Some 1; Some 2] [Some 4; Some 6] = Ret (Some 5).
Proof.
  rewrite C129_plane. do 2 f_equal. replace ((1 - 4) * (1 - 4) + (2 - 6) * (2 - 6)) with (5 * 5) by lra. apply sqrt_square. lra.
Qed.

Print Assumptions C129_metric.
Print Assumptions C129_plane.
Print Assumptions C129_complex_abs.
