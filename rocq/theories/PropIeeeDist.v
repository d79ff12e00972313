(** C169: distances between vectors of floats. *)
From Coq Require Import ZArith Reals List Bool Lia Lra Psatz.
From Flocq Require Import Core BinarySingleNaN.
From Verif Require Import Base StaticIterModel VectorModel IeeeModel IeeeSpec IeeeProofs IeeeMore IeeeMore2 IeeeDistModel PropIeee.
Import ListNotations.
Local Open Scope R_scope.

Section Format.
Context {prec emax : Z} {Hp : Prec_gt_0 prec} {Hm : Prec_lt_emax prec emax}.
Notation float := (binary_float prec emax).
Notation u := (unit_roundoff prec).
Notation two := (f_add f_one f_one : float).
Notation rnd := (round radix2 (SpecFloat.fexp prec emax) ZnearestE).

(** ** What is said of the power function *)

(** Squares have a relative error of at most [e] and an absolute one of at most [h]; only finite numbers have a finite square. *)
Definition squares_within (powf : float -> float -> float) (e h : R) : Prop :=
  forall x, finite (powf x two) -> finite x /\
    Rabs (value (powf x two) - value x * value x) <= e * (value x * value x) + h.
(** The same without [h], where the square is not subnormal. *)
Definition squares_normally (powf : float -> float -> float) (e : R) : Prop :=
  forall x, finite (powf x two) -> finite x /\
    (zero_or_normal emax (value x * value x) -> Rabs (value (powf x two) - value x * value x) <= e * (value x * value x)).

Definition squared_differences (a b : list R) : list R := map (fun p => (fst p - snd p) * (fst p - snd p)) (combine a b).

(** ** Proofs *)

Lemma distance_fold (powf : float -> float -> float) : forall (a b : list float) acc,
  zip_fold (fun x y => Ret (f_add x y)) (fun l r => obind (Ret (f_sub l r)) (fun d => Ret (powf d two))) a b acc =
  Ret (fold_left f_add (map (fun p => powf (f_sub (fst p) (snd p)) two) (combine a b)) acc).
Proof. induction a as [|x a IH]; intros [|y b] acc; try reflexivity. cbn [zip_fold obind combine map fold_left fst snd]. apply IH. Qed.

Lemma distance_squared_fold (powf : float -> float -> float) (a b : list float) :
  f_distance_squared powf a b = Ret (fold_left f_add (map (fun p => powf (f_sub (fst p) (snd p)) two) (combine a b)) f_zero).
Proof. unfold f_distance_squared, distance_squared. cbn [obind]. apply distance_fold. Qed.

(** One squared difference. *)
Lemma one_square (x y s : float) e h : 0 <= e -> finite (f_sub x y) ->
  Rabs (value s - value (f_sub x y) * value (f_sub x y)) <= e * (value (f_sub x y) * value (f_sub x y)) + h ->
  let t := (value x - value y) * (value x - value y) in
  Rabs (value s - t) <= ((1 + u) ^ 2 * (1 + e) - 1) * t + h /\ 0 <= t.
Proof.
  intros He F B t. destruct (sub_ok x y F) as (_ & _ & d & Hd & E). rewrite E in B. pose proof (@u_pos prec) as U.
  assert (0 <= t) as T by (unfold t; apply Rle_0_sqr). split; auto.
  replace ((value x - value y) * (1 + d) * ((value x - value y) * (1 + d))) with (t * ((1 + d) * (1 + d))) in B by (unfold t; ring).
  apply Rabs_le_inv in Hd. revert B T. generalize t. clear t E. intros t B T.
  replace (value s - t) with ((value s - t * ((1 + d) * (1 + d))) + t * ((1 + d) * (1 + d) - 1)) by ring.
  eapply Rle_trans; [apply Rabs_triang|]. rewrite (Rabs_mult t), (Rabs_pos_eq t) by auto.
  assert ((1 + d) * (1 + d) <= (1 + u) ^ 2) as Q by (cbn [pow]; nra).
  assert (Rabs ((1 + d) * (1 + d) - 1) <= (1 + u) ^ 2 - 1) as Q2 by (apply Rabs_le; cbn [pow]; split; nra).
  assert (t * Rabs ((1 + d) * (1 + d) - 1) <= t * ((1 + u) ^ 2 - 1)) as Q3 by (apply Rmult_le_compat_l; auto).
  assert (t * ((1 + d) * (1 + d)) <= t * (1 + u) ^ 2) as Q4 by (apply Rmult_le_compat_l; auto).
  assert (e * (t * ((1 + d) * (1 + d))) <= e * (t * (1 + u) ^ 2)) as Q5 by (apply Rmult_le_compat_l; auto).
  lra.
Qed.

(** All of them, and their sum. *)
Lemma sum_of_squares (powf : float -> float -> float) (e h : R) : 0 <= e -> 0 <= h -> forall a b : list float,
  (forall x y, In (x, y) (combine a b) -> finite (powf (f_sub x y) two) -> finite (f_sub x y) /\
     Rabs (value (powf (f_sub x y) two) - value (f_sub x y) * value (f_sub x y)) <= e * (value (f_sub x y) * value (f_sub x y)) + h) ->
  let s := map (fun p => powf (f_sub (fst p) (snd p)) two) (combine a b) in
  let T := total (squared_differences (map value a) (map value b)) in
  length a = length b -> Forall finite s ->
  Forall finite a /\ Forall finite b /\ 0 <= T /\
  Rabs (total (map value s) - T) <= ((1 + u) ^ 2 * (1 + e) - 1) * T + INR (length a) * h /\
  total (magnitudes (map value s)) <= (1 + u) ^ 2 * (1 + e) * T + INR (length a) * h.
Proof.
  intros He Hh. induction a as [|x a IH]; intros [|y b] H s T L F; try discriminate L.
  - unfold s, T. cbn. rewrite Rminus_0_r, Rabs_R0. repeat split; auto; lra.
  - unfold s in F. cbn [combine map fst snd] in F. inversion F as [|? ? F1 F2]; subst.
    destruct (H x y (or_introl eq_refl) F1) as [Fd B]. destruct (sub_ok x y Fd) as (Fx & Fy & _).
    destruct (one_square x y _ e h He Fd B) as [C D].
    destruct (IH b) as (Fa & Fb & T0 & I1 & I2); [intros x' y' I; apply H; right; exact I|cbn in L; lia|exact F2|].
    unfold s, T, squared_differences, magnitudes in *. cbn [combine map fst snd total length] in *. rewrite S_INR.
    set (t := (value x - value y) * (value x - value y)) in *. set (v := value (powf (f_sub x y) two)) in *.
    set (S' := total (map value _)) in *. set (T' := total (map _ (combine (map value a) (map value b)))) in *.
    set (M := total (map Rabs _)) in *.
    split; [constructor; auto|]. split; [constructor; auto|]. split; [lra|]. split.
    + replace (v + S' - (t + T')) with ((v - t) + (S' - T')) by ring. eapply Rle_trans; [apply Rabs_triang|]. lra.
    + assert (Rabs v <= (1 + u) ^ 2 * (1 + e) * t + h); [|lra].
      replace v with (v - t + t) by ring. eapply Rle_trans; [apply Rabs_triang|]. rewrite (Rabs_pos_eq t) by auto. lra.
Qed.

Lemma distance_bound (powf : float -> float -> float) (e h : R) (a b : list float) d : 0 <= e -> 0 <= h -> length a = length b ->
  (forall x y, In (x, y) (combine a b) -> finite (powf (f_sub x y) two) -> finite (f_sub x y) /\
     Rabs (value (powf (f_sub x y) two) - value (f_sub x y) * value (f_sub x y)) <= e * (value (f_sub x y) * value (f_sub x y)) + h) ->
  f_distance_squared powf a b = Ret d -> finite d ->
  let T := total (squared_differences (map value a) (map value b)) in
  Forall finite a /\ Forall finite b /\ 0 <= T /\
  Rabs (value d - T) <= ((1 + u) ^ (length a + 1) * (1 + e) - 1) * T + INR (length a) * (1 + u) ^ length a * h.
Proof.
  intros He Hh L H E F T. rewrite distance_squared_fold in E. injection E as E.
  destruct (sum_finite _ d E F) as [Fs B]. destruct (sum_of_squares powf e h He Hh a b H L Fs) as (Fa & Fb & T0 & B1 & B2).
  split; auto. split; auto. split; auto. fold T in B1, B2, T0. rewrite map_length, combine_length, L, Nat.min_id, <- L in B.
  set (S := total (map value _)) in *. set (M := total (magnitudes _)) in *. pose proof (@u_pos prec) as U.
  destruct (length a) as [|n] eqn:N.
  { cbn [Nat.sub] in B. change ((1 + u) ^ 0) with 1 in B. cbn [INR] in *.
    replace (value d - T) with (value d - S + (S - T)) by ring. eapply Rle_trans; [apply Rabs_triang|].
    assert (T = 0) as ->. { unfold T, squared_differences. destruct a; [|discriminate N]. reflexivity. }
    lra. }
  replace (Datatypes.S n - 1)%nat with n in B by lia. set (A := (1 + u) ^ n) in *.
  assert (1 <= A) as A1 by (apply pow_R1_Rle; lra).
  replace ((1 + u) ^ (Datatypes.S n + 1)) with (A * (1 + u) ^ 2) by (unfold A; rewrite <- pow_add; f_equal; lia).
  replace ((1 + u) ^ (Datatypes.S n)) with (A * (1 + u)) by (unfold A; cbn [pow]; ring).
  set (Q := (1 + u) ^ 2 * (1 + e)) in *. set (K := INR (Datatypes.S n)) in *. assert (0 <= K) by apply pos_INR.
  replace (value d - T) with (value d - S + (S - T)) by ring. eapply Rle_trans; [apply Rabs_triang|].
  assert ((A - 1) * M <= (A - 1) * (Q * T + K * h)) by (apply Rmult_le_compat_l; lra).
  assert (0 <= K * A * u * h). { repeat apply Rmult_le_pos; lra. }
  replace (A * (1 + u) ^ 2 * (1 + e)) with (A * Q) by (unfold Q; ring). lra.
Qed.

(** The square root never underflows. *)
Lemma sqrt_any (x : float) : finite (f_sqrt x) -> finite x /\ 0 <= value x /\
  exists e, Rabs e <= u /\ value (f_sqrt x) = sqrt (value x) * (1 + e).
Proof.
  intros F. destruct (Bsqrt_correct prec emax Hp Hm mode_NE x) as (C1 & C2 & _). unfold f_sqrt, finite in *. rewrite C2 in F.
  assert (is_finite x = true /\ 0 <= value x) as [Fx P].
  { destruct x as [s|s| |[] m e Hb]; try discriminate F; split; auto; try (cbn; lra).
    unfold value, B2R. apply F2R_ge_0. cbn. lia. }
  split; [exact Fx|]. split; [exact P|]. unfold value at 1. rewrite C1. apply round_err_normal. fold (value x).
  destruct (Rle_lt_or_eq_dec _ _ P) as [Q|Q]; [|left; rewrite <- Q; apply sqrt_0]. right.
  rewrite Rabs_pos_eq by apply sqrt_pos. rewrite normal_bpow.
  assert (bpow radix2 (3 - emax - prec) <= value x) as G.
  { unfold value. pose proof (generic_format_B2R prec emax x) as Gx.
    apply generic_format_ge_bpow with (fexp := SpecFloat.fexp prec emax); auto.
    intros e. unfold SpecFloat.fexp, SpecFloat.emin. lia. }
  replace (2 - emax)%Z with ((4 - 2 * emax) / 2)%Z by (replace (4 - 2 * emax)%Z with ((2 - emax) * 2)%Z by ring; apply Z.div_mul; lia).
  rewrite <- (sqrt_square (bpow radix2 ((4 - 2 * emax) / 2))) by apply bpow_ge_0. apply sqrt_le_1; [|lra|].
  - pose proof (bpow_gt_0 radix2 ((4 - 2 * emax) / 2)). nra.
  - rewrite <- bpow_plus. eapply Rle_trans; [|exact G]. apply bpow_le.
    replace (4 - 2 * emax)%Z with ((2 - emax) * 2)%Z by ring. rewrite Z.div_mul by lia. unfold Prec_lt_emax in Hm. lia.
Qed.

(** [sqrt] halves a relative error, at least does not increase it. *)
Lemma sqrt_close d T K : 0 <= d -> 0 <= T -> 0 <= K -> Rabs (d - T) <= K * T -> Rabs (sqrt d - sqrt T) <= K * sqrt T.
Proof.
  intros D0 T0 K0 B. apply Rabs_le_inv in B. pose proof (sqrt_pos d) as S1. pose proof (sqrt_pos T) as S2.
  pose proof (sqrt_sqrt d D0) as Q1. pose proof (sqrt_sqrt T T0) as Q2. apply Rabs_le. split.
  - destruct (Rle_dec 1 K) as [G|G]; [nra|]. assert ((1 - K) * sqrt T <= sqrt d); [|lra].
    apply Rsqr_incr_0; [|apply Rmult_le_pos; lra|lra]. unfold Rsqr. rewrite Q1.
    replace ((1 - K) * sqrt T * ((1 - K) * sqrt T)) with ((1 - K) * ((1 - K) * (sqrt T * sqrt T))) by ring. rewrite Q2.
    assert (0 <= K * ((1 - K) * T)) by (apply Rmult_le_pos; [lra|apply Rmult_le_pos; lra]). lra.
  - assert (sqrt d <= (1 + K) * sqrt T); [|lra].
    apply Rsqr_incr_0; [|lra|apply Rmult_le_pos; lra]. unfold Rsqr. rewrite Q1.
    replace ((1 + K) * sqrt T * ((1 + K) * sqrt T)) with ((1 + K) * ((1 + K) * (sqrt T * sqrt T))) by ring. rewrite Q2.
    assert (0 <= K * ((1 + K) * T)) by (apply Rmult_le_pos; [lra|apply Rmult_le_pos; lra]). lra.
Qed.

(** ** The theorems *)

(** The squared distance, without conditions on the components: never a panic, and a bound on the error if it is finite. *)
Theorem C169_distance_squared : forall (powf : float -> float -> float) e h (a b : list float), 0 <= e -> 0 <= h -> squares_within powf e h -> length a = length b ->
  exists d, f_distance_squared powf a b = Ret d /\
  (finite d -> Forall finite a /\ Forall finite b /\
     let T := total (squared_differences (map value a) (map value b)) in
     Rabs (value d - T) <= ((1 + u) ^ (length a + 1) * (1 + e) - 1) * T + INR (length a) * (1 + u) ^ length a * h).
Proof.
  intros powf e h a b He Hh W L. eexists. split; [apply distance_squared_fold|]. intros F.
  destruct (fun H => distance_bound powf e h a b _ He Hh L H (distance_squared_fold powf a b) F) as (Fa & Fb & _ & B); auto.
Qed.

(** The distance: relative error, where no squared difference is subnormal. *)
Theorem C169_distance : forall (powf : float -> float -> float) e (a b : list float), 0 <= e -> squares_normally powf e -> length a = length b ->
  Forall (fun t => t = 0 \/ smallest_normal emax <= (1 - u) ^ 2 * t) (squared_differences (map value a) (map value b)) ->
  exists r, f_distance powf a b = Ret r /\
  (finite r -> Forall finite a /\ Forall finite b /\ 0 <= value r /\
     let D := sqrt (total (squared_differences (map value a) (map value b))) in
     Rabs (value r - D) <= ((1 + u) ^ (length a + 2) * (1 + e) - 1) * D).
Proof.
  intros powf e a b He W L N. eexists. split; [unfold f_distance; rewrite distance_squared_fold; reflexivity|]. intros F.
  destruct (sqrt_any _ F) as (Fd & P & d & Hd & E).
  destruct (fun H => distance_bound powf e 0 a b _ He (Rle_refl 0) L H (distance_squared_fold powf a b) Fd) as (Fa & Fb & T0 & B).
  { intros x y I Fs. destruct (W _ Fs) as [Fx C]. split; auto. rewrite Rplus_0_r. apply C.
    destruct (sub_ok x y Fx) as (_ & _ & d' & Hd' & ->). apply Rabs_le_inv in Hd'.
    assert (In ((value x - value y) * (value x - value y)) (squared_differences (map value a) (map value b))) as J.
    { unfold squared_differences. apply in_map_iff. exists (value x, value y). split; auto.
      assert (combine (map value a) (map value b) = map (fun p => (value (fst p), value (snd p))) (combine a b)) as ->.
      { clear. revert b. induction a as [|z a IH]; intros [|w b]; cbn; auto. f_equal. apply IH. }
      apply in_map_iff. exists (x, y). auto. }
    rewrite Forall_forall in N. destruct (N _ J) as [Z|Z]; [left; apply Rmult_integral in Z; destruct Z as [-> | ->]; ring|]. right. rewrite Rabs_pos_eq by apply Rle_0_sqr.
    eapply Rle_trans; [exact Z|]. pose proof (@u_half prec Hp). pose proof (@u_pos prec).
    replace ((value x - value y) * (1 + d') * ((value x - value y) * (1 + d'))) with
      ((1 + d') ^ 2 * ((value x - value y) * (value x - value y))) by ring.
    apply Rmult_le_compat_r; [apply Rle_0_sqr|]. clear - Hd' H H0. revert Hd' H H0. generalize u. intros v [] ? ?. cbn [pow]. nra. }
  split; auto. split; auto. rewrite E. apply Rabs_le_inv in Hd. pose proof (@u_half prec Hp). pose proof (@u_pos prec).
  pose proof (sqrt_pos (value (fold_left f_add (map (fun p => powf (f_sub (fst p) (snd p)) two) (combine a b)) f_zero))) as S0.
  split; [apply Rmult_le_pos; lra|]. intros D. rewrite Rmult_0_r, Rplus_0_r in B.
  assert (1 <= (1 + u) ^ (length a + 1) * (1 + e)) as K1.
  { assert (1 <= (1 + u) ^ (length a + 1)) by (apply pow_R1_Rle; lra). nra. }
  replace ((1 + u) ^ (length a + 2)) with ((1 + u) * (1 + u) ^ (length a + 1)) by (rewrite tech_pow_Rmult; f_equal; lia).
  apply sqrt_close in B; auto; [|lra]. fold D in B. set (s := sqrt (value _)) in *. set (K := (1 + u) ^ (length a + 1) * (1 + e)) in *.
  replace ((1 + u) * (1 + u) ^ (length a + 1) * (1 + e)) with ((1 + u) * K) by (unfold K; ring).
  assert (0 <= D) as D0 by apply sqrt_pos. apply Rabs_le_inv in B.
  replace (s * (1 + d) - D) with ((s - D) * (1 + d) + D * d) by ring.
  eapply Rle_trans; [apply Rabs_triang|]. rewrite !Rabs_mult, (Rabs_pos_eq D), (Rabs_pos_eq (1 + d)) by lra.
  assert (Rabs (s - D) <= (K - 1) * D) as B' by (apply Rabs_le; lra).
  assert (Rabs d <= u) as Hd' by (apply Rabs_le; lra).
  assert (Rabs (s - D) * (1 + d) <= (K - 1) * D * (1 + u)) by (apply Rmult_le_compat; try lra; apply Rabs_pos).
  assert (D * Rabs d <= D * u) by (apply Rmult_le_compat_l; auto). lra.
Qed.

(** From one vector to itself. *)
Theorem C169_same_vector : forall (powf : float -> float -> float) (a : list float), powf f_zero two = f_zero -> Forall finite a ->
  f_distance_squared powf a a = Ret f_zero /\ f_distance powf a a = Ret f_zero.
Proof.
  intros powf a Z F. assert (f_distance_squared powf a a = Ret f_zero) as E; [|split; [exact E|unfold f_distance; rewrite E; reflexivity]].
  rewrite distance_squared_fold. f_equal. induction F as [|x a Fx F IH]; [reflexivity|]. cbn [combine map fold_left fst snd].
  replace (f_sub x x) with (f_zero : float); [rewrite Z; exact IH|]. symmetry.
  unfold f_sub, f_zero. pose proof (Bminus_correct prec emax Hp Hm mode_NE x x Fx Fx) as C.
  rewrite Rminus_eq_0, round_0, Rabs_R0 in C by apply valid_rnd_N. rewrite Rlt_bool_true in C by apply bpow_gt_0.
  destruct C as (C1 & C2 & C3). rewrite Rcompare_Eq in C3 by reflexivity.
  destruct x as [s|s| |s m e Hb]; try discriminate Fx; [destruct s; reflexivity|].
  apply B2R_Bsign_inj; auto. rewrite C3. cbn. destruct s; reflexivity.
Qed.

Lemma sub_swap (x y : float) : f_sub y x = Bopp (f_sub x y) \/ f_sub y x = f_sub x y.
Proof.
  destruct (is_finite x) eqn:Fx; destruct (is_finite y) eqn:Fy.
  - unfold f_sub. pose proof (Bminus_correct prec emax Hp Hm mode_NE x y Fx Fy) as C.
    pose proof (Bminus_correct prec emax Hp Hm mode_NE y x Fy Fx) as D.
    assert (rnd (B2R y - B2R x) = - rnd (B2R x - B2R y)) as R.
    { rewrite <- round_NE_opp. f_equal. ring. }
    change (round_mode mode_NE) with ZnearestE in C, D. rewrite R, Rabs_Ropp in D. set (r := rnd (B2R x - B2R y)) in *.
    destruct (Req_dec (B2R x) (B2R y)) as [Q|Q].
    + assert (r = 0) as Z by (unfold r; rewrite Q, Rminus_eq_0, round_0 by apply valid_rnd_N; reflexivity).
      rewrite Z, Rabs_R0, Rlt_bool_true in C, D by apply bpow_gt_0. destruct C as (C1 & C2 & C3), D as (D1 & D2 & D3).
      rewrite Rcompare_Eq in C3, D3 by lra. destruct (Bool.bool_dec (Bsign (Bminus mode_NE y x)) (Bsign (Bminus mode_NE x y))) as [G|G].
      * right. apply B2R_Bsign_inj; auto; lra.
      * left. apply B2R_Bsign_inj; auto; [rewrite is_finite_Bopp; auto|rewrite B2R_Bopp; lra|].
        rewrite Bsign_Bopp by (destruct (Bminus mode_NE x y); auto; discriminate C2).
        destruct (Bsign (Bminus mode_NE y x)), (Bsign (Bminus mode_NE x y)); auto; elim G; reflexivity.
    + left. destruct (Rlt_bool (Rabs r) (bpow radix2 emax)).
      * destruct C as (C1 & C2 & C3), D as (D1 & D2 & D3).
        apply B2R_Bsign_inj; auto; [rewrite is_finite_Bopp; auto|rewrite B2R_Bopp, C1, D1; reflexivity|].
        rewrite Bsign_Bopp by (destruct (Bminus mode_NE x y); auto; discriminate C2). rewrite C3, D3.
        destruct (Rcompare_spec (B2R y - B2R x) 0) as [H|H|H]; [|lra|].
        -- rewrite Rcompare_Gt by lra. reflexivity.
        -- rewrite Rcompare_Lt by lra. reflexivity.
      * destruct C as (C1 & C3), D as (D1 & D3). rewrite C3 in C1.
        destruct (Bminus mode_NE x y) as [|s| |], (Bminus mode_NE y x) as [|s'| |]; try discriminate C1; try discriminate D1.
        injection C1 as ->. injection D1 as ->. destruct (Bsign y); reflexivity.
  - left. destruct x as [s|s| |s m e Hb], y as [s'|s'| |s' m' e' Hb']; try discriminate Fx; try discriminate Fy; cbn; try destruct s'; reflexivity.
  - left. destruct x as [s|s| |s m e Hb], y as [s'|s'| |s' m' e' Hb']; try discriminate Fx; try discriminate Fy; cbn; try destruct s; reflexivity.
  - left. destruct x as [s|s| |s m e Hb], y as [s'|s'| |s' m' e' Hb']; try discriminate Fx; try discriminate Fy; cbn; try destruct s; try destruct s'; reflexivity.
Qed.

(** The same from here to there and back, to the bit, for any components. *)
Theorem C169_symmetric : forall (powf : float -> float -> float) (a b : list float), (forall x, powf (Bopp x) two = powf x two) ->
  f_distance_squared powf a b = f_distance_squared powf b a /\ f_distance powf a b = f_distance powf b a.
Proof.
  intros powf a b S. assert (f_distance_squared powf a b = f_distance_squared powf b a) as E; [|split; [exact E|unfold f_distance; rewrite E; reflexivity]].
  rewrite !distance_squared_fold. do 2 f_equal. revert b. induction a as [|x a IH]; intros [|y b]; try reflexivity.
  cbn [combine map fst snd]. f_equal; [|apply IH]. destruct (sub_swap x y) as [->| ->]; [symmetry; apply S|reflexivity].
Qed.

(** A power function that rounds squares correctly is one. *)
Lemma correct_rounding : squares_within (fun x _ => f_mul x x) u (half_smallest prec emax) /\ squares_normally (fun x _ => f_mul x x) u /\
  (forall x : float, f_mul (Bopp x) (Bopp x) = f_mul x x).
Proof.
  split; [|split].
  - intros x F. destruct (mul_ok x x F) as (Fx & _ & e & h & He & Hh & E). split; auto. rewrite E.
    replace (value x * value x * (1 + e) + h - value x * value x) with (value x * value x * e + h) by ring.
    eapply Rle_trans; [apply Rabs_triang|]. rewrite Rabs_mult, (Rabs_pos_eq (value x * value x)) by nra. nra.
  - intros x F. destruct (mul_ok x x F) as (Fx & _). split; auto. intros N. destruct (mul_ok_normal x x F N) as (e & He & E). rewrite E.
    replace (value x * value x * (1 + e) - value x * value x) with (value x * value x * e) by ring.
    rewrite Rabs_mult, (Rabs_pos_eq (value x * value x)) by nra. nra.
  - intros x. unfold f_mul. destruct x as [s|s| |s m e Hb]; try (destruct s; reflexivity); [reflexivity|].
    set (x := B754_finite s m e Hb). pose proof (Bmult_correct prec emax Hp Hm mode_NE x x) as C.
    pose proof (Bmult_correct prec emax Hp Hm mode_NE (Bopp x) (Bopp x)) as D.
    rewrite B2R_Bopp, Rmult_opp_opp in D. replace (xorb (Bsign (Bopp x)) (Bsign (Bopp x))) with (xorb (Bsign x) (Bsign x)) in D by (destruct s; reflexivity).
    destruct Rlt_bool.
    + destruct C as (C1 & C2 & C3), D as (D1 & D2 & D3).
      assert (forall z : float, is_finite z = true -> is_nan z = false) as G by (intros []; auto; discriminate).
      apply B2R_Bsign_inj; auto; [congruence|]. rewrite C3, D3; auto.
    + apply B2SF_inj. congruence.
Qed.
End Format.
Print Assumptions C169_distance_squared.
Print Assumptions C169_distance.
Print Assumptions C169_same_vector.
Print Assumptions C169_symmetric.

(** With correctly rounded squares, in [f64]: two vectors at distance zero that differ, and a detour that is shorter. *)
Definition square (x _ : f64) : f64 := f_mul x x.
Theorem C169_no_metric : exists a b c d e : f64, finite a /\ finite b /\ finite c /\ finite d /\ finite e /\
  value a <> value b /\ f_distance square [a] [b] = Ret f_zero /\
  exists cd de ce, f_distance square [c] [d] = Ret cd /\ f_distance square [d] [e] = Ret de /\ f_distance square [c] [e] = Ret ce /\
    finite cd /\ finite de /\ finite ce /\ value cd + value de < value ce.
Proof.
  exists f_zero, (of_z 1 (-600)), (of_z (-1) 0), f_zero, (of_z (2 ^ 52 + 3) (-52)).
  do 5 (split; [reflexivity || (apply of_z_value; lia)|]). split; [|split].
  - rewrite pow_1_value by lia. change (value (f_zero : f64)) with 0. pose proof (powerRZ_lt 2 (-600) ltac:(lra)). lra.
  - vm_compute. reflexivity.
  - exists (of_z 1 0), (of_z (2 ^ 52 + 3) (-52)), (of_z (2 ^ 51 + 1) (-50)).
    do 3 (split; [unfold f_distance; rewrite distance_squared_fold; cbn [obind]; f_equal; apply B2SF_inj; vm_compute; reflexivity|]).
    do 3 (split; [apply of_z_value; lia|]).
    destruct (of_z_value 1 0) as [_ ->]; try lia. destruct (of_z_value (2 ^ 52 + 3) (-52)) as [_ ->]; try lia.
    destruct (of_z_value (2 ^ 51 + 1) (-50)) as [_ ->]; try lia.
    rewrite <- !bpow_powerRZ with (r := radix2).
    replace (bpow radix2 (-50)) with (bpow radix2 (-52) * 4) by (change 4 with (bpow radix2 2); rewrite <- bpow_plus; f_equal; lia).
    replace (bpow radix2 0) with (bpow radix2 (-52) * IZR (2 ^ 52)) by (change (IZR (2 ^ 52)) with (bpow radix2 52); rewrite <- bpow_plus; f_equal; lia).
    pose proof (bpow_gt_0 radix2 (-52)) as P. revert P. generalize (bpow radix2 (-52)). intros p P.
    replace (2 ^ 52 + 3)%Z with 4503599627370499%Z by reflexivity. replace (2 ^ 52)%Z with 4503599627370496%Z by reflexivity.
    replace (2 ^ 51 + 1)%Z with 2251799813685249%Z by reflexivity. lra.
Qed.
Print Assumptions C169_no_metric.

Example C169_demo : let a := [of_z 1 0; of_z 2 0] in let b := [of_z 4 0; of_z 6 0] in
  squares_within square (unit_roundoff 53) (half_smallest 53 1024) /\ squares_normally square (unit_roundoff 53) /\
  (forall x, square (Bopp x) (f_add f_one f_one) = square x (f_add f_one f_one)) /\ square f_zero (f_add f_one f_one) = f_zero /\
  (exists r, f_distance square a b = Ret r /\ fbits r = fbits (of_z 5 0) /\ finite r) /\
  Forall (fun t => t = 0 \/ smallest_normal 1024 <= (1 - unit_roundoff 53) ^ 2 * t) (squared_differences (map value a) (map value b)).
Proof.
  cbv zeta. destruct (@correct_rounding 53 1024 prec_f64 emax_f64) as (C1 & C2 & C3).
  split; [exact C1|]. split; [exact C2|]. split; [exact C3|]. split; [vm_compute; reflexivity|]. split.
  { eexists. split; [unfold f_distance; rewrite distance_squared_fold; reflexivity|]. split; vm_compute; reflexivity. }
  cbn [map]. destruct (of_z_value 1 0) as [_ ->]; try lia. destruct (of_z_value 2 0) as [_ ->]; try lia.
  destruct (of_z_value 4 0) as [_ ->]; try lia. destruct (of_z_value 6 0) as [_ ->]; try lia.
  pose proof (@u_half 53 prec_f64) as U. pose proof (@u_pos 53) as V. pose proof (@normal_le1 53 1024 prec_f64 emax_f64) as N.
  assert (/ 4 <= (1 - unit_roundoff 53) ^ 2) as Q by (cbn [pow]; nra).
  unfold squared_differences. cbn [combine map fst snd powerRZ].
  apply Forall_cons; [right; nra|]. apply Forall_cons; [right; nra|]. constructor.
Qed.
