(** Rounding errors of Gaussian elimination over floats. *)
From Coq Require Import ZArith Reals List Bool Arith Lia Lra Psatz Sorted.
From Flocq Require Import Core BinarySingleNaN Relative Plus_error.
From Verif Require Import Base StaticIterModel VectorModel MatrixModel MatrixProofs GaussProofs IeeeModel IeeeSpec IeeeProofs IeeeMore
  GaussFloatSpec GaussFloat.
Import ListNotations.
Local Open Scope R_scope.

Section Format.
Context {prec emax : Z} {Hp : Prec_gt_0 prec} {Hm : Prec_lt_emax prec emax}.
Notation float := (binary_float prec emax).
Notation u := (unit_roundoff prec).
Notation eta := (half_smallest prec emax).
Notation rnd := (round radix2 (SpecFloat.fexp prec emax) ZnearestE).

(** Errors relative to the rounded result. *)
Lemma sub_err (x y : float) : finite (f_sub x y) -> finite x /\ finite y /\
  Rabs (value x - value y - value (f_sub x y)) <= u * Rabs (value (f_sub x y)).
Proof.
  intros F. destruct (sub_ok x y F) as (Fx & Fy & _). split; auto. split; auto.
  unfold finite, f_sub in *. pose proof (Bminus_correct prec emax Hp Hm mode_NE x y Fx Fy) as C.
  destruct Rlt_bool; [|destruct C as [C _]; elim (overflow_not_finite _ _ C); exact F].
  destruct C as [C _]. unfold value. rewrite C.
  destruct (FLT_plus_error_N_round_ex radix2 (3 - emax - prec) prec (fun n => negb (Z.even n)) (B2R x) (- B2R y)) as (e & He & E).
  - apply generic_format_B2R.
  - apply generic_format_opp, generic_format_B2R.
  - assert (u_ro radix2 prec = u) as U by (unfold u_ro; rewrite half_bpow, u_bpow; f_equal; lia). rewrite U in He.
    change (B2R x - B2R y) with (B2R x + - B2R y). change (round_mode mode_NE) with ZnearestE.
    change (round radix2 (FLT_exp (3 - emax - prec) prec) (Znearest (fun n => negb (Z.even n)))) with rnd in E.
    set (r := rnd (B2R x + - B2R y)) in *. rewrite E. replace (r * (1 + e) - r) with (e * r) by ring. rewrite Rabs_mult.
    apply Rmult_le_compat_r; [apply Rabs_pos|exact He].
Qed.

Lemma round_back x : Rabs (x - rnd x) <= u * Rabs (rnd x) + eta.
Proof.
  pose proof u_pos (prec := prec). pose proof (eta_pos (prec := prec) (emax := emax)).
  rewrite Rabs_minus_sym. eapply Rle_trans; [apply (error_le_half_ulp_round radix2 (FLT_exp (3 - emax - prec) prec))|].
  change (round radix2 (FLT_exp (3 - emax - prec) prec) (Znearest (fun n => negb (Z.even n))) x) with (rnd x).
  set (r := rnd x). pose proof (Rabs_pos r).
  destruct (Rlt_or_le (Rabs r) (bpow radix2 (3 - emax - prec + prec))) as [S|S].
  - rewrite (ulp_FLT_small radix2 (3 - emax - prec) prec r S). rewrite half_bpow.
    replace (3 - emax - prec - 1)%Z with (2 - emax - prec)%Z by lia. rewrite <- eta_bpow. nra.
  - assert (bpow radix2 (3 - emax - prec + prec - 1) <= Rabs r) as S'.
    { eapply Rle_trans; [|exact S]. apply bpow_le. lia. }
    pose proof (ulp_FLT_le radix2 (3 - emax - prec) prec r S') as B.
    apply Rle_trans with (/ 2 * (Rabs r * bpow radix2 (1 - prec))); [lra|].
    replace (/ 2 * (Rabs r * bpow radix2 (1 - prec))) with (Rabs r * (/ 2 * bpow radix2 (1 - prec))) by ring.
    rewrite half_bpow. replace (1 - prec - 1)%Z with (- prec)%Z by lia. rewrite <- u_bpow. lra.
Qed.

Lemma mul_err (x y : float) : finite (f_mul x y) -> finite x /\ finite y /\
  Rabs (value (f_mul x y) - value x * value y) <= u * Rabs (value x * value y) + eta.
Proof.
  intros F. destruct (mul_ok x y F) as (Fx & Fy & e & h & He & Hh & ->). split; auto. split; auto.
  replace (value x * value y * (1 + e) + h - value x * value y) with (e * (value x * value y) + h) by ring.
  eapply Rle_trans; [apply Rabs_triang|]. rewrite Rabs_mult. apply Rplus_le_compat; [|exact Hh].
  apply Rmult_le_compat_r; [apply Rabs_pos|exact He].
Qed.

Lemma div_err (x y : float) : value y <> 0 -> finite (f_div x y) ->
  Rabs (value x - value (f_div x y) * value y) <= u * Rabs (value (f_div x y) * value y) + eta * Rabs (value y).
Proof.
  unfold finite, f_div, value. intros Y F. pose proof (Bdiv_correct prec emax Hp Hm mode_NE x y Y) as C.
  destruct Rlt_bool; [|elim (overflow_not_finite _ _ C); exact F].
  destruct C as [C _]. rewrite C. change (round_mode mode_NE) with ZnearestE. pose proof (round_back (B2R x / B2R y)) as B.
  set (r := rnd (B2R x / B2R y)) in *.
  replace (B2R x - r * B2R y) with ((B2R x / B2R y - r) * B2R y) by (field; exact Y).
  rewrite !Rabs_mult. pose proof (Rabs_pos (B2R y)). nra.
Qed.

(** One entry of a row reduced. *)
Lemma step_err (x y k : float) : finite (f_sub x (f_mul y k)) ->
  finite x /\ finite y /\ finite k /\
  let r := value (f_sub x (f_mul y k)) in
  Rabs (value x - (r + value k * value y)) <= u * Rabs r + u * Rabs (value k * value y) + eta.
Proof.
  intros F. destruct (sub_err _ _ F) as (Fx & Fp & E). destruct (mul_err _ _ Fp) as (Fy & Fk & E'). split; auto. split; auto. split; auto.
  cbv zeta. set (r := value (f_sub x (f_mul y k))) in *. set (p := value (f_mul y k)) in *. rewrite (Rmult_comm (value k)).
  replace (value x - (r + value y * value k)) with ((value x - p - r) + (p - value y * value k)) by ring.
  eapply Rle_trans; [apply Rabs_triang|]. lra.
Qed.

(** The entry in the column of the pivot. *)
Lemma leftover_err (x y : float) : value y <> 0 -> finite (f_sub x (f_mul y (f_div x y))) ->
  Rabs (value (f_sub x (f_mul y (f_div x y)))) <= (1 + u) * (2 * u * Rabs (value (f_div x y) * value y) + eta * (1 + Rabs (value y))).
Proof.
  intros Y F. destruct (sub_ok _ _ F) as (Fx & Fp & e & He & ->). destruct (mul_err _ _ Fp) as (Fy & Fk & E).
  pose proof (div_err x y Y Fk) as D. set (k := value (f_div x y)) in *. set (p := value (f_mul y (f_div x y))) in *.
  rewrite (Rmult_comm (value y) k) in E. pose proof (u_pos (prec := prec)).
  rewrite Rabs_mult, Rmult_comm. apply Rmult_le_compat; try apply Rabs_pos.
  - eapply Rle_trans; [apply Rabs_triang|]. rewrite Rabs_R1. lra.
  - replace (value x - p) with ((value x - k * value y) + (k * value y - p)) by ring.
    eapply Rle_trans; [apply Rabs_triang|]. rewrite (Rabs_minus_sym (k * value y) p). lra.
Qed.

Lemma pow_ge_1 N : 1 <= (1 + u) ^ N.
Proof. apply pow_R1_Rle. pose proof (u_pos (prec := prec)). lra. Qed.

(** One more row used. *)
Lemma grow a x r q S T N : 0 <= T -> Rabs (x - (r + q)) <= u * Rabs r + u * Rabs q + eta ->
  Rabs (a - (x + S)) <= ((1 + u) ^ N - 1) * (Rabs x + T) + INR N * (1 + u) ^ N * eta ->
  Rabs (a - (r + (S + q))) <= ((1 + u) ^ (Datatypes.S N) - 1) * (Rabs r + (T + Rabs q)) + INR (Datatypes.S N) * (1 + u) ^ (Datatypes.S N) * eta.
Proof.
  intros HT Hx Ha. pose proof (pow_ge_1 N) as P. pose proof (u_pos (prec := prec)) as U. pose proof (eta_pos (prec := prec) (emax := emax)) as E.
  rewrite S_INR. cbn [pow]. set (W := (1 + u) ^ N) in *. pose proof (pos_INR N) as K. set (k := INR N) in *.
  pose proof (Rabs_pos r). pose proof (Rabs_pos q).
  assert (Rabs x <= (1 + u) * Rabs r + (1 + u) * Rabs q + eta) as Bx.
  { replace x with ((x - (r + q)) + (r + q)) by ring. eapply Rle_trans; [apply Rabs_triang|]. pose proof (Rabs_triang r q). lra. }
  replace (a - (r + (S + q))) with ((a - (x + S)) + (x - (r + q))) by ring.
  eapply Rle_trans; [apply Rabs_triang|].
  assert ((W - 1) * (Rabs x + T) <= (W - 1) * ((1 + u) * Rabs r + (1 + u) * Rabs q + eta + T)) as B1 by (apply Rmult_le_compat_l; lra).
  assert (0 <= u * W * T) as B2 by (apply Rmult_le_pos; [apply Rmult_le_pos|]; lra).
  assert (0 <= u * k * W * eta) as B3 by (repeat apply Rmult_le_pos; lra).
  assert (0 <= u * W * eta) as B4 by (repeat apply Rmult_le_pos; lra).
  replace (((1 + u) * W - 1) * (Rabs r + (T + Rabs q)) + (k + 1) * ((1 + u) * W) * eta)
    with ((W - 1) * ((1 + u) * Rabs r + (1 + u) * Rabs q + eta + T) + k * W * eta + (u * Rabs r + u * Rabs q + eta) + u * W * T + u * k * W * eta + u * W * eta) by ring.
  lra.
Qed.

(** ** The invariant *)
Section Invariant.
Context (n : nat) (A : nat -> nat -> float).

Definition sign_of (swaps : list (nat * nat)) : float := if Nat.even (length swaps) then f_one else f_neg f_one.

Definition upto (f : nat -> nat -> float) (col : nat) (swaps : list (nat * nat)) (pivots : list nat) (mult : nat -> nat -> R) : Prop :=
  Forall (fun p => fst p <> snd p /\ (fst p < n)%nat /\ (snd p < n)%nat) swaps /\
  StronglySorted lt pivots /\ Forall (fun c => (c < col)%nat) pivots /\
  (forall k c, nth_error pivots k = Some c -> value (f k c) <> 0) /\
  (forall i j, (i < n)%nat -> (j < n)%nat ->
     let parts := value (f i j) :: map (fun k => mult i k * value (f k j)) (used pivots i j) in
     Rabs (value (A (origin swaps i) j) - total parts) <= error_bound prec emax (length (used pivots i j)) parts) /\
  (forall k c i, nth_error pivots k = Some c -> (k < i < n)%nat ->
     Rabs (value (f i c)) <= (1 + u) * (2 * u * Rabs (mult i k * value (f k c)) + eta * (1 + Rabs (value (f k c))))) /\
  (forall i j, (i < n)%nat -> (j < col)%nat -> ~ In j pivots ->
     (forall k c, nth_error pivots k = Some c -> (c < j)%nat -> (k < i)%nat) -> value (f i j) = 0).

Definition invariant (f : nat -> nat -> float) (sg : float) (row col : nat) : Prop :=
  (forall i j, (i < n)%nat -> (j < n)%nat -> finite (f i j)) ->
  (forall i j, (i < n)%nat -> (j < n)%nat -> finite (A i j)) /\
  exists swaps pivots mult, length pivots = row /\ sg = sign_of swaps /\ upto f col swaps pivots mult.

Lemma invariant_start : invariant A f_one 0 0.
Proof.
  intros F. split; auto. exists [], [], (fun _ _ => 0). split; auto. split; auto.
  split; [constructor|]. split; [constructor|]. split; [constructor|]. split; [intros [|k] c E; discriminate|]. split; [|split].
  - intros i j Hi Hj. unfold used. cbn [length]. rewrite Nat.min_0_r. cbn [seq filter map length origin total].
    replace (value (A i j) - (value (A i j) + 0)) with 0 by ring. rewrite Rabs_R0. unfold error_bound. cbn [pow INR]. lra.
  - intros [|k] c i E; discriminate.
  - intros i j Hi Hj. lia.
Qed.

Lemma invariant_zero f sg row col : invariant f sg row col -> (row <= col)%nat -> (col < n)%nat ->
  (forall r, (row <= r < n)%nat -> f_is_zero (f r col) = true) -> invariant f sg row (S col).
Proof.
  intros I Hr Hc Z F. destruct (I F) as (FA & sw & c & L & Lc & Sg & U1 & U2 & U3 & U4 & U5 & U6 & U7). split; auto.
  exists sw, c, L. split; auto. split; auto. split; auto. split; auto.
  split; [eapply Forall_impl; [|exact U3]; cbn beta; intros; lia|]. split; auto. split; auto. split; auto.
  intros i j Hi Hj Ni Above. destruct (Nat.eq_dec j col) as [->|]; [|apply U7; auto; lia].
  apply is_zero_value; [apply F; auto|]. apply Z. split; [|exact Hi].
  destruct row as [|row]; [lia|]. destruct (nth_error c row) as [p|] eqn:E; [|apply nth_error_None in E; lia].
  apply (Above row p E). rewrite Forall_forall in U3. apply U3. eapply nth_error_In; eauto.
Qed.

Lemma used_snoc c col i i' j : (Nat.min i (length c) = Nat.min i' (length c)) ->
  used (c ++ [col]) i j = used c i' j ++ (if Nat.ltb (length c) i && Nat.leb col j then [length c] else []).
Proof.
  intros H. unfold used. rewrite app_length. cbn [length].
  assert (forall m, (m <= length c)%nat -> filter (fun k => Nat.leb (nth k (c ++ [col]) 0%nat) j) (seq 0 m) = filter (fun k => Nat.leb (nth k c 0%nat) j) (seq 0 m)) as Q.
  { intros m Hl. apply filter_ext_in. intros k Hk. apply in_seq in Hk. rewrite app_nth1 by lia. reflexivity. }
  destruct (Nat.ltb_spec (length c) i) as [Hi|Hi]; cbn [andb].
  - replace (Nat.min i (length c + 1)) with (length c + 1)%nat by lia. rewrite seq_app, filter_app, Q by lia.
    replace (Nat.min i' (length c)) with (length c) by lia. f_equal. cbn [seq filter Nat.add].
    rewrite app_nth2, Nat.sub_diag by lia. cbn [nth]. destruct (Nat.leb col j); reflexivity.
  - rewrite app_nil_r. rewrite <- H. replace (Nat.min i (length c + 1)) with (Nat.min i (length c)) by lia. apply Q. lia.
Qed.

Lemma even_S m : Nat.even (S m) = negb (Nat.even m).
Proof. rewrite Nat.even_succ, <- Nat.negb_even. reflexivity. Qed.

Lemma invariant_step f f' sg row col s : invariant f sg row col -> (row <= col)%nat -> (col < n)%nat -> (row <= s < n)%nat ->
  f_is_zero (f s col) = false ->
  (forall a b, (a < n)%nat -> (b < n)%nat -> f' a b = reduced f_sub f_mul f_div (swapped f s row) row col a b) ->
  invariant f' (if Nat.eqb s row then sg else f_neg sg) (S row) (S col).
Proof.
  intros I Hrc Hc Hs Nz Hf F'.
  set (t := fun i => if Nat.eqb i row then s else if Nat.eqb i s then row else i).
  assert (forall i, (i < n)%nat -> (t i < n)%nat) as Tn.
  { intros i Hi. unfold t. destruct (Nat.eqb_spec i row), (Nat.eqb_spec i s); lia. }
  assert (forall i, (i < row)%nat -> t i = i) as Tl.
  { intros i Hi. unfold t. destruct (Nat.eqb_spec i row), (Nat.eqb_spec i s); lia. }
  assert (forall i, (row <= i)%nat -> (row <= t i)%nat) as Th.
  { intros i Hi. unfold t. destruct (Nat.eqb_spec i row), (Nat.eqb_spec i s); lia. }
  assert (forall i, t (t i) = i) as Tt.
  { intros i. unfold t. destruct (Nat.eqb_spec i row), (Nat.eqb_spec i s); subst; rewrite ?Nat.eqb_refl; auto;
      repeat match goal with |- context [Nat.eqb ?a ?b] => destruct (Nat.eqb_spec a b) end; congruence. }
  assert (forall a b, (a < n)%nat -> (b < n)%nat -> (a <= row)%nat \/ (b < col)%nat -> f' a b = f (t a) b) as Keep.
  { intros a b Ha Hb D. rewrite Hf by auto. unfold reduced, swapped. fold (t a).
    destruct (Nat.ltb_spec row a); cbn [andb]; auto. destruct (Nat.leb_spec col b); auto. lia. }
  assert (forall a b, (row < a < n)%nat -> (col <= b < n)%nat ->
    f' a b = f_sub (f (t a) b) (f_mul (f s b) (f_div (f (t a) col) (f s col)))) as New.
  { intros a b Ha Hb. rewrite Hf by lia. unfold reduced, swapped. fold (t a). rewrite Nat.eqb_refl.
    destruct (Nat.ltb_spec row a); [|lia]. destruct (Nat.leb_spec col b); [|lia]. reflexivity. }
  assert (t row = s) as Tr by (unfold t; rewrite Nat.eqb_refl; reflexivity).
  assert (forall i j, (i < n)%nat -> (j < n)%nat -> finite (f i j)) as F.
  { intros i j Hi Hj. rewrite <- (Tt i). pose proof (Tn i Hi) as Ht. specialize (F' (t i) j Ht Hj).
    destruct (Nat.le_gt_cases (t i) row) as [H|H]; [rewrite Keep in F' by auto; exact F'|].
    destruct (Nat.lt_ge_cases j col) as [H1|H1]; [rewrite Keep in F' by auto; exact F'|].
    rewrite New in F' by lia. destruct (step_err _ _ _ F') as (X & _). exact X. }
  destruct (I F) as (FA & sw & c & L & Lc & Sg & U1 & U2 & U3 & U4 & U5 & U6 & U7). split; auto.
  set (sw' := if Nat.eqb s row then sw else (row, s) :: sw).
  set (L' := fun i k => if Nat.eqb k row then value (f_div (f (t i) col) (f s col)) else L (t i) k).
  assert (forall i, origin sw' i = origin sw (t i)) as Or.
  { intros i. unfold sw', t. destruct (Nat.eqb_spec s row) as [->|Ne]; cbn [origin]; auto. destruct (Nat.eqb_spec i row) as [->|]; auto. }
  assert (value (f s col) <> 0) as Pv.
  { intros V. apply is_zero_value in V; [congruence|apply F; lia]. }
  assert (forall k p, nth_error c k = Some p -> (k < row)%nat /\ (p < col)%nat) as Cb.
  { intros k p E. split; [rewrite <- Lc; apply nth_error_Some; congruence|].
    rewrite Forall_forall in U3. apply U3. eapply nth_error_In; eauto. }
  assert (forall k p, nth_error (c ++ [col]) k = Some p -> (k < row)%nat /\ nth_error c k = Some p \/ k = row /\ p = col) as Cs.
  { intros k p E. destruct (Nat.lt_ge_cases k row) as [H|H]; [left; rewrite nth_error_app1 in E by lia; auto|].
    rewrite nth_error_app2 in E by lia. rewrite Lc in E. destruct (k - row)%nat as [|d] eqn:Ek.
    - cbn in E. injection E as <-. right. split; auto. lia.
    - cbn in E. destruct d; discriminate. }
  assert (forall k j, (k < row)%nat -> (j < n)%nat -> f' k j = f k j) as Old.
  { intros k j Hk Hj. rewrite Keep by (auto; lia). rewrite Tl by auto. reflexivity. }
  exists sw', (c ++ [col]), L'. split; [rewrite app_length, Lc; cbn; lia|]. split; [|split; [|split; [|split; [|split; [|split; [|split]]]]]].
  - unfold sw'. destruct (Nat.eqb s row); auto. unfold sign_of. cbn [length]. rewrite even_S, Sg. unfold sign_of.
    destruct (Nat.even (length sw)); cbn [negb]; auto. unfold f_neg. apply Bopp_involutive.
  - unfold sw'. destruct (Nat.eqb_spec s row); auto. constructor; auto. cbn. lia.
  - clear - U2 U3. induction c as [|p c IH]; cbn [app]; [constructor; constructor|].
    apply StronglySorted_inv in U2. apply Forall_inv in U3 as U3'. apply Forall_inv_tail in U3. constructor; [apply IH; tauto|].
    apply Forall_app. split; [tauto|]. constructor; auto.
  - apply Forall_app. split; [eapply Forall_impl; [|exact U3]; cbn beta; intros; lia|]. constructor; auto.
  - intros k p E. destruct (Cs k p E) as [[Hk E']|[-> ->]].
    + destruct (Cb k p E'). rewrite Old by lia. apply U4. exact E'.
    + rewrite Keep by lia. rewrite Tr. exact Pv.
  - intros i j Hi Hj. cbv zeta. rewrite Or.
    assert (Nat.min i (length c) = Nat.min (t i) (length c)) as Mi.
    { rewrite Lc. destruct (Nat.lt_ge_cases i row) as [H|H]; [rewrite Tl by auto; auto|]. pose proof (Th i H). lia. }
    rewrite (used_snoc c col i (t i) j Mi). rewrite Lc.
    specialize (U5 (t i) j (Tn i Hi) Hj). cbv zeta in U5.
    assert (map (fun k => L' i k * value (f' k j)) (used c (t i) j) = map (fun k => L (t i) k * value (f k j)) (used c (t i) j)) as Mp.
    { apply map_ext_in. intros k Hk. unfold used in Hk. apply filter_In in Hk. destruct Hk as [Hk _]. apply in_seq in Hk.
      rewrite Lc in Hk. rewrite Old by lia. unfold L'. destruct (Nat.eqb_spec k row); [lia|reflexivity]. }
    rewrite map_app, Mp. set (ps := map (fun k => L (t i) k * value (f k j)) (used c (t i) j)) in *.
    set (N := length (used c (t i) j)) in *.
    destruct (Nat.ltb_spec row i) as [Hri|Hri]; [destruct (Nat.leb_spec col j) as [Hcj|Hcj]|]; cbn [andb map].
    + rewrite app_length. cbn [length]. fold N. rewrite Nat.add_1_r.
      specialize (F' i j Hi Hj). rewrite New in F' by lia. destruct (step_err _ _ _ F') as (_ & _ & _ & Er).
      cbv zeta in Er. rewrite <- New in Er by lia.
      replace (L' i row) with (value (f_div (f (t i) col) (f s col))) by (unfold L'; rewrite Nat.eqb_refl; reflexivity).
      rewrite (Keep row j), Tr by lia.
      unfold error_bound in *. unfold magnitudes in *. cbn [total map] in *. rewrite map_app, !total_app. cbn [total map]. rewrite !Rplus_0_r.
      apply (grow _ (value (f (t i) j))); auto. apply (total_magnitudes ps).
    + rewrite Keep by lia. rewrite !app_nil_r. exact U5.
    + rewrite Keep by lia. rewrite !app_nil_r. exact U5.
  - intros k p i E Hi. destruct (Cs k p E) as [[Hk E']|[-> ->]].
    + destruct (Cb k p E'). rewrite (Old k p) by lia. rewrite (Keep i p) by lia. unfold L'. destruct (Nat.eqb_spec k row); [lia|].
      apply U6; auto. split; [|apply Tn; lia]. destruct (Nat.lt_ge_cases i row) as [H1|H1]; [rewrite Tl; lia|]. pose proof (Th i H1). lia.
    + assert (finite (f' i col)) as Fi by (apply F'; lia). rewrite New in Fi |- * by lia. rewrite Keep, Tr by lia.
      unfold L'. rewrite Nat.eqb_refl. apply leftover_err; auto.
  - intros i j Hi Hj Ni Above. assert (j <> col) as Nj by (intros ->; apply Ni, in_app_iff; right; left; reflexivity).
    rewrite Keep by lia. apply U7; auto; [lia|intros H; apply Ni, in_app_iff; auto|].
    intros k p E Hp'. destruct (Cb k p E) as [H1 H2]. assert (k < i)%nat as Hki.
    { apply (Above k p); auto. rewrite nth_error_app1 by lia. exact E. }
    destruct (Nat.lt_ge_cases i row) as [H3|H3]; [rewrite Tl; lia|]. pose proof (Th i H3). lia.
Qed.
End Invariant.
End Format.
