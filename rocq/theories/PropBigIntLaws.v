(** C183: algebraic laws of BigInt operators for integers of any signs, as [==] decides them. *)
From Coq Require Import ZArith List Bool Lia.
From Verif Require Import Base Spec BitSliceModel InternModel BigIntModel BigIntSpec BigIntProofs BigIntOps BigIntConv BigIntText BigIntRun PropBigInt PropBigInt4 BigIntExprModel PropBigIntExpr.
Import ListNotations.
Local Open Scope Z_scope.

(** ** Specification *)

(** A store with variables [vars] of the integers [xs] ([consistent] and [proper] of BigIntSpec.v), and room for [k] more numbers. *)
Definition with_variables (P : Z) (k : Z) (st : store (list Z)) (hs vars xs : list Z) : Prop :=
  consistent P st hs /\ room P hs k /\ bound_to st hs vars xs.

(** [e == f], both evaluated one after the other, is [b]; the variables keep their values. *)
Definition says (dbg : bool) (fuel : nat) (P : Z) (st : store (list Z)) (hs vars xs : list Z) (e f : expr) (b : bool) : Prop :=
  exists c d st', (let! a := eval dbg fuel vars e in let! b := eval dbg fuel vars f in ret (a, b)) st = Ok ((c, d), st') /\
    bi_eq st' c d = Ok b /\ consistent P st' (d :: c :: hs) /\ bound_to st' (d :: c :: hs) vars xs.

(** The law holds exactly if [cond] does. *)
Definition law (dbg : bool) (fuel : nat) (P : Z) (st : store (list Z)) (hs vars xs : list Z) (e f : expr) (cond : Prop) : Prop :=
  exists b, says dbg fuel P st hs vars xs e f b /\ (b = true <-> cond).

(** ** Proofs *)

Lemma compared dbg fuel P st hs vars xs e f : with_variables P (1 + Z.max (temporaries e) (temporaries f)) st hs vars xs ->
  everywhere_with outcome (fit_op dbg) (fun _ y => 0 <= y <= Z.of_nat fuel) (fun x => x <> 0) xs e ->
  everywhere_with outcome (fit_op dbg) (fun _ y => 0 <= y <= Z.of_nat fuel) (fun x => x <> 0) xs f ->
  says dbg fuel P st hs vars xs e f (value_with outcome xs e =? value_with outcome xs f).
Proof.
  intros (Hc & Hr & B) H1 H2.
  destruct (C151_any dbg fuel P st hs vars xs e) as (c & st1 & E1 & C1 & K1 & D1 & N1); auto.
  { eapply room_le; [|exact Hr]. lia. }
  destruct (C151_any dbg fuel P st1 (c :: hs) vars xs f) as (d & st2 & E2 & C2 & K2 & D2 & N2); auto.
  { apply room_cons. eapply room_le; [|exact Hr]. lia. }
  { eapply bound_keeps; eauto. apply incl_tl, incl_refl. }
  exists c, d, st2. split; [unfold mbind; rewrite E1; cbn [bind]; rewrite E2; reflexivity|]. split; [|split; [exact C2|]].
  - apply (C42_equality_is_value_equality P st2 (d :: c :: hs)); auto.
    + split; [right; left; auto|]. split; auto. apply K2; auto. left; auto.
    + split; [left; auto|]. split; auto.
  - eapply bound_keeps; [|exact K2|]. 2: { apply incl_tl, incl_refl. } eapply bound_keeps; eauto. apply incl_tl, incl_refl.
Qed.

Lemma law_by dbg fuel P st hs vars xs e f (cond : Prop) : with_variables P (1 + Z.max (temporaries e) (temporaries f)) st hs vars xs ->
  everywhere_with outcome (fit_op dbg) (fun _ y => 0 <= y <= Z.of_nat fuel) (fun x => x <> 0) xs e ->
  everywhere_with outcome (fit_op dbg) (fun _ y => 0 <= y <= Z.of_nat fuel) (fun x => x <> 0) xs f ->
  (value_with outcome xs e = value_with outcome xs f <-> cond) -> law dbg fuel P st hs vars xs e f cond.
Proof. intros Hv H1 H2 E. eexists. split; [eapply compared; eauto|]. rewrite Z.eqb_eq. exact E. Qed.

(** The sums that are wrong (C44). *)
Definition mixed (x y : Z) : Prop := (x < 0 /\ 0 <= y) \/ (0 <= x /\ y < 0).
Definition wrong_sum (x y : Z) : Prop := mixed x y /\ Z.abs x < Z.abs y /\ Z.even (x + y) = true.

(** How far the sum of [x] and [y] is off. *)
Definition off_by (x y e : Z) : Prop := (~ wrong_sum x y /\ e = 0) \/ (wrong_sum x y /\ e = 2 * Z.sgn y).

Lemma bi_sum_cases x y : (bi_sum x y = x + y /\ ~ wrong_sum x y) \/ (bi_sum x y = x + y - 2 * Z.sgn y /\ wrong_sum x y).
Proof.
  unfold bi_sum, wrong_sum, mixed. destruct (Z.ltb_spec x 0), (Z.ltb_spec y 0); cbn [xorb andb];
    try (left; split; [reflexivity|lia]); destruct (Z.ltb_spec (Z.abs x) (Z.abs y)); cbn [andb]; try (left; split; [reflexivity|lia]);
    (destruct (Z.even (x + y)) eqn:E; [right; split; [reflexivity|split; [lia|auto]]|left; split; [reflexivity|intros (_ & _ & X); discriminate]]).
Qed.
Lemma bi_sum_ok x y : ~ wrong_sum x y -> bi_sum x y = x + y.
Proof. intros H. destruct (bi_sum_cases x y) as [[E _]|[_ X]]; [exact E|contradiction]. Qed.
Lemma off_by_iff x y e : off_by x y e <-> e = x + y - bi_sum x y.
Proof.
  unfold off_by. destruct (bi_sum_cases x y) as [[-> N]|[-> N]]; split.
  - intros [[_ ->]|[W _]]; [lia|contradiction].
  - intros ->. left. split; [exact N|lia].
  - intros [[W _]|[_ ->]]; [contradiction|lia].
  - intros ->. right. split; [exact N|lia].
Qed.
Lemma even_sub_2 x s : Z.even (x - 2 * s) = Z.even x.
Proof. rewrite Z.even_sub, Z.even_mul. cbn [Z.even orb]. destruct (Z.even x); reflexivity. Qed.

Lemma small_lit t : std_ty t -> in_range t 0 = true /\ in_range t 1 = true.
Proof.
  intros Ht. destruct (std_ty_bits t Ht) as [B _]. unfold in_range, imin, imax. assert (2 ^ 1 < 2 ^ (Z.of_nat (ibits t) - 1)) by (apply Z.pow_lt_mono_r; lia). assert (2 ^ 1 < 2 ^ Z.of_nat (ibits t)) by (apply Z.pow_lt_mono_r; lia).
  change (2 ^ 1) with 2 in *. destruct (isigned t); split; apply andb_true_intro; rewrite !Z.leb_le; lia.
Qed.

(** Both ways of adding three numbers are off by the same amount. *)
Definition same_error (x y z : Z) : Prop := forall e1 e2 e3 e4, off_by x y e1 -> off_by (x + y - e1) z e2 -> off_by y z e3 -> off_by x (y + z - e3) e4 -> e1 + e2 = e3 + e4.
Lemma same_error_same_sign x y z : (0 <= x /\ 0 <= y /\ 0 <= z) \/ (x < 0 /\ y < 0 /\ z < 0) -> same_error x y z.
Proof.
  intros H e1 e2 e3 e4 E1 E2 E3 E4. unfold off_by, wrong_sum, mixed in E1, E3.
  assert (e1 = 0) by lia. assert (e3 = 0) by lia. subst. unfold off_by, wrong_sum, mixed in E2, E4. lia.
Qed.

Section Laws.
Context (dbg : bool) (fuel : nat) (P : Z) (st : store (list Z)) (hs vars xs : list Z) (i j k : nat).
Context (Hi : (i < length xs)%nat) (Hj : (j < length xs)%nat) (Hk : (k < length xs)%nat) (HV : with_variables P 8 st hs vars xs).
Let x := nth i xs 0.
Let y := nth j xs 0.
Let z := nth k xs 0.
Notation law_of := (law dbg fuel P st hs vars xs).
Ltac big := destruct HV as (V1 & V2 & V3); split; [exact V1|split; [eapply room_le; [|exact V2]; cbn; lia|exact V3]].
Ltac shape := cbn [everywhere_with value_with fit_op outcome right_op meaning]; fold x y z; try tauto.
Ltac start := apply law_by; [big|shape..].

Lemma l_add_comm : law_of (VarVar OAdd i j) (VarVar OAdd j i) (~ wrong_sum x y /\ ~ wrong_sum y x).
Proof.
  start. destruct (bi_sum_cases x y) as [[E1 N1]|[E1 N1]], (bi_sum_cases y x) as [[E2 N2]|[E2 N2]]; rewrite E1, E2; unfold wrong_sum, mixed in *.
  - split; [tauto|lia].
  - split; [lia|intros [_ X]; contradiction].
  - split; [lia|intros [X _]; contradiction].
  - exfalso. lia.
Qed.
Lemma l_add_assoc : law_of (ExpVar OAdd (VarVar OAdd i j) k) (VarExp OAdd i (VarVar OAdd j k)) (same_error x y z).
Proof.
  start. clearbody x y z. unfold same_error. split.
  - intros E e1 e2 e3 e4 E1 E2 E3 E4. rewrite off_by_iff in *.
    replace (x + y - e1) with (bi_sum x y) in E2 by lia. replace (y + z - e3) with (bi_sum y z) in E4 by lia. lia.
  - intros H. specialize (H (x + y - bi_sum x y) (bi_sum x y + z - bi_sum (bi_sum x y) z) (y + z - bi_sum y z) (x + bi_sum y z - bi_sum x (bi_sum y z))).
    rewrite !off_by_iff in H. replace (x + y - (x + y - bi_sum x y)) with (bi_sum x y) in H by lia. replace (y + z - (y + z - bi_sum y z)) with (bi_sum y z) in H by lia.
    specialize (H eq_refl eq_refl eq_refl eq_refl). lia.
Qed.
Lemma l_mul_comm : law_of (VarVar OMul i j) (VarVar OMul j i) True.
Proof. start. lia. Qed.
Lemma l_mul_assoc : law_of (ExpVar OMul (VarVar OMul i j) k) (VarExp OMul i (VarVar OMul j k)) True.
Proof. start. rewrite Z.mul_assoc. tauto. Qed.
Lemma l_distr : y <> 0 -> law_of (VarExp OMul i (VarVar OAdd j k)) (ExpExp OAdd (VarVar OMul i j) (VarVar OMul i k))
  (~ (mixed y z /\ Z.abs y < Z.abs z) \/ Z.abs x <= 1 \/ (Z.odd x = true /\ Z.odd (y + z) = true)).
Proof.
  intros Hy. start. clearbody x y z. assert (x <> 0 -> (mixed (x * y) (x * z) /\ Z.abs (x * y) < Z.abs (x * z)) <-> (mixed y z /\ Z.abs y < Z.abs z)) as HM.
  { intros Hx. rewrite !Z.abs_mul. assert (Z.abs x * Z.abs y < Z.abs x * Z.abs z <-> Z.abs y < Z.abs z) as -> by nia.
    enough (Z.abs y < Z.abs z -> mixed (x * y) (x * z) <-> mixed y z) by tauto. unfold mixed. intros Hyz. assert (z <> 0) by lia.
    destruct (Z.lt_total x 0) as [|[|]]; [|lia|]; destruct (Z.lt_total y 0) as [|[|]]; try lia; destruct (Z.lt_total z 0) as [|[|]]; try lia; split; intros; nia. }
  destruct (Z.eq_dec x 0) as [->|Hx].
  { rewrite !Z.mul_0_l. change (bi_sum 0 0) with 0. split; [intros _; right; left; cbn; lia|reflexivity]. }
  specialize (HM Hx). assert (x * y + x * z = x * (y + z)) as Es by lia.
  destruct (bi_sum_cases y z) as [[E1 N1]|[E1 (W1 & W2 & W3)]], (bi_sum_cases (x * y) (x * z)) as [[E2 N2]|[E2 (W4 & W5 & W6)]]; rewrite E1, E2; unfold wrong_sum in *; rewrite Es in *; rewrite ?Z.even_mul in *.
  - split; [intros _|nia]. destruct (Z.even x) eqn:Ex; cbn [orb] in N2; [left; tauto|]. destruct (Z.even (y + z)) eqn:Ey; [left; tauto|].
    right. right. rewrite <- !Z.negb_even, Ex, Ey. auto.
  - assert (mixed y z /\ Z.abs y < Z.abs z) as [M1 M2] by tauto. assert (Z.even (y + z) = false) as Ey by (destruct (Z.even (y + z)); tauto). rewrite Ey, orb_false_r in W6.
    split; [|intros [X|[X|[X _]]]].
    + assert (Z.sgn (x * z) <> 0) by (rewrite Z.sgn_null_iff; lia). lia.
    + tauto.
    + exfalso. assert (x = 1 \/ x = -1) as [->| ->] by lia; discriminate.
    + rewrite <- Z.negb_even, W6 in X. discriminate.
  - rewrite W3, orb_true_r in N2. exfalso. tauto.
  - rewrite Z.sgn_mul. assert (Z.sgn z = 1 \/ Z.sgn z = -1) as Hz by lia. split.
    + intros X. right. left. assert (x * (2 * Z.sgn z) = 2 * (Z.sgn x * Z.sgn z)) as Y by lia. destruct Hz as [Hz|Hz]; rewrite Hz in Y; lia.
    + intros [X|[X|[_ X]]]; [tauto| |rewrite <- Z.negb_even, W3 in X; discriminate]. assert (x = 1 \/ x = -1) as [->| ->] by lia; cbn [Z.sgn]; lia.
Qed.

Lemma l_distr_zero : y = 0 -> law_of (VarExp OMul i (VarVar OAdd j k)) (ExpExp OAdd (VarVar OMul i j) (VarVar OMul i k))
  ((0 <= z /\ (0 <= x \/ z = 0 \/ Z.odd (x * z) = true)) \/ (z < 0 /\ Z.even z = true /\ 0 <= x <= 1) \/ (z < 0 /\ Z.odd z = true /\ (x <= 0 \/ Z.odd x = true))).
Proof.
  intros Hy. start. clearbody x y z. subst y. rewrite Z.mul_0_r.
  assert (forall a, (a < 0 /\ Z.even a = true /\ bi_sum 0 a = a + 2) \/ (~ (a < 0 /\ Z.even a = true) /\ bi_sum 0 a = a)) as HZ.
  { intros a. destruct (bi_sum_cases 0 a) as [[E N]|[E (W1 & W2 & W3)]]; rewrite E; unfold wrong_sum, mixed in *; rewrite Z.add_0_l in *; [right; split; [intros [X Y]; apply N; split; [lia|split; [lia|exact Y]]|reflexivity]|left]. split; [lia|]. split; [exact W3|]. rewrite (Z.sgn_neg a) by lia. lia. }
  assert (forall a, Z.odd a = true <-> Z.even a <> true) as HO by (intros a; rewrite <- Z.negb_even; destruct (Z.even a); cbn; intuition congruence).
  rewrite !HO. destruct (HZ z) as [(A1 & A2 & ->)|(A1 & ->)], (HZ (x * z)) as [(B1 & B2 & ->)|(B1 & ->)]; rewrite Z.even_mul in *.
  - rewrite A2 in *. assert (0 < x) by nia. split; [intros X; right; left; split; [auto|split; [auto|nia]]|intros [X|[X|X]]; [lia|replace x with 1 by lia; lia|tauto]].
  - rewrite A2, orb_true_r in *. assert (x <= 0) by nia. split; [intros X; right; left; split; [auto|split; [auto|lia]]|intros [X|[X|X]]; [lia|nia|tauto]].
  - split; [lia|]. intros [(X1 & X2)|[(X1 & X2 & _)|(X1 & X2 & X3)]]; exfalso.
    + destruct X2 as [X2|[X2|X2]]; [nia|subst z; lia|tauto].
    + tauto.
    + assert (0 < x) by nia. destruct (Z.even x), (Z.even z); cbn [orb] in *; intuition (lia || congruence).
  - split; [intros _|reflexivity]. destruct (Z.lt_ge_cases z 0) as [Zn|Zn].
    + right. right. split; [exact Zn|]. assert (Z.even z <> true) as Ez by tauto. split; [exact Ez|]. destruct (Z.lt_ge_cases 0 x) as [Xp|Xp]; [right|left; lia]. intros Ex. apply B1. rewrite Ex. split; [nia|reflexivity].
    + left. split; [exact Zn|]. destruct (Z.lt_ge_cases x 0) as [Xn|Xn]; [|left; lia]. destruct (Z.eq_dec z 0) as [|Hz]; [right; left; auto|]. right. right. intros Ex. apply B1. split; [nia|exact Ex].
Qed.

Lemma l_add_zero t : std_ty t -> law_of (ExpInt OAdd (Cloned i) t 0) (Cloned i) True /\
  law_of (ExpVar OAdd (Lit t 0) i) (Cloned i) (0 <= x \/ Z.odd x = true) /\ law_of (ExpInt OSub (Cloned i) t 0) (Cloned i) True /\
  law_of (ExpInt OMul (Cloned i) t 1) (Cloned i) True /\ law_of (ExpInt OMul (Cloned i) t 0) (Lit t 0) True.
Proof.
  intros Ht. destruct (small_lit t Ht) as [R0 R1].
  split; [|split; [|split; [|split]]].
  - start. rewrite bi_sum_ok; unfold wrong_sum; lia.
  - start. clearbody x. destruct (bi_sum_cases 0 x) as [[E1 N1]|[E1 (W1 & W2 & W3)]]; rewrite E1; unfold wrong_sum, mixed in *; rewrite Z.add_0_l in *.
    + split; [intros _|lia]. destruct (Z.lt_ge_cases x 0); [right|left; lia]. rewrite <- Z.negb_even. destruct (Z.even x); [exfalso; apply N1; lia|reflexivity].
    + split; [lia|]. rewrite <- Z.negb_even, W3. intros [X|X]; [lia|discriminate].
  - start. unfold bi_diff. rewrite bi_sum_ok; unfold wrong_sum; lia.
  - start. lia.
  - start. lia.
Qed.

Lemma l_sub_self t : std_ty t -> law_of (VarVar OSub i i) (Lit t 0) True.
Proof.
  intros Ht. pose proof (proj1 (small_lit t Ht)) as R0.
  start. unfold bi_diff. rewrite bi_sum_ok; unfold wrong_sum; lia.
Qed.
Lemma l_add_neg t : x <> 0 -> std_ty t -> law_of (VarExp OAdd i (Minus (Cloned i))) (Lit t 0) True.
Proof.
  intros Hx Ht. pose proof (proj1 (small_lit t Ht)) as R0.
  start. rewrite bi_sum_ok; unfold wrong_sum; lia.
Qed.
Lemma l_sub_neg : y <> 0 -> law_of (VarVar OSub i j) (VarExp OAdd i (Minus (Cloned j))) True.
Proof. intros Hy. start. Qed.
Lemma l_neg_mul : x <> 0 -> y <> 0 -> law_of (ExpVar OMul (Minus (Cloned i)) j) (Minus (VarVar OMul i j)) True.
Proof. intros Hx Hy. start. { nia. } lia. Qed.

Lemma l_div_rem : right_op dbg ODiv x y ->
  law_of (ExpExp OAdd (ExpVar OMul (VarVar ODiv i j) j) (VarVar ORem i j)) (Cloned i) (Z.rem x y = 0 \/ (0 < y /\ ~ (- y < x < 0 /\ Z.even x = true))).
Proof.
  intros (Hy & Ha & Hb). start. clearbody x y. pose proof (Z.quot_rem' x y) as E. rewrite (Z.mul_comm (Z.quot x y) y) in *.
  pose proof (Z.rem_bound_abs x y Hy) as B. pose proof (Z.rem_sign_mul x y Hy) as S. set (t := Z.quot x y) in *.
  assert (Z.abs (y * t) < Z.abs y -> t = 0) as HT by (rewrite Z.abs_mul; nia).
  assert (t = 0 -> y * t = 0) as H0 by (intros ->; lia).
  set (q := y * t) in *. set (r := Z.rem x y) in *. clearbody q r t.
  destruct (Z.lt_total y 0) as [Y|[Y|Y]]; [|lia|].
  - rewrite (Z.sgn_neg y) by lia. destruct (Z.eq_dec r 0) as [->|Hr].
    + rewrite bi_sum_ok; unfold wrong_sum, mixed; lia.
    + destruct (bi_sum_cases q (r * -1)) as [[X _]|[X (W1 & W2 & W3)]]; rewrite X; [lia|]. split; [|lia]. intros Y'.
      assert (Z.sgn (r * -1) = 1 \/ Z.sgn (r * -1) = -1) by lia. assert (q = 0) as Q0 by lia. assert (r = 1 \/ r = -1) as [R1|R1] by lia; rewrite Q0, R1 in W3; discriminate.
  - rewrite (Z.sgn_pos y) by lia. rewrite Z.mul_1_r. destruct (bi_sum_cases q r) as [[X N]|[X (M & L & W3)]]; rewrite X.
    + split; [intros _|lia]. destruct (Z.eq_dec r 0) as [|Hr]; [left; auto|right]. split; [exact Y|]. intros [Hx He]. apply N.
      assert (q = 0) as -> by (apply H0, HT; unfold mixed in *; nia). rewrite Z.add_0_l in E. subst r. unfold wrong_sum, mixed. rewrite Z.add_0_l. repeat split; auto; lia.
    + assert (q = 0) as -> by (apply H0, HT; lia). rewrite Z.add_0_l in *. subst r. unfold mixed in M. split; [lia|]. intros [?|[_ N]]; [lia|]. exfalso. apply N. split; [lia|exact W3].
Qed.
Lemma l_mul_div : right_op dbg ODiv (x * y) y -> law_of (ExpVar ODiv (VarVar OMul i j) j) (Cloned i) True.
Proof. intros (Hy & Ha & Hb). start. rewrite Z.quot_mul by auto. tauto. Qed.

Lemma l_pow : 0 <= y -> 0 <= z -> y + z <= Z.of_nat fuel ->
  law_of (Power (Cloned i) (VarVar OAdd j k)) (ExpExp OMul (Power (Cloned i) (Cloned j)) (Power (Cloned i) (Cloned k))) True.
Proof.
  intros Hy Hz Hf. assert (bi_sum y z = y + z) as E by (apply bi_sum_ok; unfold wrong_sum, mixed; lia). start; rewrite ?E; try lia; try (repeat split; auto; lia).
  rewrite Z.pow_add_r by auto. tauto.
Qed.
Lemma l_pow_mul : 0 <= z <= Z.of_nat fuel -> law_of (Power (VarVar OMul i j) (Cloned k)) (ExpExp OMul (Power (Cloned i) (Cloned k)) (Power (Cloned j) (Cloned k))) True.
Proof. intros Hz. start. rewrite Z.pow_mul_l. tauto. Qed.

Lemma l_shift : 0 <= y < 2 ^ 64 -> (dbg = false \/ y < 64) -> law_of (ExpVar OShr (VarVar OShl i j) j) (Cloned i) True.
Proof. intros Hy Hd. start. rewrite Z.quot_mul by (apply Z.pow_nonzero; lia). tauto. Qed.

Lemma sgn_abs a : (if a <? 0 then -1 else 1) * Z.abs a = a.
Proof. destruct (Z.ltb_spec a 0); lia. Qed.
Lemma magnitude (op : Z -> Z -> Z) a b : 0 <= op (Z.abs a) (Z.abs b) -> Z.abs (on_magnitudes op a b) = op (Z.abs a) (Z.abs b).
Proof. unfold on_magnitudes. destruct (a <? 0); lia. Qed.
Lemma land_nn a b : 0 <= Z.land (Z.abs a) (Z.abs b). Proof. apply Z.land_nonneg. lia. Qed.
Lemma lor_nn a b : 0 <= Z.lor (Z.abs a) (Z.abs b). Proof. apply Z.lor_nonneg. lia. Qed.
Lemma lxor_nn a b : 0 <= Z.lxor (Z.abs a) (Z.abs b). Proof. apply Z.lxor_nonneg. lia. Qed.

Lemma l_bits_same t : std_ty t -> law_of (VarVar OAnd i i) (Cloned i) True /\ law_of (VarVar OOr i i) (Cloned i) True /\ law_of (VarVar OXor i i) (Lit t 0) True.
Proof.
  intros Ht. pose proof (proj1 (small_lit t Ht)) as R0.
  split; [|split]; start; unfold on_magnitudes.
  - rewrite Z.land_diag, sgn_abs. tauto.
  - rewrite Z.lor_diag, sgn_abs. tauto.
  - rewrite Z.lxor_nilpotent. lia.
Qed.
Lemma l_bits_comm : law_of (VarVar OAnd i j) (VarVar OAnd j i) (~ mixed x y \/ Z.land (Z.abs x) (Z.abs y) = 0) /\
  law_of (VarVar OOr i j) (VarVar OOr j i) (~ mixed x y) /\ law_of (VarVar OXor i j) (VarVar OXor j i) (~ mixed x y \/ Z.abs x = Z.abs y).
Proof.
  split; [|split]; start; clearbody x y; unfold on_magnitudes, mixed.
  - rewrite (Z.land_comm (Z.abs y)). pose proof (land_nn x y). destruct (Z.ltb_spec x 0), (Z.ltb_spec y 0); lia.
  - rewrite (Z.lor_comm (Z.abs y)). pose proof (lor_nn x y) as N. assert (Z.lor (Z.abs x) (Z.abs y) = 0 <-> x = 0 /\ y = 0) as E by (rewrite Z.lor_eq_0_iff; lia).
    destruct (Z.ltb_spec x 0), (Z.ltb_spec y 0); lia.
  - rewrite (Z.lxor_comm (Z.abs y)). pose proof (lxor_nn x y). assert (Z.lxor (Z.abs x) (Z.abs y) = 0 <-> Z.abs x = Z.abs y) as E by (rewrite Z.lxor_eq_0_iff; lia).
    destruct (Z.ltb_spec x 0), (Z.ltb_spec y 0); lia.
Qed.
Lemma l_xor_twice : law_of (ExpVar OXor (VarVar OXor i j) j) (Cloned i) (0 <= x \/ Z.abs x <> Z.abs y).
Proof.
  start. clearbody x y. pose proof (lxor_nn x y) as N.
  assert (on_magnitudes Z.lxor (on_magnitudes Z.lxor x y) y = (if on_magnitudes Z.lxor x y <? 0 then -1 else 1) * Z.abs x) as ->.
  { unfold on_magnitudes at 1. rewrite (magnitude Z.lxor x y N), Z.lxor_assoc, Z.lxor_nilpotent, Z.lxor_0_r. reflexivity. }
  assert (Z.lxor (Z.abs x) (Z.abs y) = 0 <-> Z.abs x = Z.abs y) as E by (rewrite Z.lxor_eq_0_iff; lia).
  unfold on_magnitudes. set (m := Z.lxor (Z.abs x) (Z.abs y)) in *. clearbody m. destruct (Z.ltb_spec x 0) as [X|X].
  - destruct (Z.ltb_spec (-1 * m) 0); lia.
  - destruct (Z.ltb_spec (1 * m) 0); lia.
Qed.
End Laws.

(** ** Statements *)

(** Laws of [+] and [-].  Addition commutes unless one of the two sums is wrong, and associates exactly if both ways are off by the same amount; zero is neutral on the right, on the left not of negative even
    numbers. *)
Theorem C183_addition_partial : forall dbg fuel P st hs vars xs i j k t,
  (i < length xs)%nat -> (j < length xs)%nat -> (k < length xs)%nat -> with_variables P 8 st hs vars xs -> std_ty t ->
  let x := nth i xs 0 in let y := nth j xs 0 in let z := nth k xs 0 in let law_of := law dbg fuel P st hs vars xs in
  law_of (VarVar OAdd i j) (VarVar OAdd j i) (~ wrong_sum x y /\ ~ wrong_sum y x) /\
  law_of (ExpVar OAdd (VarVar OAdd i j) k) (VarExp OAdd i (VarVar OAdd j k)) (same_error x y z) /\
  ((0 <= x /\ 0 <= y /\ 0 <= z) \/ (x < 0 /\ y < 0 /\ z < 0) -> same_error x y z) /\
  law_of (ExpInt OAdd (Cloned i) t 0) (Cloned i) True /\
  law_of (ExpVar OAdd (Lit t 0) i) (Cloned i) (0 <= x \/ Z.odd x = true) /\
  law_of (ExpInt OSub (Cloned i) t 0) (Cloned i) True /\
  law_of (VarVar OSub i i) (Lit t 0) True /\
  (x <> 0 -> law_of (VarExp OAdd i (Minus (Cloned i))) (Lit t 0) True) /\
  (y <> 0 -> law_of (VarVar OSub i j) (VarExp OAdd i (Minus (Cloned j))) True).
Proof.
  intros dbg fuel P st hs vars xs i j k t Hi Hj Hk HV Ht x y z law_of.
  destruct (l_add_zero dbg fuel P st hs vars xs i j k Hi Hj Hk HV t Ht) as (A1 & A2 & A3 & _).
  split; [apply (l_add_comm dbg fuel P st hs vars xs i j k); auto|]. split; [apply (l_add_assoc dbg fuel P st hs vars xs i j k); auto|]. split; [apply same_error_same_sign|]. split; [exact A1|]. split; [exact A2|]. split; [exact A3|].
  split; [apply (l_sub_self dbg fuel P st hs vars xs i j k); auto|]. split; [intros; apply (l_add_neg dbg fuel P st hs vars xs i j k); auto|intros; apply (l_sub_neg dbg fuel P st hs vars xs i j k); auto].
Qed.
Print Assumptions C183_addition_partial.

(** Laws of [*].  If [y] is zero, a sum in [x * (y + z)] and in [x * y + x * z] has a zero on the left, so that other signs matter. *)
Theorem C183_multiplication_partial : forall dbg fuel P st hs vars xs i j k t,
  (i < length xs)%nat -> (j < length xs)%nat -> (k < length xs)%nat -> with_variables P 8 st hs vars xs -> std_ty t ->
  let x := nth i xs 0 in let y := nth j xs 0 in let z := nth k xs 0 in let law_of := law dbg fuel P st hs vars xs in
  law_of (VarVar OMul i j) (VarVar OMul j i) True /\
  law_of (ExpVar OMul (VarVar OMul i j) k) (VarExp OMul i (VarVar OMul j k)) True /\
  law_of (ExpInt OMul (Cloned i) t 1) (Cloned i) True /\
  law_of (ExpInt OMul (Cloned i) t 0) (Lit t 0) True /\
  (x <> 0 -> y <> 0 -> law_of (ExpVar OMul (Minus (Cloned i)) j) (Minus (VarVar OMul i j)) True) /\
  (y <> 0 -> law_of (VarExp OMul i (VarVar OAdd j k)) (ExpExp OAdd (VarVar OMul i j) (VarVar OMul i k))
     (~ (mixed y z /\ Z.abs y < Z.abs z) \/ Z.abs x <= 1 \/ (Z.odd x = true /\ Z.odd (y + z) = true))) /\
  (y = 0 -> law_of (VarExp OMul i (VarVar OAdd j k)) (ExpExp OAdd (VarVar OMul i j) (VarVar OMul i k))
     ((0 <= z /\ (0 <= x \/ z = 0 \/ Z.odd (x * z) = true)) \/ (z < 0 /\ Z.even z = true /\ 0 <= x <= 1) \/ (z < 0 /\ Z.odd z = true /\ (x <= 0 \/ Z.odd x = true)))).
Proof.
  intros dbg fuel P st hs vars xs i j k t Hi Hj Hk HV Ht x y z law_of.
  destruct (l_add_zero dbg fuel P st hs vars xs i j k Hi Hj Hk HV t Ht) as (_ & _ & _ & A1 & A2).
  split; [apply (l_mul_comm dbg fuel P st hs vars xs i j k); auto|]. split; [apply (l_mul_assoc dbg fuel P st hs vars xs i j k); auto|]. split; [exact A1|]. split; [exact A2|].
  split; [intros; apply (l_neg_mul dbg fuel P st hs vars xs i j k); auto|]. split; [intros; apply (l_distr dbg fuel P st hs vars xs i j k); auto|intros; apply (l_distr_zero dbg fuel P st hs vars xs i j k); auto].
Qed.
Print Assumptions C183_multiplication_partial.

(** Laws of [/], [%], [pow] and shifts, within the limits of C46, C51 and C55.  [x / y * y + x % y == x] fails for negative divisors, unless there is no
    remainder, and for even [x] with [-y < x < 0], where the sum is the wrong one. *)
Theorem C183_division_partial : forall dbg fuel P st hs vars xs i j k,
  (i < length xs)%nat -> (j < length xs)%nat -> (k < length xs)%nat -> with_variables P 8 st hs vars xs ->
  let x := nth i xs 0 in let y := nth j xs 0 in let z := nth k xs 0 in let law_of := law dbg fuel P st hs vars xs in
  (right_op dbg ODiv x y ->
     law_of (ExpExp OAdd (ExpVar OMul (VarVar ODiv i j) j) (VarVar ORem i j)) (Cloned i) (Z.rem x y = 0 \/ (0 < y /\ ~ (- y < x < 0 /\ Z.even x = true)))) /\
  (right_op dbg ODiv (x * y) y -> law_of (ExpVar ODiv (VarVar OMul i j) j) (Cloned i) True) /\
  (0 <= y -> 0 <= z -> y + z <= Z.of_nat fuel ->
     law_of (Power (Cloned i) (VarVar OAdd j k)) (ExpExp OMul (Power (Cloned i) (Cloned j)) (Power (Cloned i) (Cloned k))) True) /\
  (0 <= z <= Z.of_nat fuel -> law_of (Power (VarVar OMul i j) (Cloned k)) (ExpExp OMul (Power (Cloned i) (Cloned k)) (Power (Cloned j) (Cloned k))) True) /\
  (0 <= y < 2 ^ 64 -> dbg = false \/ y < 64 -> law_of (ExpVar OShr (VarVar OShl i j) j) (Cloned i) True).
Proof.
  intros dbg fuel P st hs vars xs i j k Hi Hj Hk HV x y z law_of.
  split; [intros; apply (l_div_rem dbg fuel P st hs vars xs i j k); auto|]. split; [intros; apply (l_mul_div dbg fuel P st hs vars xs i j k); auto|]. split; [intros; apply (l_pow dbg fuel P st hs vars xs i j k); auto|]. split; [intros; apply (l_pow_mul dbg fuel P st hs vars xs i j k); auto|intros; apply (l_shift dbg fuel P st hs vars xs i j k); auto].
Qed.
Print Assumptions C183_division_partial.

(** Laws of the bitwise operators. *)
Theorem C183_bits_partial : forall dbg fuel P st hs vars xs i j t,
  (i < length xs)%nat -> (j < length xs)%nat -> with_variables P 8 st hs vars xs -> std_ty t ->
  let x := nth i xs 0 in let y := nth j xs 0 in let law_of := law dbg fuel P st hs vars xs in
  law_of (VarVar OAnd i i) (Cloned i) True /\ law_of (VarVar OOr i i) (Cloned i) True /\ law_of (VarVar OXor i i) (Lit t 0) True /\
  law_of (VarVar OAnd i j) (VarVar OAnd j i) (~ mixed x y \/ Z.land (Z.abs x) (Z.abs y) = 0) /\
  law_of (VarVar OOr i j) (VarVar OOr j i) (~ mixed x y) /\
  law_of (VarVar OXor i j) (VarVar OXor j i) (~ mixed x y \/ Z.abs x = Z.abs y) /\
  law_of (ExpVar OXor (VarVar OXor i j) j) (Cloned i) (0 <= x \/ Z.abs x <> Z.abs y).
Proof.
  intros dbg fuel P st hs vars xs i j t Hi Hj HV Ht x y law_of.
  destruct (l_bits_same dbg fuel P st hs vars xs i i i Hi Hi Hi HV t Ht) as (A1 & A2 & A3). destruct (l_bits_comm dbg fuel P st hs vars xs i j j Hi Hj Hj HV) as (B1 & B2 & B3).
  repeat (split; [assumption|]). apply (l_xor_twice dbg fuel P st hs vars xs i j j); auto.
Qed.
Print Assumptions C183_bits_partial.

(** ** Cases *)

(** The variables of the demonstration store of PropBigInt.v. *)
Definition law_vars : list Z := [0; 31; 5; 38].
Definition law_values : list Z := [2 ^ 100 + 3; -7; (2 ^ 100 + 3) * -7; 9].
Example C183_demo : with_variables 11 8 demo_st demo_hs law_vars law_values /\ wrong_sum (-7) 9 /\ mixed (-7) 9 /\ right_op true ODiv ((2 ^ 100 + 3) * -7) 9 /\ right_op true ODiv (9 * -7) (-7).
Proof.
  split; [split; [apply demo_consistent|split; [vm_compute; discriminate|constructor; [apply demo_a'|constructor; [apply demo_b'|constructor; [apply demo_c'|constructor; [apply demo_d'|constructor]]]]]]|].
  split; [unfold wrong_sum, mixed; split; [lia|split; [lia|reflexivity]]|]. split; [unfold mixed; lia|].
  split; (split; [discriminate|split; [vm_compute; reflexivity|left; vm_compute; discriminate]]).
Qed.

(** -7 + 9 is not 9 + -7; (x + y) + y is not x + (y + y); x * (y + z) is not x * y + x * z; -7 / 9 * 9 + -7 % 9 is -7, but 9 / -7 * -7 + 9 % -7 is not 9; -7 & 9 is not 9 & -7. *)
Theorem C183_refuted : exists dbg fuel P st hs vars xs, with_variables P 8 st hs vars xs /\
  (exists i j, says dbg fuel P st hs vars xs (VarVar OAdd i j) (VarVar OAdd j i) false) /\
  (exists i j k, says dbg fuel P st hs vars xs (ExpVar OAdd (VarVar OAdd i j) k) (VarExp OAdd i (VarVar OAdd j k)) false) /\
  (exists i j k, says dbg fuel P st hs vars xs (VarExp OMul i (VarVar OAdd j k)) (ExpExp OAdd (VarVar OMul i j) (VarVar OMul i k)) false) /\
  (exists i j, nth j xs 0 <> 0 /\ says dbg fuel P st hs vars xs (ExpExp OAdd (ExpVar OMul (VarVar ODiv i j) j) (VarVar ORem i j)) (Cloned i) false) /\
  (exists i j, says dbg fuel P st hs vars xs (VarVar OAnd i j) (VarVar OAnd j i) false).
Proof.
  exists true, 0%nat, 11, demo_st, demo_hs, law_vars, law_values. destruct C183_demo as (HV & _).
  assert (forall e f, 1 + Z.max (temporaries e) (temporaries f) <= 8 ->
    everywhere_with outcome (fit_op true) (fun _ y => 0 <= y <= Z.of_nat 0) (fun x => x <> 0) law_values e ->
    everywhere_with outcome (fit_op true) (fun _ y => 0 <= y <= Z.of_nat 0) (fun x => x <> 0) law_values f ->
    value_with outcome law_values e <> value_with outcome law_values f -> says true 0 11 demo_st demo_hs law_vars law_values e f false) as H.
  { intros e f Hk He Hf N. apply Z.eqb_neq in N. rewrite <- N. apply compared; auto. destruct HV as (V1 & V2 & V3). split; [exact V1|split; [eapply room_le; [|exact V2]; lia|exact V3]]. }
  split; [exact HV|]. split; [|split; [|split; [|split]]].
  - exists 1%nat, 3%nat. apply H; [cbn; lia|cbn [everywhere_with fit_op length law_values]; lia..|vm_compute; discriminate].
  - exists 1%nat, 3%nat, 3%nat. apply H; [cbn; lia|cbn [everywhere_with fit_op length law_values]; lia..|vm_compute; discriminate].
  - exists 3%nat, 1%nat, 3%nat. apply H; [cbn; lia|cbn [everywhere_with fit_op length law_values]; lia..|vm_compute; discriminate].
  - exists 3%nat, 1%nat. split; [discriminate|]. apply H; [cbn; lia|cbn [everywhere_with fit_op length law_values right_op nth value_with]; repeat split; try lia; try discriminate; try (vm_compute; reflexivity); left; vm_compute; discriminate|cbn; lia|vm_compute; discriminate].
  - exists 1%nat, 3%nat. apply H; [cbn; lia|cbn [everywhere_with fit_op length law_values]; lia..|vm_compute; discriminate].
Qed.
Print Assumptions C183_refuted.
