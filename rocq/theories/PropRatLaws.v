(** C187: algebraic laws of rationals, as [==] sees them. *)
From Coq Require Import ZArith QArith Qround Qabs List Bool Lia.
From Verif Require Import RatModel RatExprModel Base Words Spec Arith BitSliceModel BitSliceProofs PrimModel PrimProofs PropPrim
  FixedModel RealSpec RealProofs RatProofs PropReals PropReals3 PropReals5 PropRatExpr.
Import ListNotations.
Local Open Scope Z_scope.

(** Made by [Rat::new]. *)
Definition made (fuel : nat) (t : ity) (x : rat) : Prop := exists n d, fits t n /\ fits t d /\ rat_new fuel t n d = Ok (Some x).

(** A whole number or one over a whole number. *)
Definition whole_or_inverse (q : Q) : Prop := exists k : Z, (q == inject_Z k)%Q \/ (/ q == inject_Z k)%Q.

Lemma frac_divides n d : n <> 0 -> d <> 0 -> ((n | d) \/ (d | n) -> whole_or_inverse (frac n d)).
Proof.
  intros Hn Hd. assert (~ inject_Z n == 0)%Q as Qn by (intros E; apply Hn; unfold Qeq in E; cbn in E; lia).
  assert (~ inject_Z d == 0)%Q as Qd by (intros E; apply Hd; unfold Qeq in E; cbn in E; lia).
  unfold frac. intros [[k E]|[k E]]; exists k; [right|left]; apply (f_equal inject_Z) in E; rewrite inject_Z_mult in E.
  - setoid_replace (/ (inject_Z n / inject_Z d))%Q with (inject_Z d / inject_Z n)%Q by (field; split; assumption). rewrite E. field. exact Qn.
  - rewrite E. field. exact Qd.
Qed.

(** A result of an operator (or of [new]) was made by [new] from numbers of the type. *)
Definition top_made (fuel : nat) (t : ity) (args : list rat) (e : rexpr) : Prop :=
  match e with RArg i => made fuel t (nth i args rat_zero) | RNeg _ => False | _ => True end.

Lemma made_unwrap fuel t n d r : fits t n -> fits t d -> rat_new_unwrap fuel t n d = Ok r -> made fuel t r.
Proof.
  intros Fn Fd E. exists n, d. split; [exact Fn|]. split; [exact Fd|]. unfold rat_new_unwrap in E. destruct (rat_new fuel t n d) as [[x|]| |]; cbn in E; congruence.
Qed.
Lemma made_result fuel t args e r : rtyped t e -> top_made fuel t args e -> reval true fuel t args e = Ok r -> made fuel t r.
Proof.
  intros T M. destruct e as [i|n d|e f|e f|e f|e f|e]; cbn [reval top_made rtyped] in *; try contradiction.
  - intros [= <-]. exact M.
  - destruct T. apply made_unwrap; auto.
  - destruct (reval true fuel t args e) as [a| |]; cbn [bind]; try discriminate. destruct (reval true fuel t args f) as [b| |]; cbn [bind]; try discriminate. unfold rat_add.
    destruct (arith true t (num a * denom b)) as [p| |] eqn:E1; cbn [bind]; try discriminate. destruct (arith true t (num b * denom a)) as [q| |] eqn:E2; cbn [bind]; try discriminate.
    destruct (arith true t (p + q)) as [n| |] eqn:E3; cbn [bind]; try discriminate. destruct (arith true t (denom a * denom b)) as [d| |] eqn:E4; cbn [bind]; try discriminate.
    apply arith_true in E3, E4. destruct E3 as [-> ?], E4 as [-> ?]. apply made_unwrap; auto.
  - destruct (reval true fuel t args e) as [a| |]; cbn [bind]; try discriminate. destruct (reval true fuel t args f) as [b| |]; cbn [bind]; try discriminate. unfold rat_sub.
    destruct (arith true t (num a * denom b)) as [p| |] eqn:E1; cbn [bind]; try discriminate. destruct (arith true t (num b * denom a)) as [q| |] eqn:E2; cbn [bind]; try discriminate.
    destruct (arith true t (p - q)) as [n| |] eqn:E3; cbn [bind]; try discriminate. destruct (arith true t (denom a * denom b)) as [d| |] eqn:E4; cbn [bind]; try discriminate.
    apply arith_true in E3, E4. destruct E3 as [-> ?], E4 as [-> ?]. apply made_unwrap; auto.
  - destruct (reval true fuel t args e) as [a| |]; cbn [bind]; try discriminate. destruct (reval true fuel t args f) as [b| |]; cbn [bind]; try discriminate. unfold rat_mul.
    destruct (arith true t (num a * num b)) as [n| |] eqn:E3; cbn [bind]; try discriminate. destruct (arith true t (denom a * denom b)) as [d| |] eqn:E4; cbn [bind]; try discriminate.
    apply arith_true in E3, E4. destruct E3 as [-> ?], E4 as [-> ?]. apply made_unwrap; auto.
  - destruct (reval true fuel t args e) as [a| |]; cbn [bind]; try discriminate. destruct (reval true fuel t args f) as [b| |]; cbn [bind]; try discriminate. unfold rat_div.
    destruct (arith true t (num a * denom b)) as [n| |] eqn:E3; cbn [bind]; try discriminate. destruct (arith true t (denom a * num b)) as [d| |] eqn:E4; cbn [bind]; try discriminate.
    apply arith_true in E3, E4. destruct E3 as [-> ?], E4 as [-> ?]. apply made_unwrap; auto.
Qed.

Lemma arith_release t v r : arith true t v = Ok r -> arith false t v = Ok r.
Proof. unfold arith. destruct (in_range t v); [auto|discriminate]. Qed.
Lemma release_same fuel t args e : forall r, reval true fuel t args e = Ok r -> reval false fuel t args e = Ok r.
Proof.
  assert (forall v (k k' : Z -> res rat) r, bind (arith true t v) k = Ok r -> (forall x, k x = Ok r -> k' x = Ok r) -> bind (arith false t v) k' = Ok r) as A.
  { intros v k k' r E H. destruct (arith true t v) as [x| |] eqn:E1; try discriminate. rewrite (arith_release t v x E1). cbn [bind] in *. auto. }
  induction e as [i|n d|e IHe f IHf|e IHe f IHf|e IHe f IHf|e IHe f IHf|e IHe]; cbn [reval]; intros r; auto;
    destruct (reval true fuel t args e) as [a| |]; cbn [bind]; try discriminate; rewrite (IHe a eq_refl); cbn [bind];
    try (destruct (reval true fuel t args f) as [b| |]; cbn [bind]; try discriminate; rewrite (IHf b eq_refl); cbn [bind]).
  - unfold rat_add. intros E. eapply A; [exact E|]. cbv beta. intros p E1. eapply A; [exact E1|]. cbv beta. intros q E2. eapply A; [exact E2|]. cbv beta. intros n E3. eapply A; [exact E3|]. auto.
  - unfold rat_sub. intros E. eapply A; [exact E|]. cbv beta. intros p E1. eapply A; [exact E1|]. cbv beta. intros q E2. eapply A; [exact E2|]. cbv beta. intros n E3. eapply A; [exact E3|]. auto.
  - unfold rat_mul. intros E. eapply A; [exact E|]. cbv beta. intros p E1. eapply A; [exact E1|]. auto.
  - unfold rat_div. intros E. eapply A; [exact E|]. cbv beta. intros p E1. eapply A; [exact E1|]. auto.
  - unfold rat_neg. intros E. eapply A; [exact E|]. auto.
Qed.

Lemma made_equal fuel t r s : setting t fuel -> made fuel t r -> made fuel t s -> (rat_val r == rat_val s)%Q ->
  (rat_val r == 0)%Q \/ ~ whole_or_inverse (rat_val r) -> rat_eq r s = true.
Proof.
  intros S (n & d & Fn & Fd & E) (n' & d' & Fn' & Fd' & E') V H.
  assert (forall m e x, fits t m -> fits t e -> rat_new fuel t m e = Ok (Some x) -> e <> 0 /\ (rat_val x == frac m e)%Q) as N.
  { intros m e x Fm Fe Ex. destruct S as (Hb & H1 & Hf). destruct (new_unwrap_good fuel t Hb H1 Hf m e x Fm Fe) as (_ & D & Q); auto. unfold rat_new_unwrap. rewrite Ex. reflexivity. }
  destruct (N n d r Fn Fd E) as [D Q]. destruct (N n' d' s Fn' Fd' E') as [D' Q'].
  apply (C80_exact_partial fuel t n d n' d' r s S Fn Fd Fn' Fd' E E'). split; [rewrite <- Q, <- Q'; exact V|].
  intros Dv. left. destruct (Z.eq_dec n 0) as [->|Hn]; [reflexivity|]. exfalso. destruct H as [H|H].
  - rewrite Q in H. unfold frac in H. apply Hn. assert (~ inject_Z d == 0)%Q as Qd by (intros K; apply D; unfold Qeq in K; cbn in K; lia).
    assert (inject_Z n == 0)%Q as K by (setoid_replace (inject_Z n) with (inject_Z n / inject_Z d * inject_Z d)%Q by (field; exact Qd); rewrite H; ring). unfold Qeq in K. cbn in K. lia.
  - apply H. destruct (frac_divides n d Hn D Dv) as [k K]. exists k. rewrite Q. exact K.
Qed.

(** Two expressions that stand for the same rational give results that [==] finds equal, in every build, if nothing overflows and the
    rational is 0, or neither whole nor one over a whole number. *)
Theorem C187_laws_partial : forall dbg fuel t args e f r s, setting t fuel -> Forall (rat_ok t) args -> rtyped t e -> rtyped t f ->
  top_made fuel t args e -> top_made fuel t args f ->
  reval true fuel t args e = Ok r -> reval true fuel t args f = Ok s ->
  (rvalue (map rat_val args) e == rvalue (map rat_val args) f)%Q ->
  (rvalue (map rat_val args) e == 0)%Q \/ ~ whole_or_inverse (rvalue (map rat_val args) e) ->
  exists r' s', reval dbg fuel t args e = Ok r' /\ reval dbg fuel t args f = Ok s' /\ rat_eq r' s' = true.
Proof.
  intros dbg fuel t args e f r s S F Te Tf Me Mf Ee Ef V H. exists r, s.
  assert (reval dbg fuel t args e = Ok r /\ reval dbg fuel t args f = Ok s) as [R1 R2] by (destruct dbg; auto using release_same).
  split; [exact R1|]. split; [exact R2|].
  destruct (C155_exact fuel t args e r S F Te Ee) as (_ & _ & Ve). destruct (C155_exact fuel t args f s S F Tf Ef) as (_ & _ & Vf).
  apply (made_equal fuel t r s S); [exact (made_result fuel t args e r Te Me Ee)|exact (made_result fuel t args f s Tf Mf Ef)| |].
  - rewrite Ve, Vf. exact V.
  - destruct H as [H|H]; [left; rewrite Ve; exact H|right]. intros [k K]. apply H. exists k. rewrite <- Ve. exact K.
Qed.
Print Assumptions C187_laws_partial.

(** ** Laws that hold exactly *)
Lemma rat_eta (x y : rat) : rat_eq x y = true -> x = y.
Proof. unfold rat_eq. intros H. apply andb_prop in H. destruct H as [H1 H2]. apply Z.eqb_eq in H1, H2. destruct x, y. cbn in *. congruence. Qed.
Lemma made_ok fuel t x : setting t fuel -> made fuel t x -> rat_ok t x.
Proof.
  intros (Hb & H1 & Hf) (n & d & Fn & Fd & E). destruct (new_unwrap_good fuel t Hb H1 Hf n d x Fn Fd) as (K & _); auto. unfold rat_new_unwrap. rewrite E. reflexivity.
Qed.
Lemma halves t m g : isigned t = true -> (0 < ibits t)%nat -> fits t m -> g <> 0 -> g <> 1 -> Z.quot m g <> imin t.
Proof.
  intros Sg Hb F G0 G1 E. unfold fits, imin, imax in *. rewrite Sg in *. set (h := 2 ^ (Z.of_nat (ibits t) - 1)) in *.
  assert (0 < h) by (apply Z.pow_pos_nonneg; lia). clearbody h. destruct (Z.eq_dec g (-1)) as [->|G2].
  - change (-1) with (- (1)) in E. rewrite Z.quot_opp_r, Z.quot_1_r in E by lia. lia.
  - assert (Z.abs (Z.quot m g) = h) as A by lia. rewrite <- Z.quot_abs in A by lia. rewrite Z.quot_div_nonneg in A by lia.
    assert (Z.abs m / Z.abs g <= h / 2); [|assert (h / 2 < h) by (apply Z.div_lt; lia); lia].
    transitivity (Z.abs m / 2); [apply Z.div_le_compat_l; lia|apply Z.div_le_mono; lia].
Qed.
Lemma new_again fuel t x : setting t fuel -> made fuel t x -> rat_new fuel t (num x) (denom x) = Ok (Some x).
Proof.
  intros S M. pose proof (made_ok fuel t x S M) as (Fx & Fy & Dx). destruct M as (n & d & Fn & Fd & E). pose proof E as E0.
  pose proof S as (Hb & H1 & Hf). destruct (new_unwrap_good fuel t Hb H1 Hf n d x Fn Fd) as (_ & D & V); [unfold rat_new_unwrap; rewrite E; reflexivity|].
  unfold rat_new in E. destruct (Z.eqb_spec d 0) as [D0|_]; [contradiction|].
  destruct (rat_reduce fuel t n d) as [y| |] eqn:R; cbn [bind] in E; try discriminate. injection E as ->.
  unfold rat_reduce in R. destruct (Z.eqb_spec n 0) as [N0|N0].
  { injection R as <-. cbn [num denom rat_zero]. unfold rat_new, rat_reduce. reflexivity. }
  destruct ((n =? 1) && (d =? 1)) eqn:O.
  { cbn [bind] in R. injection R as <-. exact E0. }
  destruct (prim_rem t n d) as [r1| |] eqn:R1; cbn [bind] in R; try discriminate. destruct (Z.eqb_spec r1 0) as [Z1|Z1].
  { cbn [bind] in R. injection R as <-. exact E0. }
  destruct (prim_rem t d n) as [r2| |] eqn:R2; cbn [bind] in R; try discriminate. destruct (Z.eqb_spec r2 0) as [Z2|Z2].
  { injection R as <-. exact E0. }
  assert (~ ((n | d) \/ (d | n))) as ND.
  { assert (r1 = Z.rem n d) as Q1 by (unfold prim_rem in R1; destruct (d =? 0); [discriminate|]; destruct (isigned t && (n =? imin t) && (d =? -1)); congruence).
    assert (r2 = Z.rem d n) as Q2 by (unfold prim_rem in R2; destruct (n =? 0); [discriminate|]; destruct (isigned t && (d =? imin t) && (n =? -1)); congruence).
    intros [K|K]; apply Z.rem_divide in K; congruence. }
  destruct (prim_gcd fuel t n d) as [g| |] eqn:Rg; cbn [bind] in R; try discriminate.
  destruct (prim_div t n g) as [n'| |] eqn:Dn; cbn [bind] in R; try discriminate. destruct (prim_div t d g) as [d'| |] eqn:Dd; cbn [bind] in R; try discriminate.
  injection R as <-. cbn [num denom] in *.
  assert (g <> 0 /\ n' = Z.quot n g /\ d' = Z.quot d g) as (G0 & -> & ->).
  { unfold prim_div in Dn, Dd. destruct (Z.eqb_spec g 0); [discriminate|]. destruct (isigned t && (n =? imin t) && (g =? -1)); [discriminate|].
    destruct (isigned t && (d =? imin t) && (g =? -1)); [discriminate|]. split; [assumption|]. split; congruence. }
  destruct (Z.eq_dec g 1) as [->|G1].
  { rewrite !Z.quot_1_r in *. exact E0. }
  destruct (C79_new_sound fuel t (Z.quot n g) (Z.quot d g) S Fx Fy Dx) as [(_ & Sg & [K|K])|(r & Er & _ & Vr)].
  - destruct (halves t n g Sg Hb Fn G0 G1 K).
  - destruct (halves t d g Sg Hb Fd G0 G1 K).
  - rewrite Er. do 2 f_equal. symmetry. apply rat_eta.
    apply (C80_exact_partial fuel t n d _ _ _ r S Fn Fd Fx Fy E0 Er). split; [rewrite <- V; reflexivity|]. intros K. contradiction.
Qed.

(** Sums and products do not depend on the order of the operands, panics and wrapped results included. *)
Theorem C187_commutative : forall dbg fuel t a b, rat_add dbg fuel t a b = rat_add dbg fuel t b a /\ rat_mul dbg fuel t a b = rat_mul dbg fuel t b a.
Proof.
  intros dbg fuel t a b. unfold rat_add, rat_mul. rewrite (Z.mul_comm (denom a) (denom b)), (Z.mul_comm (num a) (num b)). split; [|reflexivity].
  assert (forall v, (exists r, arith dbg t v = Ok r) \/ arith dbg t v = Panic) as A
    by (intros v; unfold arith; destruct (in_range t v); [left; eexists; reflexivity|]; destruct dbg; [right; reflexivity|left; eexists; reflexivity]).
  destruct (A (num a * denom b)) as [[p ->]| ->]; destruct (A (num b * denom a)) as [[q ->]| ->]; cbn [bind]; try reflexivity. rewrite (Z.add_comm p q). reflexivity.
Qed.
Print Assumptions C187_commutative.

Lemma arith_fits dbg t v : fits t v -> arith dbg t v = Ok v.
Proof. intros F. unfold arith. replace (in_range t v) with true; [reflexivity|]. symmetry. unfold in_range. unfold fits in F. apply andb_true_intro. split; apply Z.leb_le; lia. Qed.
Lemma fits_0 t : (0 < ibits t)%nat -> fits t 0.
Proof.
  intros H. unfold fits, imin, imax. assert (0 < 2 ^ (Z.of_nat (ibits t) - 1)) by (apply Z.pow_pos_nonneg; lia). assert (0 < 2 ^ Z.of_nat (ibits t)) by (apply Z.pow_pos_nonneg; lia).
  destruct (isigned t); lia.
Qed.

(** 0 and 1 are neutral for a rational made by [new], in every build and without any condition on its size. *)
Theorem C187_neutral : forall dbg fuel t x, setting t fuel -> made fuel t x ->
  rat_add dbg fuel t x rat_zero = Ok x /\ rat_add dbg fuel t rat_zero x = Ok x /\ rat_sub dbg fuel t x rat_zero = Ok x /\
  rat_mul dbg fuel t x rat_one = Ok x /\ rat_mul dbg fuel t rat_one x = Ok x /\ rat_div dbg fuel t x rat_one = Ok x.
Proof.
  intros dbg fuel t x S M. pose proof (new_again fuel t x S M) as N. destruct (made_ok fuel t x S M) as (Fn & Fd & D). destruct S as (Hb & H1 & Hf).
  pose proof (fits_0 t Hb) as F0. unfold rat_add, rat_sub, rat_mul, rat_div, rat_new_unwrap. cbn [num denom rat_zero rat_one].
  repeat (first [rewrite Z.mul_1_r|rewrite Z.mul_1_l|rewrite Z.mul_0_l|rewrite Z.mul_0_r]).
  rewrite !(arith_fits dbg t (num x) Fn), !(arith_fits dbg t (denom x) Fd), !(arith_fits dbg t 0 F0). cbn [bind].
  rewrite ?Z.add_0_r, ?Z.add_0_l, ?Z.sub_0_r. rewrite !(arith_fits dbg t (num x) Fn). cbn [bind]. rewrite N. cbn [bind unwrap]. repeat split.
Qed.
Print Assumptions C187_neutral.

(** What a product with 0 and a difference with itself give, when they return with overflow checks: 0 as [new] makes it. *)
Theorem C187_zero : forall fuel t x r,
  (rat_sub true fuel t x x = Ok r -> r = rat_zero) /\ (rat_mul true fuel t x rat_zero = Ok r -> r = rat_zero) /\ (rat_mul true fuel t rat_zero x = Ok r -> r = rat_zero).
Proof.
  intros fuel t x r. assert (forall n d, n = 0 -> rat_new_unwrap fuel t n d = Ok r -> r = rat_zero) as K.
  { intros n d -> E. unfold rat_new_unwrap, rat_new in E. destruct (d =? 0); cbn in E; congruence. }
  unfold rat_sub, rat_mul. cbn [num denom rat_zero]. rewrite Z.mul_0_r, Z.mul_0_l. repeat split.
  - destruct (arith true t (num x * denom x)) as [p| |]; cbn [bind]; try discriminate. destruct (arith true t (p - p)) as [n| |] eqn:E; cbn [bind]; try discriminate.
    apply arith_true in E. destruct (arith true t (denom x * denom x)) as [d| |]; cbn [bind]; try discriminate. apply K. lia.
  - destruct (arith true t 0) as [n| |] eqn:E; cbn [bind]; try discriminate. apply arith_true in E. destruct (arith true t (denom x * 1)) as [d| |]; cbn [bind]; try discriminate. apply K. tauto.
  - destruct (arith true t 0) as [n| |] eqn:E; cbn [bind]; try discriminate. apply arith_true in E. destruct (arith true t (1 * denom x)) as [d| |]; cbn [bind]; try discriminate. apply K. tauto.
Qed.
Print Assumptions C187_zero.

(** ** The usual laws *)
Definition rational_laws : list (rexpr * rexpr) :=
  let x := RArg 0 in let y := RArg 1 in let z := RArg 2 in
  [ (RAdd (RAdd x y) z, RAdd x (RAdd y z)); (RMul (RMul x y) z, RMul x (RMul y z));
    (RMul x (RAdd y z), RAdd (RMul x y) (RMul x z)); (RMul x (RSub y z), RSub (RMul x y) (RMul x z));
    (RSub x y, RAdd x (RNeg y)); (RSub x (RSub y z), RAdd (RSub x y) z); (RSub (RSub x y) z, RSub x (RAdd y z));
    (RAdd (RSub x y) y, x); (RSub (RAdd x y) y, x);
    (RMul (RDiv x y) y, x); (RDiv (RMul x y) y, x); (RDiv (RDiv x y) z, RDiv x (RMul y z)); (RDiv x (RDiv y z), RMul (RDiv x y) z) ].

Theorem C187_usual_partial : forall dbg fuel t x y z e f r s, setting t fuel -> made fuel t x -> made fuel t y -> made fuel t z -> In (e, f) rational_laws ->
  reval true fuel t [x; y; z] e = Ok r -> reval true fuel t [x; y; z] f = Ok s ->
  (rat_val r == 0)%Q \/ ~ whole_or_inverse (rat_val r) ->
  exists r' s', reval dbg fuel t [x; y; z] e = Ok r' /\ reval dbg fuel t [x; y; z] f = Ok s' /\ rat_eq r' s' = true.
Proof.
  intros dbg fuel t x y z e f r s S Mx My Mz L Ee Ef H.
  assert (Forall (rat_ok t) [x; y; z]) as F by (repeat constructor; eapply made_ok; eassumption).
  assert (rtyped t e /\ rtyped t f) as [Te Tf] by (cbn in L; repeat (destruct L as [[= <- <-]|L]; [cbn; tauto|]); destruct L).
  assert (top_made fuel t [x; y; z] e /\ top_made fuel t [x; y; z] f) as [Me Mf]
    by (cbn in L; repeat (destruct L as [[= <- <-]|L]; [cbn; tauto|]); destruct L).
  destruct (C155_exact fuel t [x; y; z] e r S F Te Ee) as (De & _ & Ve). destruct (C155_exact fuel t [x; y; z] f s S F Tf Ef) as (Df & _ & _).
  assert (rvalue (map rat_val [x; y; z]) e == rvalue (map rat_val [x; y; z]) f)%Q as V.
  { clear - L De Df. cbn in L. repeat (destruct L as [[= <- <-]|L]; [cbn in *; try ring; field; tauto|]). destruct L. }
  apply (C187_laws_partial dbg fuel t [x; y; z] e f r s); auto.
  destruct H as [H|H]; [left; rewrite <- Ve; exact H|right]. intros [k K]. apply H. exists k. rewrite Ve. exact K.
Qed.
Print Assumptions C187_usual_partial.

(** ** Where the laws fail *)
(** With overflow checks and nothing overflowing: [(1/2 + 1/6) + 1/3] and [1/2 + (1/6 + 1/3)] are [9/9] and [36/36];
    [1/2 + 1/2] and [(1/2) / (1/2)] are [4/4] and [2/2], not [1/1]; [1/3 - 3/4] is [5/-12] where [-(3/4 - 1/3)] is [-5/12]. *)
Definition half := mkRat 1 2. Definition third := mkRat 1 3. Definition sixth := mkRat 1 6.
Theorem C187_refuted :
  made 600 i8 half /\ made 600 i8 third /\ made 600 i8 sixth /\
  (exists r s, reval true 600 i8 [half; sixth; third] (RAdd (RAdd (RArg 0) (RArg 1)) (RArg 2)) = Ok r /\
     reval true 600 i8 [half; sixth; third] (RAdd (RArg 0) (RAdd (RArg 1) (RArg 2))) = Ok s /\ (rat_val r == rat_val s)%Q /\ rat_eq r s = false) /\
  (exists r, rat_add true 600 i8 half half = Ok r /\ (rat_val r == 1)%Q /\ rat_eq r rat_one = false) /\
  (exists r, rat_div true 600 i8 half half = Ok r /\ (rat_val r == 1)%Q /\ rat_eq r rat_one = false) /\
  (exists r s, reval true 600 i8 [third; mkRat 3 4] (RSub (RArg 0) (RArg 1)) = Ok r /\
     reval true 600 i8 [third; mkRat 3 4] (RNeg (RSub (RArg 1) (RArg 0))) = Ok s /\ (rat_val r == rat_val s)%Q /\ rat_eq r s = false).
Proof.
  assert (forall d, (d = 2 \/ d = 3 \/ d = 6) -> made 600 i8 (mkRat 1 d)) as K.
  { intros d H. exists 1, d. split; [ex_tac|]. destruct H as [->|[->| ->]]; (split; [ex_tac|vm_compute; reflexivity]). }
  repeat (split; [apply K; tauto|]).
  split; [eexists; eexists; split; [vm_compute; reflexivity|]; split; [vm_compute; reflexivity|]; split; vm_compute; reflexivity|].
  split; [eexists; split; [vm_compute; reflexivity|]; split; vm_compute; reflexivity|].
  split; [eexists; split; [vm_compute; reflexivity|]; split; vm_compute; reflexivity|].
  eexists; eexists; split; [vm_compute; reflexivity|]; split; [vm_compute; reflexivity|]; split; vm_compute; reflexivity.
Qed.
Print Assumptions C187_refuted.

(** ** The hypotheses are met *)
Example C187_demo_associative :
  setting i8 600 /\ made 600 i8 half /\ made 600 i8 third /\ made 600 i8 (mkRat (-1) 5) /\
  In (RAdd (RAdd (RArg 0) (RArg 1)) (RArg 2), RAdd (RArg 0) (RAdd (RArg 1) (RArg 2))) rational_laws /\
  reval true 600 i8 [half; third; mkRat (-1) 5] (RAdd (RAdd (RArg 0) (RArg 1)) (RArg 2)) = Ok (mkRat 19 30) /\
  reval true 600 i8 [half; third; mkRat (-1) 5] (RAdd (RArg 0) (RAdd (RArg 1) (RArg 2))) = Ok (mkRat 19 30) /\
  ~ whole_or_inverse (rat_val (mkRat 19 30)).
Proof.
  split; [unfold setting; split; [cbn; lia|]; split; [ex_tac|vm_compute; reflexivity]|].
  split; [exists 1, 2; split; [ex_tac|]; split; [ex_tac|vm_compute; reflexivity]|]. split; [exists 1, 3; split; [ex_tac|]; split; [ex_tac|vm_compute; reflexivity]|].
  split; [exists (-1), 5; split; [ex_tac|]; split; [ex_tac|vm_compute; reflexivity]|]. split; [left; reflexivity|].
  split; [vm_compute; reflexivity|]. split; [vm_compute; reflexivity|].
  intros [k [K|K]]; unfold rat_val, frac, Qeq, Qdiv, Qmult, Qinv, inject_Z in K; cbn in K; lia.
Qed.
Example C187_demo_neutral : made 600 i8 (mkRat 127 (-126)) /\ made 600 i8 (mkRat (-128) 64).
Proof. split; [exists 127, (-126)|exists (-128), 64]; (split; [ex_tac|]; split; [ex_tac|vm_compute; reflexivity]). Qed.
Example C187_demo_zero : rat_sub true 600 i8 third third = Ok rat_zero /\ rat_mul true 600 i8 third rat_zero = Ok rat_zero.
Proof. split; vm_compute; reflexivity. Qed.
