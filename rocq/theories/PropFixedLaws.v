(** C188: algebraic laws of fixed-point numbers over a primitive integer. *)
From Coq Require Import ZArith List Bool Lia Znumtheory Zpow_facts.
From Verif Require Import Base Words Spec Arith BitSliceModel BitSliceProofs PrimModel PrimProofs PropPrim FixedModel LawSpec.
Import ListNotations.
Local Open Scope Z_scope.

(** [x] is the number of the type that is [v] modulo 2^bits. *)
Definition stands_fx (t : ity) (x v : Z) : Prop := x = wrap t v.

Section Ring.
Variable t : ity.
Hypothesis Hb : (0 < ibits t)%nat.
Lemma sf_self x : fits t x -> stands_fx t x x.
Proof. intros F. symmetry. apply wrap_id; auto. Qed.
Lemma sf_fits x v : stands_fx t x v -> fits t x.
Proof. intros ->. apply wrap_range. exact Hb. Qed.
Lemma wrap_eqm a b : a mod 2 ^ Z.of_nat (ibits t) = b mod 2 ^ Z.of_nat (ibits t) -> wrap t a = wrap t b.
Proof. intros E. apply wrap_unique; [exact Hb|apply wrap_range; exact Hb|]. rewrite wrap_mod by exact Hb. congruence. Qed.
Lemma sf_add x y v u : stands_fx t x v -> stands_fx t y u -> stands_fx t (wrap t (x + y)) (v + u).
Proof. intros -> ->. apply wrap_eqm. rewrite Zplus_mod, !wrap_mod by exact Hb. rewrite <- Zplus_mod. reflexivity. Qed.
Lemma sf_sub x y v u : stands_fx t x v -> stands_fx t y u -> stands_fx t (wrap t (x - y)) (v - u).
Proof. intros -> ->. apply wrap_eqm. rewrite Zminus_mod, !wrap_mod by exact Hb. rewrite <- Zminus_mod. reflexivity. Qed.
Lemma sf_mul x y v u : stands_fx t x v -> stands_fx t y u -> stands_fx t (wrap t (x * y)) (v * u).
Proof. intros -> ->. apply wrap_eqm. rewrite Zmult_mod, !wrap_mod by exact Hb. rewrite <- Zmult_mod. reflexivity. Qed.
Lemma sf_neg x v : stands_fx t x v -> stands_fx t (wrap t (- x)) (- v).
Proof. intros H. replace (- x) with (0 - x) by ring. replace (- v) with (0 - v) by ring. apply sf_sub; [|exact H]. apply sf_self. apply imin_le0. exact Hb. Qed.
Lemma sf_same x y v u : stands_fx t x v -> stands_fx t y u -> v = u -> x = y.
Proof. intros -> -> ->. reflexivity. Qed.
End Ring.
Ltac sf Hb := repeat first [eapply sf_sub|eapply sf_add|eapply sf_mul|eapply sf_neg]; try exact Hb; first [eassumption|apply sf_self; [exact Hb|first [eassumption|apply imin_le0; exact Hb]]].

(** What the operators return without overflow checks. *)
Definition wraps (t : ity) (add sub mul : Z -> Z -> Z) (neg : Z -> Z) : Prop :=
  forall x y, fits t x -> fits t y ->
    fx_add false t x y = Ok (add x y) /\ fx_sub false t x y = Ok (sub x y) /\ fx_mul false t x y = Ok (mul x y) /\ fx_neg false t x = Ok (neg x).

(** Without overflow checks: a commutative ring, but its unit is the smallest positive number and not [one()]. *)
Theorem C188_ring_partial : forall t, (0 < ibits t)%nat -> fits t 1 ->
  exists add sub mul neg, wraps t add sub mul neg /\
    ring_laws (fits t) add sub mul fx_new fx_min_positive /\ negation_laws (fits t) add sub mul neg fx_new.
Proof.
  intros t Hb F1. assert (forall v, arith false t v = Ok (wrap t v)) as A.
  { intros v. unfold arith. destruct (in_range t v) eqn:E; [|reflexivity]. apply in_range_iff in E. rewrite wrap_id by auto. reflexivity. }
  exists (fun x y => wrap t (x + y)), (fun x y => wrap t (x - y)), (fun x y => wrap t (x * y)), (fun x => wrap t (- x)).
  split; [|split].
  - intros x y _ _. unfold fx_add, fx_sub, fx_mul, fx_neg. rewrite !A. auto.
  - split; [apply imin_le0; exact Hb|]. split; [exact F1|]. intros a b c Fa Fb Fc. unfold fx_new, fx_min_positive.
    split; [apply wrap_range; exact Hb|]. split; [apply wrap_range; exact Hb|]. split; [apply wrap_range; exact Hb|].
    repeat split; (eapply (sf_same t); [sf Hb|sf Hb|ring]).
  - intros a b Fa Fb. unfold fx_new. split; [apply wrap_range; exact Hb|]. repeat split; (eapply (sf_same t); [sf Hb|sf Hb|ring]).
Qed.
Print Assumptions C188_ring_partial.

(** ** Expressions with + - * and unary minus *)
Inductive fexpr := FArg (i : nat) | FAdd (e f : fexpr) | FSub (e f : fexpr) | FMul (e f : fexpr) | FNeg (e : fexpr).
(** crates/reals/src/fixed.rs:116-162 the operators, applied in the order of the expression. *)
Fixpoint feval (dbg : bool) (t : ity) (args : list Z) (e : fexpr) : res Z :=
  match e with
  | FArg i => Ok (nth i args 0)
  | FAdd e f => do a <- feval dbg t args e ;; do b <- feval dbg t args f ;; fx_add dbg t a b
  | FSub e f => do a <- feval dbg t args e ;; do b <- feval dbg t args f ;; fx_sub dbg t a b
  | FMul e f => do a <- feval dbg t args e ;; do b <- feval dbg t args f ;; fx_mul dbg t a b
  | FNeg e => do a <- feval dbg t args e ;; fx_neg dbg t a
  end.
(** The same expression of integers. *)
Fixpoint fint (args : list Z) (e : fexpr) : Z :=
  match e with
  | FArg i => nth i args 0 | FAdd e f => fint args e + fint args f | FSub e f => fint args e - fint args f
  | FMul e f => fint args e * fint args f | FNeg e => - fint args e
  end.

Lemma arith_t t v r : arith true t v = Ok r -> r = v /\ fits t v.
Proof. unfold arith. destruct (in_range t v) eqn:E; [|discriminate]. intros [= <-]. apply in_range_iff in E. split; auto. Qed.
Lemma arith_f t v : (0 < ibits t)%nat -> arith false t v = Ok (wrap t v).
Proof. intros Hb. unfold arith. destruct (in_range t v) eqn:E; [|reflexivity]. apply in_range_iff in E. rewrite wrap_id by auto. reflexivity. Qed.

Lemma feval_true t args e : forall r, feval true t args e = Ok r -> r = fint args e.
Proof.
  induction e as [i|e IHe f IHf|e IHe f IHf|e IHe f IHf|e IHe]; cbn [feval fint]; intros r; [congruence| | | |];
    destruct (feval true t args e) as [a| |]; cbn [bind]; try discriminate;
    try (destruct (feval true t args f) as [b| |]; cbn [bind]; try discriminate; rewrite <- (IHf b eq_refl)); rewrite <- (IHe a eq_refl);
    intros E; apply arith_t in E; tauto.
Qed.
Lemma feval_false t args e : (0 < ibits t)%nat -> Forall (fits t) args -> feval false t args e = Ok (wrap t (fint args e)).
Proof.
  intros Hb F. induction e as [i|e IHe f IHf|e IHe f IHf|e IHe f IHf|e IHe]; cbn [feval fint].
  - f_equal. apply sf_self; [exact Hb|]. destruct (nth_in_or_default i args 0) as [K| ->]; [|apply imin_le0; exact Hb]. exact (proj1 (Forall_forall _ _) F _ K).
  - rewrite IHe, IHf. cbn [bind]. unfold fx_add. rewrite arith_f by exact Hb. f_equal. apply (sf_add t Hb); reflexivity.
  - rewrite IHe, IHf. cbn [bind]. unfold fx_sub. rewrite arith_f by exact Hb. f_equal. apply (sf_sub t Hb); reflexivity.
  - rewrite IHe, IHf. cbn [bind]. unfold fx_mul. rewrite arith_f by exact Hb. f_equal. apply (sf_mul t Hb); reflexivity.
  - rewrite IHe. cbn [bind]. unfold fx_neg. rewrite arith_f by exact Hb. f_equal. apply (sf_neg t Hb). reflexivity.
Qed.

(** Two expressions that are equal as expressions of integers give the same number: always without overflow checks, and with them when both return. *)
Theorem C188_expressions_partial : forall t args e f, (0 < ibits t)%nat -> Forall (fits t) args -> fint args e = fint args f ->
  (exists r, feval false t args e = Ok r /\ feval false t args f = Ok r /\ fits t r) /\
  (forall r s, feval true t args e = Ok r -> feval true t args f = Ok s -> fx_eq r s = true /\ feval false t args e = Ok r).
Proof.
  intros t args e f Hb F E. split.
  - exists (wrap t (fint args e)). rewrite (feval_false t args f Hb F), <- E. split; [apply feval_false; auto|]. split; [reflexivity|apply wrap_range; exact Hb].
  - intros r s Er Es. pose proof (feval_true t args e r Er) as Vr. pose proof (feval_true t args f s Es) as Vs. split; [unfold fx_eq; apply Z.eqb_eq; congruence|].
    rewrite (feval_false t args e Hb F), <- Vr. f_equal. apply wrap_id; [exact Hb|]. clear - Er F Hb. destruct e as [i|e f|e f|e f|e]; cbn [feval] in Er.
    + injection Er as <-. destruct (nth_in_or_default i args 0) as [K| ->]; [|apply imin_le0; exact Hb]. exact (proj1 (Forall_forall _ _) F _ K).
    + destruct (feval true t args e) as [a| |]; try discriminate. destruct (feval true t args f) as [b| |]; try discriminate. apply arith_t in Er. destruct Er as [-> K]. exact K.
    + destruct (feval true t args e) as [a| |]; try discriminate. destruct (feval true t args f) as [b| |]; try discriminate. apply arith_t in Er. destruct Er as [-> K]. exact K.
    + destruct (feval true t args e) as [a| |]; try discriminate. destruct (feval true t args f) as [b| |]; try discriminate. apply arith_t in Er. destruct Er as [-> K]. exact K.
    + destruct (feval true t args e) as [a| |]; try discriminate. apply arith_t in Er. destruct Er as [-> K]. exact K.
Qed.
Print Assumptions C188_expressions_partial.

(** ** [one()] *)
Lemma one_size dbg t N o : (0 < ibits t)%nat -> fits t 1 -> (N < ibits t)%nat -> fx_one dbg t N = Ok o ->
  fits t o /\ (o = 1 <-> N = 0%nat) /\ (N <> 0%nat -> 2 <= Z.abs o /\ (2 | o)).
Proof.
  intros Hb F1 HN. unfold fx_one, prim_shl. destruct (Nat.ltb_spec N (ibits t)); [|lia]. intros [= <-]. rewrite Z.shiftl_mul_pow2, Z.mul_1_l by lia.
  split; [apply wrap_range; exact Hb|].
  assert (N <> 0%nat -> 2 <= Z.abs (wrap t (2 ^ Z.of_nat N)) /\ (2 | wrap t (2 ^ Z.of_nat N))) as K.
  { intros N0. pose proof (wrap_mod t (2 ^ Z.of_nat N) Hb) as M.
    assert (2 ^ Z.of_nat N < 2 ^ Z.of_nat (ibits t)) as L by (apply Z.pow_lt_mono_r; lia). assert (0 < 2 ^ Z.of_nat N) as P by (apply Z.pow_pos_nonneg; lia).
    rewrite (Z.mod_small (2 ^ Z.of_nat N)) in M by lia.
    assert (2 | wrap t (2 ^ Z.of_nat N)) as D.
    { rewrite (Z.div_mod (wrap t (2 ^ Z.of_nat N)) (2 ^ Z.of_nat (ibits t))), M by lia. apply Z.divide_add_r.
      - apply Z.divide_mul_l. exists (2 ^ (Z.of_nat (ibits t) - 1)). rewrite Z.mul_comm, <- Z.pow_succ_r by lia. f_equal. lia.
      - exists (2 ^ (Z.of_nat N - 1)). rewrite Z.mul_comm, <- Z.pow_succ_r by lia. f_equal. lia. }
    split; [|exact D]. destruct D as [k D]. assert (wrap t (2 ^ Z.of_nat N) <> 0) by (intros Z0; rewrite Z0, Z.mod_0_l in M by lia; lia). lia. }
  split; [|exact K]. split.
  - intros E. destruct (Nat.eq_dec N 0) as [Z0|Z0]; [exact Z0|]. apply K in Z0. rewrite E in Z0. change (Z.abs 1) with 1 in Z0. lia.
  - intros ->. change (2 ^ Z.of_nat 0) with 1. apply wrap_id; auto.
Qed.

(** [x * one()] is [x], and [x / one()] is [x], only for [x = 0], unless there is no fraction bit; [x / x] is [one()] only without a fraction bit. *)
Theorem C188_one_partial : forall dbg t N o x, (0 < ibits t)%nat -> fits t 1 -> (N < ibits t)%nat -> fx_one dbg t N = Ok o -> fits t x ->
  (fx_mul dbg t x o = Ok x <-> x = 0 \/ N = 0%nat) /\ (fx_mul dbg t o x = Ok x <-> x = 0 \/ N = 0%nat) /\
  (fx_div t x o = Ok x <-> x = 0 \/ N = 0%nat) /\ (x <> 0 -> (fx_div t x x = Ok o <-> N = 0%nat)).
Proof.
  intros dbg t N o x Hb F1 HN E F. destruct (one_size dbg t N o Hb F1 HN E) as (Fo & O1 & O2).
  assert (fx_mul dbg t x o = Ok x <-> x = 0 \/ N = 0%nat) as M.
  { unfold fx_mul. split.
    - intros H. destruct (Nat.eq_dec N 0) as [N0|N0]; [right; exact N0|left]. destruct (O2 N0) as [_ D].
      assert (x = wrap t (x * o)) as W.
      { unfold arith in H. destruct (in_range t (x * o)) eqn:R; [injection H as H; rewrite H; symmetry; apply wrap_id; auto|]. destruct dbg; [discriminate|congruence]. }
      pose proof (wrap_mod t (x * o) Hb) as Wm. rewrite <- W in Wm. pose proof (two_pow_pos (ibits t)) as P.
      assert ((2 ^ Z.of_nat (ibits t) | x * (o - 1))) as Dv.
      { apply Z.mod_divide; [lia|]. replace (x * (o - 1)) with (x * o - x) by ring. rewrite Zminus_mod, <- Wm, Z.sub_diag. apply Z.mod_0_l. lia. }
      rewrite Z.mul_comm in Dv. apply Gauss in Dv; [|apply rel_prime_sym].
      2:{ apply rel_prime_Zpower_r; [lia|]. apply rel_prime_sym. apply prime_rel_prime; [exact prime_2|].
          intros [k K]. destruct D as [k' K']. lia. }
      destruct Dv as [k K]. unfold fits in F. pose proof (range_size t Hb). pose proof (imin_le0 t Hb).
      assert (k = 0); [|nia]. destruct (Z_lt_le_dec k 0); [|destruct (Z_lt_le_dec 0 k); [nia|lia]].
      exfalso. assert (x <= - 2 ^ Z.of_nat (ibits t)) by nia. destruct (pow_half _ Hb) as [PH PP]. unfold imin, imax in *. destruct (isigned t); lia.
    - intros [->|N0]; [rewrite Z.mul_0_l; apply arith_in; exact F|]. apply O1 in N0. rewrite N0, Z.mul_1_r. apply arith_in. exact F. }
  split; [exact M|]. split; [unfold fx_mul in *; rewrite (Z.mul_comm o x); exact M|].
  assert (o <> 0 /\ o <> -1) as [G0 G1].
  { destruct (Nat.eq_dec N 0) as [N0|N0]; [apply O1 in N0; lia|]. apply O2 in N0. lia. }
  split.
  - unfold fx_div, prim_div. destruct (Z.eqb_spec o 0); [contradiction|]. replace (o =? -1) with false by (symmetry; apply Z.eqb_neq; exact G1). rewrite andb_false_r. split.
    + intros [= H]. destruct (Nat.eq_dec N 0) as [N0|N0]; [right; exact N0|left]. destruct (O2 N0) as [A _]. apply (f_equal Z.abs) in H. rewrite <- Z.quot_abs in H by exact G0.
      rewrite Z.quot_div_nonneg in H by lia. destruct (Z.eq_dec x 0) as [X0|X0]; [exact X0|]. assert (Z.abs x / Z.abs o < Z.abs x) by (apply Z.div_lt; lia). lia.
    + intros [->|N0]; [reflexivity|]. apply O1 in N0. rewrite N0, Z.quot_1_r. reflexivity.
  - intros X0. assert (fx_div t x x = Ok 1) as Q.
    { unfold fx_div, prim_div. destruct (Z.eqb_spec x 0); [contradiction|]. destruct (isigned t && (x =? imin t) && (x =? -1)) eqn:B.
      - exfalso. apply andb_prop in B. destruct B as [B B3]. apply andb_prop in B. destruct B as [B1 B2]. apply Z.eqb_eq in B2, B3.
        unfold fits in F1. pose proof (range_size t Hb) as RS. destruct (pow_half _ Hb) as [PH PP]. unfold imin, imax in *. rewrite B1 in *. lia.
      - rewrite Z.quot_same by assumption. reflexivity. }
    rewrite Q. rewrite <- O1. split; [congruence|intros ->; reflexivity].
Qed.
Print Assumptions C188_one_partial.

(** ** Quotients and remainders, whole and fractional parts *)
(** In every build [x / y] and [x % y] return for the same operands, and then [(x / y) * y + x % y] is [x]. *)
Theorem C188_division : forall dbg t x y, (0 < ibits t)%nat -> fits t x -> fits t y ->
  (fx_div t x y = Panic /\ fx_rem t x y = Panic /\ (y = 0 \/ isigned t = true /\ x = imin t /\ y = -1)) \/
  exists q r p, fx_div t x y = Ok q /\ fx_rem t x y = Ok r /\ fx_mul dbg t q y = Ok p /\ fx_add dbg t p r = Ok x /\ fits t q /\ Z.abs r < Z.abs y /\ 0 <= r * x.
Proof.
  intros dbg t x y Hb Fx Fy. unfold fx_div, fx_rem, prim_div, prim_rem. destruct (Z.eqb_spec y 0) as [Y|Y]; [left; auto|].
  destruct (isigned t && (x =? imin t) && (y =? -1)) eqn:B.
  { left. apply andb_prop in B. destruct B as [B B3]. apply andb_prop in B. destruct B as [B1 B2]. apply Z.eqb_eq in B2, B3. split; [reflexivity|]. split; [reflexivity|]. tauto. }
  right. exists (Z.quot x y), (Z.rem x y), (y * Z.quot x y). split; [reflexivity|]. split; [reflexivity|].
  pose proof (Z.quot_rem x y Y) as E. pose proof (Z.rem_bound_abs x y Y) as L. pose proof (Z.rem_sign_nz x y Y) as Sg.
  assert (0 <= Z.rem x y * x) as S0.
  { destruct (Z.eq_dec (Z.rem x y) 0) as [Z0|Z0]; [rewrite Z0; lia|]. specialize (Sg Z0). destruct (Z_lt_le_dec x 0); [assert (Z.rem x y < 0) by lia|assert (0 <= Z.rem x y) by lia]; nia. }
  assert (Z.abs (Z.rem x y) <= Z.abs x) as L2.
  { destruct (Z.eq_dec x 0) as [->|X0]; [rewrite Z.rem_0_l by exact Y; lia|]. rewrite <- Z.rem_abs by exact Y. rewrite Z.rem_mod_nonneg by lia. apply Z.mod_le; lia. }
  pose proof (imin_le0 t Hb) as Z0. unfold fits in *.
  assert (imin t <= y * Z.quot x y <= imax t) as P. { destruct (Z_lt_le_dec x 0); [assert (Z.rem x y <= 0) by nia; lia|]. destruct (Z.eq_dec x 0) as [->|]; [rewrite Z.quot_0_l by exact Y; lia|assert (0 <= Z.rem x y) by nia; lia]. }
  split; [unfold fx_mul; rewrite (Z.mul_comm (Z.quot x y)); apply arith_in; exact P|]. split; [unfold fx_add; rewrite <- E; apply arith_in; exact Fx|].
  split; [|split; [exact L|exact S0]].
  assert (Z.abs (Z.quot x y) <= Z.abs x) as A by (rewrite <- Z.quot_abs by exact Y; rewrite Z.quot_div_nonneg by lia; apply Z.div_le_upper_bound; nia).
  destruct (Z.eq_dec y (-1)) as [->|Ym].
  - change (-1) with (- (1)) in *. rewrite Z.quot_opp_r, Z.quot_1_r in * by lia. destruct (pow_half _ Hb) as [PH PP]. unfold imin, imax in *. destruct (isigned t) eqn:Sn; [|lia].
    cbn [andb] in B. rewrite andb_true_r in B. apply Z.eqb_neq in B. lia.
  - destruct (Z.eq_dec y 1) as [->|Y1]; [rewrite Z.quot_1_r; exact Fx|]. destruct (Z.eq_dec x 0) as [->|X0]; [rewrite Z.quot_0_l by exact Y; lia|].
    assert (Z.abs (Z.quot x y) < Z.abs x) as A2 by (rewrite <- Z.quot_abs by exact Y; rewrite Z.quot_div_nonneg by lia; apply Z.div_lt; lia).
    destruct (pow_half _ Hb) as [PH PP]. unfold imin, imax in *. destruct (isigned t) eqn:Sn; [lia|]. assert (0 <= Z.quot x y) by (apply Z.quot_pos; lia). lia.
Qed.
Print Assumptions C188_division.

(** [trunc] and [fract] add up to the number, in every build. *)
Theorem C188_parts : forall dbg t N x f, (0 < ibits t)%nat -> fits t x -> fx_fract dbg t N x = Ok f ->
  exists a, fx_trunc dbg t N x = Ok a /\ fx_add dbg t a f = Ok x /\ fx_sub dbg t x a = Ok f.
Proof.
  intros dbg t N x f Hb F E. unfold fx_trunc. rewrite E. cbn [bind]. unfold fx_fract in E. destruct (fx_one dbg t N) as [o| |]; cbn [bind] in E; try discriminate.
  unfold fx_rem, prim_rem in E. destruct (Z.eqb_spec o 0) as [Y|Y]; [discriminate|]. destruct (isigned t && (x =? imin t) && (o =? -1)); [discriminate|]. injection E as <-.
  pose proof (Z.rem_sign_nz x o Y) as Sg.
  assert (Z.abs (Z.rem x o) <= Z.abs x) as L2.
  { destruct (Z.eq_dec x 0) as [->|X0]; [rewrite Z.rem_0_l by exact Y; lia|]. rewrite <- Z.rem_abs by exact Y. rewrite Z.rem_mod_nonneg by lia. apply Z.mod_le; lia. }
  assert (0 <= Z.rem x o * x) as S0.
  { destruct (Z.eq_dec (Z.rem x o) 0) as [Z0|Z0]; [rewrite Z0; lia|]. specialize (Sg Z0). destruct (Z_lt_le_dec x 0); [assert (Z.rem x o < 0) by lia|assert (0 <= Z.rem x o) by lia]; nia. }
  pose proof (imin_le0 t Hb) as Z0. unfold fits in *. set (r := Z.rem x o) in *. clearbody r.
  assert (imin t <= x - r <= imax t /\ imin t <= r <= imax t) as [P1 P2].
  { destruct (Z_lt_le_dec x 0); [assert (r <= 0) by nia; lia|]. destruct (Z.eq_dec x 0) as [->|]; [lia|assert (0 <= r) by nia; lia]. }
  exists (x - r). unfold fx_sub, fx_add. split; [apply arith_in; exact P1|]. replace (x - r + r) with x by ring. replace (x - (x - r)) with r by ring. split; apply arith_in; assumption.
Qed.
Print Assumptions C188_parts.

(** ** Where the laws fail, and where their hypotheses are met *)
Theorem C188_refuted :
  (fx_one true i8 1 = Ok 2 /\ fx_mul true i8 3 2 = Ok 6 /\ fx_div i8 3 2 = Ok 1 /\ fx_div i8 3 3 = Ok 1) /\
  (feval true i8 [127; 1; -1] (FAdd (FAdd (FArg 0) (FArg 1)) (FArg 2)) = Panic /\ feval true i8 [127; 1; -1] (FAdd (FArg 0) (FAdd (FArg 1) (FArg 2))) = Ok 127) /\
  feval true i8 [-128] (FNeg (FNeg (FArg 0))) = Panic.
Proof. repeat split. Qed.
Print Assumptions C188_refuted.
Example C188_demo_distributive :
  Forall (fits i8) [3; -5; 7] /\ fint [3; -5; 7] (FMul (FArg 0) (FAdd (FArg 1) (FArg 2))) = fint [3; -5; 7] (FAdd (FMul (FArg 0) (FArg 1)) (FMul (FArg 0) (FArg 2))) /\
  feval true i8 [3; -5; 7] (FMul (FArg 0) (FAdd (FArg 1) (FArg 2))) = Ok 6 /\ feval true i8 [3; -5; 7] (FAdd (FMul (FArg 0) (FArg 1)) (FMul (FArg 0) (FArg 2))) = Ok 6 /\
  feval false i8 [100; 100; 100] (FMul (FArg 0) (FAdd (FArg 1) (FArg 2))) = feval false i8 [100; 100; 100] (FAdd (FMul (FArg 0) (FArg 1)) (FMul (FArg 0) (FArg 2))).
Proof. split; [repeat constructor; ex_tac|]. repeat split; vm_compute; reflexivity. Qed.
Example C188_demo_one : fits i8 1 /\ fx_one true i8 4 = Ok 16 /\ fx_mul false i8 17 16 = Ok 16 /\ fx_one true i8 7 = Ok (-128).
Proof. split; [ex_tac|]. repeat split; vm_compute; reflexivity. Qed.
Example C188_demo_division : fx_div i8 (-100) 7 = Ok (-14) /\ fx_rem i8 (-100) 7 = Ok (-2) /\ fx_div i8 (-128) (-1) = Panic.
Proof. repeat split; vm_compute; reflexivity. Qed.
Example C188_demo_parts : fx_fract true i8 3 (-77) = Ok (-5) /\ fx_trunc true i8 3 (-77) = Ok (-72).
Proof. repeat split; vm_compute; reflexivity. Qed.
