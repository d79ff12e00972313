(** C155: expressions of rationals. *)
From Coq Require Import ZArith QArith Qround Qabs List Bool Lia.
From Verif Require Import RatModel RatExprModel Base Words Spec Arith BitSliceModel BitSliceProofs PrimModel PrimProofs PropPrim
  FixedModel RealSpec RealProofs RatProofs PropReals PropReals3 PropReals5.
Import ListNotations.
Local Open Scope Z_scope.

(** The rational an expression denotes. *)
Fixpoint rvalue (args : list Q) (e : rexpr) : Q :=
  match e with
  | RArg i => nth i args 0%Q
  | RNew n d => frac n d
  | RAdd e f => (rvalue args e + rvalue args f)%Q
  | RSub e f => (rvalue args e - rvalue args f)%Q
  | RMul e f => (rvalue args e * rvalue args f)%Q
  | RDiv e f => (rvalue args e / rvalue args f)%Q
  | RNeg e => (- rvalue args e)%Q
  end.

(** No literal has denominator zero and no divisor is zero. *)
Fixpoint rdefined (args : list Q) (e : rexpr) : Prop :=
  match e with
  | RArg _ => True
  | RNew _ d => d <> 0
  | RAdd e f | RSub e f | RMul e f => rdefined args e /\ rdefined args f
  | RDiv e f => rdefined args e /\ rdefined args f /\ ~ (rvalue args f == 0)%Q
  | RNeg e => rdefined args e
  end.

(** Literals are numbers of the type. *)
Fixpoint rtyped (t : ity) (e : rexpr) : Prop :=
  match e with
  | RArg _ => True
  | RNew n d => fits t n /\ fits t d
  | RAdd e f | RSub e f | RMul e f | RDiv e f => rtyped t e /\ rtyped t f
  | RNeg e => rtyped t e
  end.

Lemma nth_map_val args i : nth i (map rat_val args) 0%Q == rat_val (nth i args rat_zero).
Proof.
  revert i. induction args as [|a args IH]; intros [|i]; cbn [nth map]; try reflexivity. apply IH.
Qed.
Lemma nth_ok t fuel args i : setting t fuel -> Forall (rat_ok t) args -> rat_ok t (nth i args rat_zero).
Proof.
  intros (Hb & H1 & _) F. revert i. induction F as [|a args Ha F IH]; intros [|i]; cbn [nth]; auto;
    pose proof (imin_le0 t Hb); unfold rat_ok, rat_zero, fits in *; cbn [num denom]; lia.
Qed.

(** With overflow checks, whatever is returned is exact and no divisor was zero. *)
Theorem C155_exact : forall fuel t args e r, setting t fuel -> Forall (rat_ok t) args -> rtyped t e ->
  reval true fuel t args e = Ok r ->
  rdefined (map rat_val args) e /\ rat_ok t r /\ (rat_val r == rvalue (map rat_val args) e)%Q.
Proof.
  intros fuel t args e r S F. revert r. induction e as [i|n d|e IHe f IHf|e IHe f IHf|e IHe f IHf|e IHe f IHf|e IHe]; intros r T;
    cbn [reval rvalue rdefined].
  - intros E. injection E as <-. split; auto. split; [eapply nth_ok; eauto|]. symmetry. apply nth_map_val.
  - cbn [rtyped] in T. destruct T as [Fn Fd]. intros E. destruct S as (Hb & H1 & He).
    destruct (new_unwrap_good fuel t Hb H1 He n d r Fn Fd E) as (G & D & V). auto.
  - cbn [rtyped] in T. destruct T as [Te Tf]. destruct (reval true fuel t args e) as [a| |]; cbn [bind]; try discriminate.
    destruct (reval true fuel t args f) as [b| |]; cbn [bind]; try discriminate. intros E.
    destruct (IHe a Te eq_refl) as (De & Oe & Ve), (IHf b Tf eq_refl) as (Df & Of & Vf).
    destruct (C79_checked_exact fuel t a b r S Oe Of) as (K & _). destruct (K E) as [O V]. rewrite V, Ve, Vf. repeat split; auto; try apply O; reflexivity.
  - cbn [rtyped] in T. destruct T as [Te Tf]. destruct (reval true fuel t args e) as [a| |]; cbn [bind]; try discriminate.
    destruct (reval true fuel t args f) as [b| |]; cbn [bind]; try discriminate. intros E.
    destruct (IHe a Te eq_refl) as (De & Oe & Ve), (IHf b Tf eq_refl) as (Df & Of & Vf).
    destruct (C79_checked_exact fuel t a b r S Oe Of) as (_ & K & _). destruct (K E) as [O V]. rewrite V, Ve, Vf. repeat split; auto; try apply O; reflexivity.
  - cbn [rtyped] in T. destruct T as [Te Tf]. destruct (reval true fuel t args e) as [a| |]; cbn [bind]; try discriminate.
    destruct (reval true fuel t args f) as [b| |]; cbn [bind]; try discriminate. intros E.
    destruct (IHe a Te eq_refl) as (De & Oe & Ve), (IHf b Tf eq_refl) as (Df & Of & Vf).
    destruct (C79_checked_exact fuel t a b r S Oe Of) as (_ & _ & K & _). destruct (K E) as [O V]. rewrite V, Ve, Vf. repeat split; auto; try apply O; reflexivity.
  - cbn [rtyped] in T. destruct T as [Te Tf]. destruct (reval true fuel t args e) as [a| |]; cbn [bind]; try discriminate.
    destruct (reval true fuel t args f) as [b| |]; cbn [bind]; try discriminate. intros E.
    destruct (IHe a Te eq_refl) as (De & Oe & Ve), (IHf b Tf eq_refl) as (Df & Of & Vf).
    destruct (C79_checked_exact fuel t a b r S Oe Of) as (_ & _ & _ & K & _). destruct (K E) as (O & N & V).
    rewrite V, Ve, Vf. rewrite Vf in N. repeat split; auto; try apply O; reflexivity.
  - cbn [rtyped] in T. destruct (reval true fuel t args e) as [a| |]; cbn [bind]; try discriminate. intros E.
    destruct (IHe a T eq_refl) as (De & Oe & Ve).
    destruct (C79_checked_exact fuel t a a r S Oe Oe) as (_ & _ & _ & _ & K). destruct (K E) as [O V]. rewrite V, Ve. repeat split; auto; try apply O; reflexivity.
Qed.
Print Assumptions C155_exact.

(** In every build, whatever overflows: what is returned is a representable fraction with a non-zero denominator; evaluation always ends. *)
Lemma arith_nt dbg t v : arith dbg t v <> Timeout.
Proof. unfold arith. destruct (in_range t v), dbg; discriminate. Qed.
Lemma new_nt dbg fuel t n d x y : setting t fuel -> arith dbg t n = Ok x -> arith dbg t d = Ok y -> rat_new_unwrap fuel t x y <> Timeout.
Proof.
  intros S Ex Ey. assert (fits t x /\ fits t y) as [Fx Fy].
  { destruct S as (Hb & _ & _). split; eapply arith_repr; eauto. }
  unfold rat_new_unwrap. destruct (Z.eq_dec y 0) as [->|Ny]; [unfold rat_new; discriminate|].
  destruct (C79_new_sound fuel t x y S Fx Fy Ny) as [(-> & _)|(r & -> & _)]; discriminate.
Qed.
Ltac nt S := repeat (match goal with |- bind (arith ?d ?t ?v) _ <> Timeout =>
    let E := fresh "E" in pose proof (arith_nt d t v); destruct (arith d t v) eqn:E; cbn [bind]; try discriminate; try congruence end);
  try (eapply new_nt; eauto).
Lemma ops_nt dbg fuel t a b : setting t fuel -> rat_add dbg fuel t a b <> Timeout /\ rat_sub dbg fuel t a b <> Timeout /\
  rat_mul dbg fuel t a b <> Timeout /\ rat_div dbg fuel t a b <> Timeout /\ rat_neg dbg t a <> Timeout.
Proof. intros S. unfold rat_add, rat_sub, rat_mul, rat_div, rat_neg. repeat split; nt S. Qed.

Theorem C155_total : forall dbg fuel t args e, setting t fuel -> Forall (rat_ok t) args -> rtyped t e ->
  reval dbg fuel t args e = Panic \/ exists r, reval dbg fuel t args e = Ok r /\ rat_ok t r.
Proof.
  intros dbg fuel t args e S F. assert (forall r : res rat, r <> Timeout -> (forall x, r = Ok x -> rat_ok t x) -> r = Panic \/ exists x, r = Ok x /\ rat_ok t x) as X.
  { intros [x| |] N H; auto; [right; exists x; auto|congruence]. }
  induction e as [i|n d|e IHe f IHf|e IHe f IHf|e IHe f IHf|e IHe f IHf|e IHe]; cbn [rtyped reval]; intros T;
    try (destruct T as [Te Tf]; destruct (IHe Te) as [->|(a & -> & Oa)]; cbn [bind]; auto; destruct (IHf Tf) as [->|(b & -> & Ob)]; cbn [bind]; auto;
         apply X; [apply (ops_nt dbg fuel t a b S)|intros x E; apply (C79_denominator dbg fuel t a b x S Oa Ob); tauto]; fail).
  - right. eexists. split; [reflexivity|]. eapply nth_ok; eauto.
  - destruct T as [Fn Fd]. unfold rat_new_unwrap. destruct (Z.eq_dec d 0) as [->|Nd]; [unfold rat_new; auto|].
    destruct (C79_new_sound fuel t n d S Fn Fd Nd) as [(-> & _)|(r & -> & O & _)]; cbn [bind RatModel.unwrap]; eauto.
  - destruct (IHe T) as [->|(a & -> & Oa)]; cbn [bind]; auto. apply X; [apply (ops_nt dbg fuel t a a S)|].
    intros x E. apply (C79_denominator dbg fuel t a a x S Oa Oa). auto 8.
Qed.
Print Assumptions C155_total.

(** Bounds on the numerator and denominator of the unreduced fraction, computed from the leaves. *)
Fixpoint rbound (args : list rat) (e : rexpr) : Z * Z :=
  match e with
  | RArg i => let a := nth i args rat_zero in (Z.abs (num a), Z.abs (denom a))
  | RNew n d => (Z.abs n, Z.abs d)
  | RAdd e f | RSub e f => let (a, b) := rbound args e in let (c, d) := rbound args f in (a * d + c * b, b * d)
  | RMul e f => let (a, b) := rbound args e in let (c, d) := rbound args f in (a * c, b * d)
  | RDiv e f => let (a, b) := rbound args e in let (c, d) := rbound args f in (a * d, b * c)
  | RNeg e => rbound args e
  end.
Fixpoint rsmall (m : Z) (args : list rat) (e : rexpr) : Prop :=
  fst (rbound args e) <= m /\ snd (rbound args e) <= m /\
  match e with
  | RArg _ | RNew _ _ => True
  | RAdd e f | RSub e f | RMul e f | RDiv e f => rsmall m args e /\ rsmall m args f
  | RNeg e => rsmall m args e
  end.

Lemma rsmall_top m args e : rsmall m args e -> fst (rbound args e) <= m /\ snd (rbound args e) <= m.
Proof. destruct e; cbn [rsmall]; tauto. Qed.

Lemma fits_abs t v : isigned t = true -> Z.abs v <= imax t -> fits t v /\ not_min t v.
Proof. intros Hs H. unfold fits, not_min, imin, imax in *. rewrite Hs in *. split; lia. Qed.

Lemma quot_abs_le n g : g <> 0 -> Z.abs (Z.quot n g) <= Z.abs n.
Proof.
  intros Hg. rewrite <- Z.quot_abs by auto. apply Z.quot_le_upper_bound; [lia|]. nia.
Qed.
Lemma new_small fuel t n d r : rat_new_unwrap fuel t n d = Ok r -> Z.abs (num r) <= Z.abs n /\ Z.abs (denom r) <= Z.abs d.
Proof.
  unfold rat_new_unwrap, rat_new. destruct (Z.eqb_spec d 0) as [->|Nd]; [discriminate|]. unfold rat_reduce.
  destruct (Z.eqb_spec n 0) as [->|Nn]. { cbn [bind RatModel.unwrap]. intros E. injection E as <-. cbn [num denom rat_zero]. lia. }
  destruct (if (n =? 1) && (d =? 1) then Ok true else _) as [w| |]; cbn [bind]; try discriminate.
  destruct w. { cbn [bind RatModel.unwrap]. intros E. injection E as <-. cbn [num denom]. lia. }
  destruct (prim_gcd fuel t n d) as [g| |]; cbn [bind]; try discriminate.
  destruct (prim_div t n g) as [n'| |] eqn:E1; cbn [bind]; try discriminate.
  destruct (prim_div t d g) as [d'| |] eqn:E2; cbn [bind RatModel.unwrap]; try discriminate.
  apply prim_div_inv in E1, E2. destruct E1 as (G & -> & _), E2 as (_ & -> & _).
  intros E. injection E as <-. cbn [num denom]. split; apply quot_abs_le; auto.
Qed.

(** Small enough leaves: every build returns the exact value. *)
Theorem C155_complete : forall dbg fuel t args e, setting t fuel -> isigned t = true -> Forall (rat_ok t) args -> rtyped t e ->
  rdefined (map rat_val args) e -> rsmall (imax t) args e ->
  exists r, reval dbg fuel t args e = Ok r /\ rat_ok t r /\ (rat_val r == rvalue (map rat_val args) e)%Q.
Proof.
  intros dbg fuel t args e S Hs F T D M.
  assert (exists r, reval dbg fuel t args e = Ok r /\ rat_ok t r /\ (rat_val r == rvalue (map rat_val args) e)%Q /\
    Z.abs (num r) <= fst (rbound args e) /\ Z.abs (denom r) <= snd (rbound args e)) as (r & K); [|exists r; tauto].
  assert (forall n d q, d <> 0 -> Z.abs n <= imax t -> Z.abs d <= imax t -> (frac n d == q)%Q ->
    exists r, rat_new_unwrap fuel t n d = Ok r /\ rat_ok t r /\ (rat_val r == q)%Q /\ Z.abs (num r) <= Z.abs n /\ Z.abs (denom r) <= Z.abs d) as N.
  { intros n d q Nd An Ad Q. destruct (fits_abs t n Hs An), (fits_abs t d Hs Ad).
    destruct (new_gives fuel t n d q) as (r & E & O & V); auto. exists r. destruct (new_small _ _ _ _ _ E). auto. }
  assert (forall v, Z.abs v <= imax t -> arith dbg t v = Ok v) as A.
  { intros v H. apply arith_in. apply fits_abs; auto. }
  revert T D M. induction e as [i|n d|e IHe f IHf|e IHe f IHf|e IHe f IHf|e IHe f IHf|e IHe]; cbn [rtyped rdefined rvalue reval].
  - intros _ _ _. eexists. split; [reflexivity|]. split; [eapply nth_ok; eauto|]. cbn [rbound fst snd]. split; [symmetry; apply nth_map_val|lia].
  - intros [Fn Fd] D M. apply rsmall_top in M. cbn [rbound fst snd] in *. apply N; try tauto. reflexivity.
  - intros [Te Tf] [De Df] M. pose proof (rsmall_top _ _ _ M) as [M1 M2]. cbn [rsmall] in M. destruct M as (_ & _ & Me & Mf).
    destruct (IHe Te De Me) as (a & -> & (A1 & A2 & A3) & Va & Na & Da), (IHf Tf Df Mf) as (b & -> & (B1 & B2 & B3) & Vb & Nb & Db). cbn [bind]. cbn [rbound] in *.
    destruct (rbound args e) as [a1 a2], (rbound args f) as [b1 b2]. cbn [fst snd] in *. unfold rat_add.
    assert (Z.abs (num a * denom b) <= a1 * b2 /\ Z.abs (num b * denom a) <= b1 * a2 /\ Z.abs (denom a * denom b) <= a2 * b2) as (P1 & P2 & P3).
    { rewrite !Z.abs_mul. repeat split; apply Z.mul_le_mono_nonneg; lia. }
    rewrite (A (num a * denom b)), (A (num b * denom a)) by lia. cbn [bind]. rewrite A by lia. cbn [bind]. rewrite A by lia. cbn [bind].
    destruct (N (num a * denom b + num b * denom a) (denom a * denom b) (rvalue (map rat_val args) e + rvalue (map rat_val args) f)%Q) as (r & E & O & V & X & Y);
      [apply Z.neq_mul_0; auto|lia|lia| |exists r; repeat split; auto; try apply O; lia].
    rewrite <- Va, <- Vb. unfold rat_val, frac. rewrite inject_Z_plus, !inject_Z_mult. field. split; apply inj_nz; auto.
  - intros [Te Tf] [De Df] M. pose proof (rsmall_top _ _ _ M) as [M1 M2]. cbn [rsmall] in M. destruct M as (_ & _ & Me & Mf).
    destruct (IHe Te De Me) as (a & -> & (A1 & A2 & A3) & Va & Na & Da), (IHf Tf Df Mf) as (b & -> & (B1 & B2 & B3) & Vb & Nb & Db). cbn [bind]. cbn [rbound] in *.
    destruct (rbound args e) as [a1 a2], (rbound args f) as [b1 b2]. cbn [fst snd] in *. unfold rat_sub.
    assert (Z.abs (num a * denom b) <= a1 * b2 /\ Z.abs (num b * denom a) <= b1 * a2 /\ Z.abs (denom a * denom b) <= a2 * b2) as (P1 & P2 & P3).
    { rewrite !Z.abs_mul. repeat split; apply Z.mul_le_mono_nonneg; lia. }
    rewrite (A (num a * denom b)), (A (num b * denom a)) by lia. cbn [bind]. rewrite A by lia. cbn [bind]. rewrite A by lia. cbn [bind].
    destruct (N (num a * denom b - num b * denom a) (denom a * denom b) (rvalue (map rat_val args) e - rvalue (map rat_val args) f)%Q) as (r & E & O & V & X & Y);
      [apply Z.neq_mul_0; auto|lia|lia| |exists r; repeat split; auto; try apply O; lia].
    rewrite <- Va, <- Vb. unfold rat_val, frac, Z.sub. rewrite inject_Z_plus, inject_Z_opp, !inject_Z_mult. field. split; apply inj_nz; auto.
  - intros [Te Tf] [De Df] M. pose proof (rsmall_top _ _ _ M) as [M1 M2]. cbn [rsmall] in M. destruct M as (_ & _ & Me & Mf).
    destruct (IHe Te De Me) as (a & -> & (A1 & A2 & A3) & Va & Na & Da), (IHf Tf Df Mf) as (b & -> & (B1 & B2 & B3) & Vb & Nb & Db). cbn [bind]. cbn [rbound] in *.
    destruct (rbound args e) as [a1 a2], (rbound args f) as [b1 b2]. cbn [fst snd] in *. unfold rat_mul.
    assert (Z.abs (num a * num b) <= a1 * b1 /\ Z.abs (denom a * denom b) <= a2 * b2) as (P1 & P3).
    { rewrite !Z.abs_mul. repeat split; apply Z.mul_le_mono_nonneg; lia. }
    rewrite (A (num a * num b)) by lia. cbn [bind]. rewrite A by lia. cbn [bind].
    destruct (N (num a * num b) (denom a * denom b) (rvalue (map rat_val args) e * rvalue (map rat_val args) f)%Q) as (r & E & O & V & X & Y);
      [apply Z.neq_mul_0; auto|lia|lia| |exists r; repeat split; auto; try apply O; lia].
    rewrite <- Va, <- Vb. unfold rat_val, frac. rewrite !inject_Z_mult. field. split; apply inj_nz; auto.
  - intros [Te Tf] (De & Df & Dn) M. pose proof (rsmall_top _ _ _ M) as [M1 M2]. cbn [rsmall] in M. destruct M as (_ & _ & Me & Mf).
    destruct (IHe Te De Me) as (a & -> & (A1 & A2 & A3) & Va & Na & Da), (IHf Tf Df Mf) as (b & -> & (B1 & B2 & B3) & Vb & Nb & Db). cbn [bind]. cbn [rbound] in *.
    destruct (rbound args e) as [a1 a2], (rbound args f) as [b1 b2]. cbn [fst snd] in *. unfold rat_div.
    assert (num b <> 0) as Nz. { intros Z. apply Dn. rewrite <- Vb. unfold rat_val. rewrite Z. reflexivity. }
    assert (Z.abs (num a * denom b) <= a1 * b2 /\ Z.abs (denom a * num b) <= a2 * b1) as (P1 & P3).
    { rewrite !Z.abs_mul. repeat split; apply Z.mul_le_mono_nonneg; lia. }
    rewrite (A (num a * denom b)) by lia. cbn [bind]. rewrite A by lia. cbn [bind].
    destruct (N (num a * denom b) (denom a * num b) (rvalue (map rat_val args) e / rvalue (map rat_val args) f)%Q) as (r & E & O & V & X & Y);
      [apply Z.neq_mul_0; auto|lia|lia| |exists r; repeat split; auto; try apply O; lia].
    rewrite <- Va, <- Vb. unfold rat_val, frac. rewrite !inject_Z_mult. field. repeat split; apply inj_nz; auto.
  - intros Te De M. cbn [rsmall] in M. destruct M as (M1 & M2 & Me).
    destruct (IHe Te De Me) as (a & -> & (A1 & A2 & A3) & Va & Na & Da). cbn [bind rbound] in *. unfold rat_neg. rewrite A by lia. cbn [bind].
    eexists. split; [reflexivity|]. unfold rat_ok, rat_val. cbn [num denom]. split; [split; [apply fits_abs; auto; lia|auto]|].
    split; [|lia]. rewrite <- Va. unfold rat_val, frac. rewrite inject_Z_opp. field. apply inj_nz; auto.
Qed.
Print Assumptions C155_complete.

(** (1/2 + x) / (2/3 - y) with x = 1/3 and y = 1/4, over [i8]. *)
Definition demo_expr : rexpr := RDiv (RAdd (RNew 1 2) (RArg 0)) (RSub (RNew 2 3) (RNeg (RArg 1))).
Example C155_demo : setting i8 1000 /\ Forall (rat_ok i8) [mkRat 1 3; mkRat 1 4] /\ rtyped i8 demo_expr /\
  rdefined [frac 1 3; frac 1 4] demo_expr /\ rsmall 127 [mkRat 1 3; mkRat 1 4] demo_expr /\
  reval true 1000 i8 [mkRat 1 3; mkRat 1 4] demo_expr = Ok (mkRat 10 11) /\
  reval true 1000 i8 [mkRat 1 3] (RDiv (RArg 0) (RSub (RArg 0) (RArg 0))) = Panic /\
  reval true 1000 i8 [mkRat 1 3] (RMul (RNew 100 1) (RNew 2 1)) = Panic /\
  reval false 1000 i8 [mkRat 1 3] (RMul (RNew 100 1) (RNew 2 1)) = Ok (mkRat (-56) 1).
Proof.
  assert (rat_ok i8 (mkRat 1 3) /\ rat_ok i8 (mkRat 1 4)) by (unfold rat_ok, fits; repeat split; vm_compute; discriminate).
  split; [|split; [apply Forall_cons; [tauto|]; apply Forall_cons; [tauto|constructor]|]].
  all: unfold setting. all: cbn [rtyped rdefined rsmall demo_expr]. all: unfold fits. all: cbn [ibits].
  all: repeat split; try (vm_compute; (reflexivity || discriminate || lia)); try tauto.
Qed.
