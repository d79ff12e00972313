(** Property C167: arithmetic expressions over fixed-point numbers. *)
From Coq Require Import ZArith QArith Qround Qabs Qminmax List Bool Lia.
From Verif Require Import Base Words BitSliceModel PrimModel PrimProofs FixedModel RealSpec RealProofs RatProofs CompoundIntSpec PropReals PropReals2
  PropCompoundInt PropFixedCompound FixedExprModel.
Import ListNotations.
Local Open Scope Z_scope.

(** ** Specification *)

(** The number an expression stands for. *)
Fixpoint number (N : nat) (args : list Z) (e : fexpr) : Q :=
  match e with
  | FArg i => fixed_val N (nth i args 0%Z)
  | FOne => 1
  | FAdd e f => number N args e + number N args f
  | FSub e f => number N args e - number N args f
  | FNeg e => - number N args e
  | FAbs e => Qabs (number N args e)
  | FFloor e => inject_Z (Qfloor (number N args e))
  | FCeil e => inject_Z (Qceiling (number N args e))
  | FTrunc e => inject_Z (toward_zero (number N args e))
  | FFract e => number N args e - inject_Z (toward_zero (number N args e))
  | FMin e f => Qmin (number N args e) (number N args f)
  | FMax e f => Qmax (number N args e) (number N args f)
  end%Q.

(** The numbers of the type. *)
Definition representable (t : ity) (N : nat) (q : Q) : Prop := exists r, fits t r /\ (fixed_val N r == q)%Q.

(** Every subexpression satisfies [P]. *)
Fixpoint everywhere (P : fexpr -> Prop) (e : fexpr) : Prop :=
  P e /\
  match e with
  | FArg _ | FOne => True
  | FAdd e f | FSub e f | FMin e f | FMax e f => everywhere P e /\ everywhere P f
  | FNeg e | FAbs e | FFloor e | FCeil e | FTrunc e | FFract e => everywhere P e
  end.

(** Only sums, differences and negations (of arguments and ones). *)
Fixpoint linear (e : fexpr) : bool :=
  match e with
  | FArg _ | FOne => true
  | FAdd e f | FSub e f => linear e && linear f
  | FNeg e => linear e
  | _ => false
  end.

(** ** Proofs *)

Lemma exact_q dbg t N p q r : (p == q)%Q -> exact dbg t N p r -> exact dbg t N q r.
Proof.
  intros E [H1 H2]. split.
  - intros v F V. apply H1; auto. rewrite E. auto.
  - intros H D. apply H2; auto. intros v F V. apply (H v); auto. rewrite <- E. auto.
Qed.

Lemma exact_ok dbg t N q r v : fits t v -> (fixed_val N v == q)%Q -> r = Ok v -> exact dbg t N q r.
Proof.
  intros F V ->. split.
  - intros u Fu Vu. f_equal. apply (fixed_val_eq N). rewrite V, Vu. reflexivity.
  - intros H. destruct (H v F V).
Qed.

Lemma one_of_two t N q v : (fixed_val N v == q)%Q -> representable t N q <-> fits t v.
Proof.
  intros V. split; [intros (r & F & R)|intros F; exists v; auto].
  assert (r = v) as -> by (apply (fixed_val_eq N); rewrite R, V; reflexivity). auto.
Qed.

(** What an evaluation that stands for [q] does, in one build. *)
Definition settled (dbg : bool) (t : ity) (N : nat) (q : Q) (r : res Z) : Prop :=
  (representable t N q -> exists v, r = Ok v /\ fits t v /\ (fixed_val N v == q)%Q) /\
  (~ representable t N q -> dbg = true -> r = Panic).

Lemma exact_settled dbg t N q r : exact dbg t N q r -> settled dbg t N q r.
Proof.
  intros [H1 H2]. split.
  - intros (v & F & V). exists v. split; [apply H1|]; auto.
  - intros H D. apply H2; auto. intros v F V. apply H. exists v. auto.
Qed.

Section Eval.
Variables (dbg : bool) (t : ity) (N : nat) (args : list Z).
Hypothesis (Hb : (0 < ibits t)%nat) (H1 : one_fits t N) (Hargs : Forall (fits t) args).
Notation num := (number N args).

Lemma zero_fits : fits t 0.
Proof. pose proof (imin_le0 t Hb) as H. unfold one_fits, fits in *. pose proof (two_pow_pos N). lia. Qed.

Lemma arg_fits i : fits t (nth i args 0).
Proof.
  destruct (Nat.lt_ge_cases i (length args)) as [L|L].
  - rewrite Forall_forall in Hargs. apply Hargs, nth_In. auto.
  - rewrite nth_overflow by auto. apply zero_fits.
Qed.

Lemma grid : forall e, exists v, (fixed_val N v == num e)%Q.
Proof.
  assert (forall k, exists v, (fixed_val N v == inject_Z k)%Q) as W by (intros k; exists (k * 2 ^ Z.of_nat N); apply val_mul).
  induction e as [i| |e [a A] f [b B]|e [a A] f [b B]|e [a A]|e [a A]|e [a A]|e [a A]|e [a A]|e [a A]|e [a A] f [b B]|e [a A] f [b B]];
    cbn [number].
  - exists (nth i args 0). reflexivity.
  - exists (2 ^ Z.of_nat N). apply fixed_val_1.
  - exists (a + b). rewrite fv_plus, A, B. reflexivity.
  - exists (a - b). rewrite fv_minus, A, B. reflexivity.
  - exists (0 - a). rewrite fv_minus, fv_zero, A. ring.
  - apply Qabs_case; intros _; [exists a; auto|]. exists (0 - a). rewrite fv_minus, fv_zero, A. ring.
  - apply W.
  - apply W.
  - apply W.
  - destruct (W (toward_zero (num e))) as [w V]. exists (a - w). rewrite fv_minus, A, V. reflexivity.
  - destruct (Q.min_dec (num e) (num f)) as [E|E]; [exists a|exists b]; symmetry; [rewrite A|rewrite B]; exact E.
  - destruct (Q.max_dec (num e) (num f)) as [E|E]; [exists a|exists b]; symmetry; [rewrite A|rewrite B]; exact E.
Qed.


Lemma representable_dec e : representable t N (num e) \/ ~ representable t N (num e).
Proof.
  destruct (grid e) as [v V]. destruct (fits_dec t v) as [F|F].
  - left. apply (one_of_two t N _ v V). auto.
  - right. rewrite (one_of_two t N _ v V). auto.
Qed.

(** The comparison of raw values is that of the numbers. *)
Lemma min_right a b : (fixed_val N (fx_min a b) == Qmin (fixed_val N a) (fixed_val N b))%Q.
Proof.
  unfold fx_min, fx_cmp. destruct (Z.compare_spec b a) as [H|H|H].
  - subst. rewrite Q.min_id. reflexivity.
  - symmetry. apply Q.min_r, fixed_val_le. lia.
  - symmetry. apply Q.min_l, fixed_val_le. lia.
Qed.
Lemma max_right a b : (fixed_val N (fx_max a b) == Qmax (fixed_val N a) (fixed_val N b))%Q.
Proof.
  unfold fx_max, fx_cmp. destruct (Z.compare_spec b a) as [H|H|H].
  - subst. rewrite Q.max_id. reflexivity.
  - symmetry. apply Q.max_l, fixed_val_le. lia.
  - symmetry. apply Q.max_r, fixed_val_le. lia.
Qed.

(** The root of an expression whose operands were evaluated. *)
Lemma root_ok : forall e,
  match e with
  | FArg _ | FOne => settled dbg t N (num e) (feval dbg t N args e)
  | FAdd f g | FSub f g | FMin f g | FMax f g => forall a b, feval dbg t N args f = Ok a -> feval dbg t N args g = Ok b -> fits t a -> fits t b ->
      (fixed_val N a == num f)%Q -> (fixed_val N b == num g)%Q -> settled dbg t N (num e) (feval dbg t N args e)
  | FNeg f | FAbs f | FFloor f | FCeil f | FTrunc f | FFract f => forall a, feval dbg t N args f = Ok a -> fits t a ->
      (fixed_val N a == num f)%Q -> settled dbg t N (num e) (feval dbg t N args e)
  end.
Proof.
  intros [i| |e f|e f|e|e|e|e|e|e|e f|e f]; cbn [number feval].
  - apply exact_settled, (exact_ok _ _ _ _ _ (nth i args 0)); [apply arg_fits|reflexivity|reflexivity].
  - apply exact_settled. destruct (C108_one_partial dbg t N 0 Hb H1) as [(o & E & F & V) _]. apply (exact_ok _ _ _ _ _ o); auto.
  - intros a b -> -> Fa Fb Va Vb. cbn [bind]. apply exact_settled, (exact_q _ _ _ (fixed_val N a + fixed_val N b)); [rewrite Va, Vb; reflexivity|].
    apply C75_add_sub_neg.
  - intros a b -> -> Fa Fb Va Vb. cbn [bind]. apply exact_settled, (exact_q _ _ _ (fixed_val N a - fixed_val N b)); [rewrite Va, Vb; reflexivity|].
    apply C75_add_sub_neg.
  - intros a -> Fa Va. cbn [bind]. apply exact_settled, (exact_q _ _ _ (- fixed_val N a)); [rewrite Va; reflexivity|].
    apply (C75_add_sub_neg dbg t N a a).
  - intros a -> Fa Va. cbn [bind]. apply exact_settled, (exact_q _ _ _ (Qabs (fixed_val N a))); [rewrite Va; reflexivity|].
    apply C108_sign_partial.
  - intros a -> Fa Va. cbn [bind]. apply exact_settled. destruct (C77_floor dbg t N a Hb H1 Fa) as (r & E & F & V).
    apply (exact_ok _ _ _ _ _ r); auto. rewrite V, Va. reflexivity.
  - intros a -> Fa Va. cbn [bind]. apply exact_settled, (exact_q _ _ _ (inject_Z (Qceiling (fixed_val N a)))); [rewrite Va; reflexivity|].
    apply C77_ceil; auto.
  - intros a -> Fa Va. cbn [bind]. apply exact_settled. destruct (C77_trunc_fract dbg t N a Hb H1 Fa) as (r & f & E & _ & F & _ & V & _).
    apply (exact_ok _ _ _ _ _ r); auto. rewrite V, (toward_zero_proper _ _ Va). reflexivity.
  - intros a -> Fa Va. cbn [bind]. apply exact_settled. destruct (C77_trunc_fract dbg t N a Hb H1 Fa) as (w & r & _ & E & _ & F & V & S & _).
    apply (exact_ok _ _ _ _ _ r); auto. rewrite <- (toward_zero_proper _ _ Va), <- V, <- Va, S. ring.
  - intros a b -> -> Fa Fb Va Vb. cbn [bind]. apply exact_settled, (exact_ok _ _ _ _ _ (fx_min a b)); auto.
    + unfold fx_min. destruct (fx_cmp b a); auto.
    + rewrite min_right, Va, Vb. reflexivity.
  - intros a b -> -> Fa Fb Va Vb. cbn [bind]. apply exact_settled, (exact_ok _ _ _ _ _ (fx_max a b)); auto.
    + unfold fx_max. destruct (fx_cmp b a); auto.
    + rewrite max_right, Va, Vb. reflexivity.
Qed.

Lemma eval_exact : forall e, everywhere (fun s => representable t N (num s)) e ->
  exists r, feval dbg t N args e = Ok r /\ fits t r /\ (fixed_val N r == num e)%Q.
Proof.
  induction e as [i| |e IHe f IHf|e IHe f IHf|e IH|e IH|e IH|e IH|e IH|e IH|e IHe f IHf|e IHe f IHf]; cbn [everywhere]; intros H;
    match goal with |- exists r, feval _ _ _ _ ?x = _ /\ _ => pose proof (root_ok x) as R; cbn beta iota in R end;
    try (destruct H as (P & He & Hf); destruct (IHe He) as (a & Ea & Fa & Va), (IHf Hf) as (b & Eb & Fb & Vb);
         apply (R a b Ea Eb Fa Fb Va Vb); auto);
    try (destruct H as (P & H); destruct (IH H) as (a & Ea & Fa & Va); apply (R a Ea Fa Va); auto);
    destruct H as [P _]; apply R; auto.
Qed.

Lemma everywhere_dec : forall e, everywhere (fun s => representable t N (num s)) e \/ ~ everywhere (fun s => representable t N (num s)) e.
Proof.
  induction e; cbn [everywhere];
    match goal with |- (representable _ _ ?q /\ _) \/ _ => match q with number _ _ ?x => destruct (representable_dec x) end end; tauto.
Qed.
End Eval.

Section Checked.
Variables (t : ity) (N : nat) (args : list Z).
Hypothesis (Hb : (0 < ibits t)%nat) (H1 : one_fits t N) (Hargs : Forall (fits t) args).
Notation num := (number N args).
Notation fine := (everywhere (fun s => representable t N (num s))).

Lemma eval_panics : forall e, ~ fine e -> feval true t N args e = Panic.
Proof.
  induction e as [i| |e IHe f IHf|e IHe f IHf|e IH|e IH|e IH|e IH|e IH|e IH|e IHe f IHf|e IHe f IHf]; intros H;
    match type of H with ~ fine ?x => pose proof (root_ok true t N args Hb H1 Hargs x) as R; cbn beta iota in R end;
    try (destruct (everywhere_dec t N args e) as [De|De]; [|cbn [feval]; rewrite (IHe De); reflexivity];
         destruct (eval_exact true t N args Hb H1 Hargs e De) as (a & Ea & Fa & Va);
         destruct (everywhere_dec t N args f) as [Df|Df]; [|cbn [feval]; rewrite Ea; cbn [bind]; rewrite (IHf Df); reflexivity];
         destruct (eval_exact true t N args Hb H1 Hargs f Df) as (b & Eb & Fb & Vb);
         apply (R a b Ea Eb Fa Fb Va Vb); auto; intros Q; apply H; cbn [everywhere]; auto);
    try (destruct (everywhere_dec t N args e) as [De|De]; [|cbn [feval]; rewrite (IH De); reflexivity];
         destruct (eval_exact true t N args Hb H1 Hargs e De) as (a & Ea & Fa & Va);
         apply (R a Ea Fa Va); auto; intros Q; apply H; cbn [everywhere]; auto);
    apply R; auto; intros Q; apply H; cbn [everywhere]; auto.
Qed.

Lemma eval_linear : forall e, linear e = true -> exists r, feval false t N args e = Ok r /\ fits t r /\
  exists k, (fixed_val N (r + k * 2 ^ Z.of_nat (ibits t)) == num e)%Q.
Proof.
  pose proof (two_pow_pos (ibits t)) as Hp.
  assert (forall v, exists r k, arith false t v = Ok r /\ fits t r /\ r + k * 2 ^ Z.of_nat (ibits t) = v) as Rel.
  { intros v. destruct (released t v Hb) as (x & E & [F M] & _). exists x, ((v - x) / 2 ^ Z.of_nat (ibits t)).
    split; [destruct (arith false t v); cbn in E; congruence|]. split; auto.
    assert ((v - x) mod 2 ^ Z.of_nat (ibits t) = 0) as Z0.
    { replace (v - x) with (- (x - v)) by ring. rewrite Z.mod_opp_l_z; auto; lia. }
    pose proof (Z.div_mod (v - x) (2 ^ Z.of_nat (ibits t)) ltac:(lia)). nia. }
  induction e as [i| |e IHe f IHf|e IHe f IHf|e IH|e IH|e IH|e IH|e IH|e IH|e IHe f IHf|e IHe f IHf]; cbn [linear]; intros L; try discriminate.
  - exists (nth i args 0). split; [reflexivity|]. split; [apply arg_fits; auto|]. exists 0. rewrite Z.add_0_r. reflexivity.
  - destruct (C108_one_partial false t N 0 Hb H1) as [(o & E & F & V) _]. exists o. split; auto. split; auto. exists 0. rewrite Z.add_0_r. auto.
  - apply andb_prop in L. destruct L as [L1 L2], (IHe L1) as (a & Ea & Fa & ka & Va), (IHf L2) as (b & Eb & Fb & kb & Vb).
    cbn [feval number]. rewrite Ea, Eb. cbn [bind]. destruct (Rel (a + b)) as (r & k & E & F & K). exists r. split; auto. split; auto.
    exists (k + ka + kb). rewrite <- Va, <- Vb, <- fv_plus. apply fixed_val_eq. nia.
  - apply andb_prop in L. destruct L as [L1 L2], (IHe L1) as (a & Ea & Fa & ka & Va), (IHf L2) as (b & Eb & Fb & kb & Vb).
    cbn [feval number]. rewrite Ea, Eb. cbn [bind]. destruct (Rel (a - b)) as (r & k & E & F & K). exists r. split; auto. split; auto.
    exists (k + ka - kb). rewrite <- Va, <- Vb, <- fv_minus. apply fixed_val_eq. nia.
  - destruct (IH L) as (a & Ea & Fa & ka & Va). cbn [feval number]. rewrite Ea. cbn [bind].
    destruct (Rel (- a)) as (r & k & E & F & K). exists r. split; auto. split; auto.
    exists (k - ka). rewrite <- Va. setoid_replace (- fixed_val N (a + ka * 2 ^ Z.of_nat (ibits t)))%Q
      with (fixed_val N (0 - (a + ka * 2 ^ Z.of_nat (ibits t)))) by (rewrite fv_minus, fv_zero; ring). apply fixed_val_eq. nia.
Qed.
End Checked.

(** ** C167 *)

(** In every build: if the numbers of all subexpressions are representable, evaluation returns the number of the expression. *)
Theorem C167_exact : forall dbg t N args e, (0 < ibits t)%nat -> one_fits t N -> Forall (fits t) args ->
  everywhere (fun s => representable t N (number N args s)) e ->
  exists r, feval dbg t N args e = Ok r /\ fits t r /\ (fixed_val N r == number N args e)%Q.
Proof. intros. apply eval_exact; auto. Qed.
Print Assumptions C167_exact.

(** With overflow checks: it returns in exactly that case, and otherwise panics. *)
Theorem C167_checked : forall t N args e, (0 < ibits t)%nat -> one_fits t N -> Forall (fits t) args ->
  ((exists r, feval true t N args e = Ok r) <-> everywhere (fun s => representable t N (number N args s)) e) /\
  (~ everywhere (fun s => representable t N (number N args s)) e -> feval true t N args e = Panic).
Proof.
  intros t N args e Hb H1 Ha. split; [split|apply eval_panics; auto].
  - intros [r E]. destruct (everywhere_dec t N args e) as [D|D]; auto. rewrite (eval_panics t N args Hb H1 Ha e D) in E. discriminate.
  - intros H. destruct (eval_exact true t N args Hb H1 Ha e H) as (r & E & _). eauto.
Qed.
Print Assumptions C167_checked.

(** Without them sums, differences and negations are right as soon as the final number is representable, whatever the intermediate
    ones are; and off by a multiple of the width of the type otherwise. *)
Theorem C167_wraps : forall t N args e, (0 < ibits t)%nat -> one_fits t N -> Forall (fits t) args -> linear e = true ->
  exists r, feval false t N args e = Ok r /\ fits t r /\
    (representable t N (number N args e) -> (fixed_val N r == number N args e)%Q) /\
    exists k, (fixed_val N r + inject_Z k * fixed_val N (2 ^ Z.of_nat (ibits t)) == number N args e)%Q.
Proof.
  intros t N args e Hb H1 Ha L. destruct (eval_linear t N args Hb H1 Ha e L) as (r & E & F & k & V). exists r. split; auto. split; auto. split.
  - intros R. apply (one_of_two t N _ _ V) in R. enough (k = 0) as -> by (rewrite Z.add_0_r in V; auto).
    unfold fits in *. pose proof (two_pow_pos (ibits t)).
    assert (imax t - imin t < 2 ^ Z.of_nat (ibits t)).
    { unfold imin, imax. destruct (isigned t); [|lia]. pose proof (pow_half _ Hb) as [EH _]. lia. }
    nia.
  - exists k. rewrite <- V, fv_plus. unfold fixed_val. rewrite inject_Z_mult. field. apply pow_pos_Q.
Qed.
Print Assumptions C167_wraps.

(** Comparing two evaluated expressions compares their numbers. *)
Theorem C167_order : forall dbg t N args e f, (0 < ibits t)%nat -> one_fits t N -> Forall (fits t) args ->
  everywhere (fun s => representable t N (number N args s)) e -> everywhere (fun s => representable t N (number N args s)) f ->
  exists a b, feval dbg t N args e = Ok a /\ feval dbg t N args f = Ok b /\
    fx_cmp a b = (number N args e ?= number N args f)%Q /\ (fx_eq a b = true <-> (number N args e == number N args f)%Q).
Proof.
  intros dbg t N args e f Hb H1 Ha He Hf. destruct (eval_exact dbg t N args Hb H1 Ha e He) as (a & Ea & Fa & Va),
    (eval_exact dbg t N args Hb H1 Ha f Hf) as (b & Eb & Fb & Vb). exists a, b. split; auto. split; auto.
  destruct (C75_order N a b) as [C Q]. rewrite C, Q, Va, Vb. split; reflexivity.
Qed.
Print Assumptions C167_order.

(** [i8] with four fraction bits: floor(x + 1) - |y| + fract(min(x, y)) with x = 5.5, y = -2.25, and 5.5 + 5.5 - 5.5. *)
Example C167_demo : let i8 := {| ibits := 8; isigned := true |} in
  let x := FArg 0 in let y := FArg 1 in let e := FAdd (FSub (FFloor (FAdd x FOne)) (FAbs y)) (FFract (FMin x y)) in
  let args := [88; -36] in
  one_fits i8 4 /\ Forall (fits i8) args /\ everywhere (fun s => representable i8 4 (number 4 args s)) e /\
  feval true i8 4 args e = Ok 56 /\ (number 4 args e == 7 # 2)%Q /\
  feval true i8 4 args (FSub (FAdd x x) x) = Panic /\ feval false i8 4 args (FSub (FAdd x x) x) = Ok 88 /\ linear (FSub (FAdd x x) x) = true.
Proof.
  cbv zeta. split; [vm_compute; split; congruence|]. split; [repeat constructor; vm_compute; congruence|]. split.
  - cbn [everywhere].
    assert (forall q r, imin {| ibits := 8; isigned := true |} <= r <= imax {| ibits := 8; isigned := true |} -> (fixed_val 4 r == q)%Q ->
      representable {| ibits := 8; isigned := true |} 4 q) as K by (intros q r F V; exists r; auto).
    repeat match goal with |- _ /\ _ => split | |- True => exact I end;
      [apply (K _ 56)|apply (K _ 60)|apply (K _ 96)|apply (K _ 104)|apply (K _ 88)|apply (K _ 16)|apply (K _ 36)|apply (K _ (-36))|apply (K _ (-4))
      |apply (K _ (-36))|apply (K _ 88)|apply (K _ (-36))]; try reflexivity; vm_compute; split; congruence.
  - repeat split; reflexivity.
Qed.
