(** C189: algebraic laws of matrices, cross products and complex numbers over the primitive integers, overflow included. *)
From Coq Require Import ZArith Zdiv List Bool Lia Setoid Morphisms.
From Verif Require Import Base Words Spec Arith BitSliceModel PrimModel PrimProofs
  StaticIterModel StaticIterSpec StaticIterProofs CompoundsSpec CompoundIntSpec
  VectorModel VectorProofs MatrixModel MatrixProofs CompoundIntModel CompoundRows PropUCompound PropUCompoundLaws.
Import ListNotations.
Local Open Scope Z_scope.

(** Both sides return the same; or, with overflow checks only, one of them panics. *)
Definition same {A} (dbg : bool) (r r' : out A) : Prop :=
  (exists x, r = Ret x /\ r' = Ret x) \/ dbg = true /\ (r = Pan \/ r' = Pan).
Notation fits := CompoundIntSpec.fits.
(** A matrix of [row] rows and [col] columns of numbers of the type. *)
Definition int_matrix (t : ity) (row col : nat) (m : list (list Z)) : Prop := shape row col m /\ Forall (Forall (fits t)) m.
(** The type has at least one bit, and 1 is one of its numbers. *)
Definition sized (t : ity) : Prop := (0 < ibits t)%nat /\ fits t 1.
(** The sum of two vectors of three components.  crates/compounds/src/vector.rs:302-362. *)
Definition sum3 (dbg : bool) (t : ity) (u v : Z * Z * Z) : out (Z * Z * Z) :=
  let '(a, b, c) := u in let '(x, y, z) := v in
  obind (int_add dbg t a x) (fun p => obind (int_add dbg t b y) (fun q => obind (int_add dbg t c z) (fun r => Ret (p, q, r)))).
Definition three_of (t : ity) (u : Z * Z * Z) : Prop := let '(a, b, c) := u in fits t a /\ fits t b /\ fits t c.

Section Laws.
Context (dbg : bool) (t : ity) (Hn : sized t).
Notation "a == b" := (congruent (2 ^ Z.of_nat (ibits t)) a b) (at level 70).
Definition num (v : Z) : Z := v.
Definition holds (z v : Z) : Prop := fits t v /\ num v == z.
Definition yields (z : Z) (r : out Z) : Prop := dbg = true /\ r = Pan \/ exists v, r = Ret v /\ fits t v /\ num v == z.

Lemma arith_yields v : yields v (of_res (arith dbg t v)).
Proof.
  unfold yields, arith. destruct (BitSliceModel.in_range t v) eqn:E.
  - right. exists v. apply in_range_iff in E. split; [reflexivity|]. split; [exact E|reflexivity].
  - destruct dbg; [left; auto|right; cbn [of_res]]. exists (wrap t v). split; [reflexivity|]. split; [apply wrap_range; apply Hn|].
    pose proof (wrap_mod t v (proj1 Hn)) as M. pose proof (two_pow_pos (ibits t)) as P. unfold num.
    exists (wrap t v / 2 ^ Z.of_nat (ibits t) - v / 2 ^ Z.of_nat (ibits t)).
    pose proof (Z.div_mod (wrap t v) (2 ^ Z.of_nat (ibits t)) ltac:(lia)) as E1. pose proof (Z.div_mod v (2 ^ Z.of_nat (ibits t)) ltac:(lia)) as E2.
    rewrite Z.mul_sub_distr_l. lia.
Qed.
Lemma add_yields x y : yields (x + y) (int_add dbg t x y). Proof. apply arith_yields. Qed.
Lemma sub_yields x y : yields (x - y) (int_sub dbg t x y). Proof. apply arith_yields. Qed.
Lemma mul_yields x y : yields (x * y) (int_mul dbg t x y). Proof. apply arith_yields. Qed.

Lemma zip_fold_yields : forall a b s z, fits t s -> num s == z -> yields (z + zdot (map num a) (map num b)) (zip_fold (int_add dbg t) (int_mul dbg t) a b s).
Proof.
  induction a as [|x a IH]; intros b s z Os V.
  - cbn. right. exists s. rewrite Z.add_0_r. auto.
  - destruct b as [|y b]; [cbn; right; exists s; rewrite Z.add_0_r; auto|]. cbn [zip_fold map zdot].
    destruct (mul_yields x y) as [[HP ->]|(p & -> & Op & Vp)]; [left; auto|]. cbn [obind].
    destruct (add_yields s p) as [[HP ->]|(q & -> & Oq & Vq)]; [left; auto|]. cbn [obind].
    rewrite Z.add_assoc. apply (IH b q); auto. unfold num in *. rewrite Vq, Vp, V. reflexivity.
Qed.
Lemma D_matrix_product row col col2 a b : (0 < col)%nat -> shape row col a -> shape col col2 b ->
  Forall (Forall (fits t)) a -> Forall (Forall (fits t)) b ->
  dbg = true /\ mati_mul dbg t row col col2 a b = Pan \/
  exists p, mati_mul dbg t row col col2 a b = Ret p /\ shape row col2 p /\
    forall i j v, entry p i j = Some v -> holds (zdot (map num (row_of a i)) (map num (column_of 0 b j))) v.
Proof.
  intros Hc Sa Sb _ _. apply (matf_cases (dbg = true) 0); auto.
  intros i j Hi Hj Lr Lc. destruct (row_of a i) as [|x r]; [cbn in Lr; lia|]. destruct (column_of 0 b j) as [|y c]; [cbn in Lc; lia|]. cbn [nth skipn map zdot].
  destruct (mul_yields x y) as [[HP ->]|(v & -> & Ov & Vv)]; auto. cbn [obind]. apply zip_fold_yields; auto.
Qed.
Definition int_ops : list ((Z -> Z -> out Z) * (Z -> Z -> Z)) := [(int_add dbg t, Z.add); (int_sub dbg t, Z.sub)].
Lemma D_matrix_elementwise op zop row col a b : In (op, zop) int_ops ->
  shape row col a -> shape row col b -> Forall (Forall (fits t)) a -> Forall (Forall (fits t)) b ->
  dbg = true /\ mat_op op row col a b = Pan \/
  exists c, mat_op op row col a b = Ret c /\ Forall3 (Forall3 (fun x y z => holds (zop (num x) (num y)) z)) a b c.
Proof.
  intros I [La Sa] [Lb Sb] _ _.
  assert (forall x y, dbg = true /\ op x y = Pan \/ exists z, op x y = Ret z /\ holds (zop (num x) (num y)) z) as X.
  { intros x y. destruct I as [[= <- <-]|[[= <- <-]|[]]]; [apply add_yields|apply sub_yields]. }
  change (mat_op op row col a b) with (vec_op (vec_op op col) row a b).
  destruct (vec_op_cases (dbg = true) (vec_op op col) (fun r => length r = col) (fun r => length r = col)
    (Forall3 (fun x y z => holds (zop (num x) (num y)) z))) with (n := row) (a := a) (b := b)
    as [[HP [H _]]|(c & H & _ & G)]; auto; [|right; exists c; auto].
  intros x y Lx Ly.
  destruct (vec_op_cases (dbg = true) op (fun _ => True) (fun _ => True) (fun x y z => holds (zop (num x) (num y)) z)) with (n := col) (a := x) (b := y)
    as [[HP [H _]]|(c & H & _ & G)]; auto; try (apply Forall_forall; auto). right. exists c. auto.
Qed.
Definition gives_complex (re im : Z) (r : out (complex Z)) : Prop := dbg = true /\ r = Pan \/ exists c, r = Ret c /\ holds re (real c) /\ holds im (imag c).
Lemma D_complex ar ai br bi :
  gives_complex (ar + br) (ai + bi) (ci_add dbg t (Cx ar ai) (Cx br bi)) /\ gives_complex (ar - br) (ai - bi) (ci_sub dbg t (Cx ar ai) (Cx br bi)) /\
  gives_complex (ar * br - ai * bi) (ar * bi + ai * br) (ci_mul dbg t (Cx ar ai) (Cx br bi)).
Proof.
  unfold ci_add, ci_sub, ci_mul, cf_add, cf_sub, cf_mul, gives_complex, holds. cbn [real imag]. split; [|split].
  - destruct (add_yields ar br) as [[P ->]|(p & -> & Op & Vp)]; [left; auto|]. cbn [obind]. destruct (add_yields ai bi) as [[P ->]|(q & -> & Oq & Vq)]; [left; auto|]. cbn [obind].
    right. exists (Cx p q). auto.
  - destruct (sub_yields ar br) as [[P ->]|(p & -> & Op & Vp)]; [left; auto|]. cbn [obind]. destruct (sub_yields ai bi) as [[P ->]|(q & -> & Oq & Vq)]; [left; auto|]. cbn [obind].
    right. exists (Cx p q). auto.
  - destruct (mul_yields ar br) as [[P ->]|(p1 & -> & O1 & V1)]; [left; auto|]. cbn [obind]. destruct (mul_yields ai bi) as [[P ->]|(p2 & -> & O2 & V2)]; [left; auto|]. cbn [obind].
    destruct (sub_yields p1 p2) as [[P ->]|(p & -> & Op & Vp)]; [left; auto|]. cbn [obind].
    destruct (mul_yields ar bi) as [[P ->]|(q1 & -> & O3 & V3)]; [left; auto|]. cbn [obind]. destruct (mul_yields br ai) as [[P ->]|(q2 & -> & O4 & V4)]; [left; auto|]. cbn [obind].
    destruct (add_yields q1 q2) as [[P ->]|(q & -> & Oq & Vq)]; [left; auto|]. cbn [obind].
    right. exists (Cx p q). cbn [real imag]. unfold num in *. split; [reflexivity|]. split; (split; [assumption|]); [rewrite Vp, V1, V2; reflexivity|rewrite Vq, V3, V4, (Z.mul_comm br ai); reflexivity].
Qed.
Lemma D_cross ax ay az bx by_ bz :
  dbg = true /\ crossi dbg t (ax, ay, az) (bx, by_, bz) = Pan \/
  exists p q r, crossi dbg t (ax, ay, az) (bx, by_, bz) = Ret (p, q, r) /\ holds (ay * bz - az * by_) p /\ holds (az * bx - ax * bz) q /\ holds (ax * by_ - ay * bx) r.
Proof.
  unfold crossi, crossf, holds.
  destruct (mul_yields ay bz) as [[P ->]|(x1 & -> & _ & V1)]; [left; auto|]. cbn [obind]. destruct (mul_yields az by_) as [[P ->]|(x2 & -> & _ & V2)]; [left; auto|]. cbn [obind].
  destruct (mul_yields az bx) as [[P ->]|(y1 & -> & _ & V3)]; [left; auto|]. cbn [obind]. destruct (mul_yields ax bz) as [[P ->]|(y2 & -> & _ & V4)]; [left; auto|]. cbn [obind].
  destruct (mul_yields ax by_) as [[P ->]|(z1 & -> & _ & V5)]; [left; auto|]. cbn [obind]. destruct (mul_yields ay bx) as [[P ->]|(z2 & -> & _ & V6)]; [left; auto|]. cbn [obind].
  destruct (sub_yields x1 x2) as [[P ->]|(x & -> & Ox & Vx)]; [left; auto|]. cbn [obind]. destruct (sub_yields y1 y2) as [[P ->]|(y & -> & Oy & Vy)]; [left; auto|]. cbn [obind].
  destruct (sub_yields z1 z2) as [[P ->]|(z & -> & Oz & Vz)]; [left; auto|]. cbn [obind].
  right. exists x, y, z. unfold num in *. split; [reflexivity|]. split; [|split]; (split; [assumption|]); [rewrite Vx, V1, V2|rewrite Vy, V3, V4|rewrite Vz, V5, V6]; reflexivity.
Qed.


Lemma same_number x y : fits t x -> fits t y -> num x == num y -> x = y.
Proof.
  intros Ox Oy [k E]. unfold num in E. pose proof (range_size t (proj1 Hn)) as R. pose proof (two_pow_pos (ibits t)) as P. unfold fits in *.
  set (B := 2 ^ Z.of_nat (ibits t)) in *. clearbody B. assert (k = 0) as -> by (destruct (Z_lt_le_dec k 0); [nia|destruct (Z_lt_le_dec 0 k); [nia|lia]]). lia.
Qed.

Definition stands_for (row col : nat) (m : list (list Z)) (F : nat -> nat -> Z) : Prop :=
  int_matrix t row col m /\ forall i j v, entry m i j = Some v -> num v == F i j.
Definition returns (row col : nat) (r : out (list (list Z))) (F : nat -> nat -> Z) : Prop :=
  dbg = true /\ r = Pan \/ exists m, r = Ret m /\ stands_for row col m F.
Definition integers (m : list (list Z)) (i j : nat) : Z := num (at_ 0 m i j).

Lemma entry_element row col m i j v : int_matrix t row col m -> entry m i j = Some v -> fits t v.
Proof.
  intros [_ F] E. unfold entry in E. destruct (nth_error m i) as [r|] eqn:R; [|discriminate]. apply nth_error_In in R, E.
  rewrite Forall_forall in F. specialize (F r R). rewrite Forall_forall in F. auto.
Qed.
Lemma from_entries row col m : shape row col m -> (forall i j v, entry m i j = Some v -> fits t v) -> int_matrix t row col m.
Proof.
  intros S H. split; [exact S|]. apply Forall_forall. intros r R. apply Forall_forall. intros v V. apply In_nth_error in R, V. destruct R as [i R], V as [j V].
  apply (H i j). unfold entry. rewrite R. exact V.
Qed.
Lemma stands_itself row col m : int_matrix t row col m -> stands_for row col m (integers m).
Proof. intros B. split; [exact B|]. intros i j v E. unfold integers, at_. rewrite E. reflexivity. Qed.

Lemma returns_same row col r r' F G : returns row col r F -> returns row col r' G ->
  (forall i j, (i < row)%nat -> (j < col)%nat -> F i j = G i j) -> same dbg r r'.
Proof.
  intros [[P ->]|(m & -> & Bm & Em)] [[P' ->]|(m' & -> & Bm' & Em')] H; try (right; split; [assumption|auto]; fail).
  left. exists m. split; [reflexivity|]. f_equal. apply (entry_ext row col); [apply Bm'|apply Bm|]. intros i j Hi Hj.
  pose proof (entry_at 0 row col m i j ltac:(apply Bm) Hi Hj) as E. pose proof (entry_at 0 row col m' i j ltac:(apply Bm') Hi Hj) as E'.
  rewrite E, E'. f_equal. apply same_number; [apply (entry_element _ _ _ _ _ _ Bm' E')|apply (entry_element _ _ _ _ _ _ Bm E)|]. rewrite (Em i j _ E), (Em' i j _ E'), H by auto. reflexivity.
Qed.
Lemma returns_bind row col row' col' r f F G : returns row col r F -> (forall m, stands_for row col m F -> returns row' col' (f m) G) -> returns row' col' (obind r f) G.
Proof. intros [[P ->]|(m & -> & S)] H; [left; auto|]. apply H. exact S. Qed.

Lemma product_returns row col col2 a b A B : (0 < col)%nat -> stands_for row col a A -> stands_for col col2 b B ->
  returns row col2 (mati_mul dbg t row col col2 a b) (fun i j => zsum col (fun k => A i k * B k j)).
Proof.
  intros Hc [[Sa Fa] Ea] [[Sb Fb] Eb]. destruct (D_matrix_product row col col2 a b Hc Sa Sb Fa Fb) as [H|(p & E & Sp & Ep)]; [left; exact H|].
  right. exists p. split; [exact E|]. split; [apply from_entries; [exact Sp|]; intros i j v Ev; apply (Ep i j v Ev)|].
  intros i j v Ev. destruct (Ep i j v Ev) as [Ov Hv]. rewrite Hv. clear Hv.
  assert (i < row /\ j < col2)%nat as [Hi Hj].
  { split; [destruct (Nat.lt_ge_cases i row) as [L|L]|destruct (Nat.lt_ge_cases j col2) as [L|L]]; auto; exfalso; rewrite (entry_out row col2 p i j Sp) in Ev by auto; discriminate. }
  assert (length (row_of a i) = col) as Lr. { destruct (shape_row row col a i Sa Hi) as (r & R & L). unfold row_of. rewrite (nth_error_nth a i [] R). exact L. }
  assert (length (column_of 0 b j) = col) as Lc by (unfold column_of; rewrite map_length; apply Sb).
  rewrite zdot_zsum by (rewrite !map_length; congruence). rewrite map_length, Lr. apply zsum_congr. intros k Hk.
  rewrite (nth_indep _ 0 (num 0)), map_nth by (rewrite map_length; lia). rewrite (nth_indep (map num (column_of _ _ _)) 0 (num 0)), map_nth by (rewrite map_length; lia).
  rewrite <- (at_row 0 row col a i k Sa Hi Hk), <- (at_column 0 col col2 b k j Sb Hk Hj).
  rewrite (Ea i k _ (entry_at 0 row col a i k Sa Hi Hk)), (Eb k j _ (entry_at 0 col col2 b k j Sb Hk Hj)). reflexivity.
Qed.

Lemma Forall3_entry {A B C} (R : A -> B -> C -> Prop) a b c : Forall3 (Forall3 R) a b c -> forall i j z, entry c i j = Some z ->
  exists x y, entry a i j = Some x /\ entry b i j = Some y /\ R x y z.
Proof.
  assert (forall A B C (R : A -> B -> C -> Prop) a b c, Forall3 R a b c -> forall i z, nth_error c i = Some z -> exists x y, nth_error a i = Some x /\ nth_error b i = Some y /\ R x y z) as N.
  { clear. induction 1 as [|x y z a b c H F IH]; intros [|i] u E; try discriminate; cbn [nth_error] in *; [|apply IH; exact E].
    assert (u = z) as -> by congruence. exists x, y. auto. }
  intros F i j z E. unfold entry in *. destruct (nth_error c i) as [r|] eqn:Er; [|discriminate].
  destruct (N _ _ _ _ _ _ _ F i r Er) as (ra & rb & -> & -> & F'). apply (N _ _ _ _ _ _ _ F' j z E).
Qed.
Lemma Forall3_shape {A B C} (R : A -> B -> C -> Prop) row col a b c : Forall3 (Forall3 R) a b c -> shape row col a -> shape row col c.
Proof.
  assert (forall A B C (R : A -> B -> C -> Prop) a b c, Forall3 R a b c -> length c = length a) as L.
  { clear. induction 1; cbn [length]; congruence. }
  intros F [La Fa]. split; [rewrite (L _ _ _ _ _ _ _ F); exact La|]. clear La. induction F as [|x y z a b c H F IH]; constructor.
  - inversion Fa; subst. apply (L _ _ _ _ _ _ _ H).
  - inversion Fa; subst. auto.
Qed.
Lemma elementwise_returns op zop row col a b A B : In (op, zop) (int_ops) -> (forall x x' y y', x == x' -> y == y' -> zop x y == zop x' y') ->
  stands_for row col a A -> stands_for row col b B -> returns row col (mat_op op row col a b) (fun i j => zop (A i j) (B i j)).
Proof.
  intros I C [[Sa Fa] Ea] [[Sb Fb] Eb]. destruct (D_matrix_elementwise op zop row col a b I Sa Sb Fa Fb) as [H|(c & E & F)]; [left; exact H|].
  right. exists c. split; [exact E|]. pose proof (Forall3_entry _ a b c F) as X. split.
  - apply from_entries; [eapply Forall3_shape; eassumption|]. intros i j v Ev. destruct (X i j v Ev) as (x & y & _ & _ & H). apply H.
  - intros i j v Ev. destruct (X i j v Ev) as (x & y & Ex & Ey & Ov & Hv). rewrite Hv. apply C; auto.
Qed.
Lemma sum_returns row col a b A B : stands_for row col a A -> stands_for row col b B -> returns row col (mat_op (int_add dbg t) row col a b) (fun i j => A i j + B i j).
Proof. apply (elementwise_returns (int_add dbg t) Z.add); [left; reflexivity|]. intros x x' y y' -> ->. reflexivity. Qed.
Lemma difference_returns row col a b A B : stands_for row col a A -> stands_for row col b B -> returns row col (mat_op (int_sub dbg t) row col a b) (fun i j => A i j - B i j).
Proof. apply (elementwise_returns (int_sub dbg t) Z.sub); [right; left; reflexivity|]. intros x x' y y' -> ->. reflexivity. Qed.
Lemma transpose_returns row col a A : stands_for row col a A -> returns col row (transpose col a) (fun i j => A j i).
Proof.
  intros [[Sa Fa] Ea]. right. exists (tabulate col row (fun i j => at_ 0 a j i)). split; [apply transpose_ok; exact Sa|].
  assert (forall i j v, entry (tabulate col row (fun i j => at_ 0 a j i)) i j = Some v -> entry a j i = Some v) as X.
  { intros i j v E. assert (i < col /\ j < row)%nat as [Hi Hj].
    { split; [destruct (Nat.lt_ge_cases i col) as [L|L]|destruct (Nat.lt_ge_cases j row) as [L|L]]; auto; exfalso; rewrite (entry_out col row) in E; auto using tabulate_shape; discriminate. }
    rewrite tabulate_entry in E by auto. rewrite (entry_at 0 row col) by auto. exact E. }
  split; [apply from_entries; [apply tabulate_shape|]|]; intros i j v E; apply X in E; [eapply entry_element; [split; eassumption|exact E]|]. apply Ea; exact E.
Qed.
Lemma number_one : fits t 1 /\ num 1 == 1.
Proof. split; [apply Hn|reflexivity]. Qed.
Lemma number_zero : fits t 0 /\ num 0 == 0.
Proof. split; [apply imin_le0; apply Hn|reflexivity]. Qed.
Lemma one_returns row : returns row row (mat_one (0) (1) row row) (fun i j => if Nat.eqb i j then 1 else 0).
Proof.
  right. exists (tabulate row row (fun i j => if Nat.eqb i j then 1 else 0)). split.
  { unfold mat_one, tabulate. apply from_fn_ok. intros i Hi. apply from_fn_ok. reflexivity. }
  assert (forall i j v, entry (tabulate row row (fun i j => if Nat.eqb i j then 1 else 0)) i j = Some v -> v = if Nat.eqb i j then 1 else 0) as X.
  { intros i j v E. assert (i < row /\ j < row)%nat as [Hi Hj].
    { split; [destruct (Nat.lt_ge_cases i row) as [L|L]|destruct (Nat.lt_ge_cases j row) as [L|L]]; auto; exfalso; rewrite (entry_out row row) in E; auto using tabulate_shape; discriminate. }
    rewrite tabulate_entry in E by auto. congruence. }
  split; [apply from_entries; [apply tabulate_shape|]|]; intros i j v E; apply X in E; subst v; destruct (Nat.eqb i j);
    try apply number_one; apply number_zero.
Qed.

(** Matrix products associate and distribute over sums and differences, the identity is neutral, transposition reverses products and
    undoes itself, sums commute and associate and differences undo them. *)
Lemma law_matrices : forall p q r s a a' b b' c, (0 < p)%nat -> (0 < q)%nat -> (0 < r)%nat ->
  int_matrix t p q a -> int_matrix t p q a' -> int_matrix t q r b -> int_matrix t q r b' -> int_matrix t r s c ->
  let add := int_add dbg t in let sub := int_sub dbg t in
  same dbg (obind (mati_mul dbg t p q r a b) (fun ab => mati_mul dbg t p r s ab c)) (obind (mati_mul dbg t q r s b c) (fun bc => mati_mul dbg t p q s a bc)) /\
  same dbg (obind (mat_op add q r b b') (fun d => mati_mul dbg t p q r a d)) (obind (mati_mul dbg t p q r a b) (fun x => obind (mati_mul dbg t p q r a b') (fun y => mat_op add p r x y))) /\
  same dbg (obind (mat_op sub q r b b') (fun d => mati_mul dbg t p q r a d)) (obind (mati_mul dbg t p q r a b) (fun x => obind (mati_mul dbg t p q r a b') (fun y => mat_op sub p r x y))) /\
  same dbg (obind (mat_op add p q a a') (fun d => mati_mul dbg t p q r d b)) (obind (mati_mul dbg t p q r a b) (fun x => obind (mati_mul dbg t p q r a' b) (fun y => mat_op add p r x y))) /\
  same dbg (obind (mat_one (0) (1) p p) (fun e => mati_mul dbg t p p q e a)) (Ret a) /\
  same dbg (obind (mat_one (0) (1) q q) (fun e => mati_mul dbg t p q q a e)) (Ret a) /\
  same dbg (obind (mati_mul dbg t p q r a b) (fun ab => transpose r ab))
    (obind (transpose q a) (fun a => obind (transpose r b) (fun b => mati_mul dbg t r q p b a))) /\
  same dbg (obind (transpose q a) (fun x => transpose p x)) (Ret a) /\
  same dbg (mat_op add p q a a') (mat_op add p q a' a) /\
  same dbg (obind (mat_op add p q a a') (fun x => mat_op sub p q x a')) (Ret a) /\
  same dbg (obind (mat_op sub p q a a') (fun x => mat_op add p q x a')) (Ret a).
Proof.
  intros p q r s a a' b b' c Hp Hq Hr Ba Ba' Bb Bb' Bc. cbv zeta.
  pose proof (stands_itself p q a Ba) as Sa. pose proof (stands_itself p q a' Ba') as Sa'.
  pose proof (stands_itself q r b Bb) as Sb. pose proof (stands_itself q r b' Bb') as Sb'. pose proof (stands_itself r s c Bc) as Sc.
  set (A := integers a) in *. set (A' := integers a') in *. set (B := integers b) in *. set (B' := integers b') in *. set (C := integers c) in *.
  assert (returns p q (Ret a) A) as Ra by (right; exists a; auto).
  pose proof returns_bind as Bind.
  split; [|split; [|split; [|split; [|split; [|split; [|split; [|split; [|split; [|split]]]]]]]]].
  - eapply (returns_same p s).
    + eapply Bind; [apply (product_returns p q r a b); eassumption|]. intros m Sm. apply product_returns; eassumption.
    + eapply Bind; [apply (product_returns q r s b c); eassumption|]. intros m Sm. apply product_returns; eassumption.
    + intros i j Hi Hj. cbv beta. rewrite (zsum_ext r _ (fun k => zsum q (fun l => A i l * B l k * C k j))) by (intros k _; symmetry; apply zsum_mul_r).
      rewrite zsum_swap. apply zsum_ext. intros k _. rewrite <- zsum_mul_l. apply zsum_ext. intros l _. ring.
  - eapply (returns_same p r).
    + eapply Bind; [apply (sum_returns q r b b'); eassumption|]. intros m Sm. apply product_returns; eassumption.
    + eapply Bind; [apply (product_returns p q r a b); eassumption|]. intros m Sm. eapply Bind; [apply (product_returns p q r a b'); eassumption|].
      intros m' Sm'. apply sum_returns; eassumption.
    + intros i j Hi Hj. cbv beta. rewrite <- zsum_add. apply zsum_ext. intros k _. ring.
  - eapply (returns_same p r).
    + eapply Bind; [apply (difference_returns q r b b'); eassumption|]. intros m Sm. apply product_returns; eassumption.
    + eapply Bind; [apply (product_returns p q r a b); eassumption|]. intros m Sm. eapply Bind; [apply (product_returns p q r a b'); eassumption|].
      intros m' Sm'. apply difference_returns; eassumption.
    + intros i j Hi Hj. cbv beta. rewrite <- Z.add_opp_r, <- (Z.mul_1_l (zsum q (fun k => A i k * B' k j))), <- Z.mul_opp_l, <- zsum_mul_l, <- zsum_add.
      apply zsum_ext. intros k _. ring.
  - eapply (returns_same p r).
    + eapply Bind; [apply (sum_returns p q a a'); eassumption|]. intros m Sm. apply product_returns; eassumption.
    + eapply Bind; [apply (product_returns p q r a b); eassumption|]. intros m Sm. eapply Bind; [apply (product_returns p q r a' b); eassumption|].
      intros m' Sm'. apply sum_returns; eassumption.
    + intros i j Hi Hj. cbv beta. rewrite <- zsum_add. apply zsum_ext. intros k _. ring.
  - eapply (returns_same p q); [eapply Bind; [apply (one_returns p)|]; intros m Sm; apply product_returns; eassumption|exact Ra|].
    intros i j Hi Hj. cbv beta. rewrite (zsum_ext p _ (fun k => if Nat.eqb i k then A k j else 0)); [apply (zsum_delta p i (fun k => A k j) Hi)|].
    intros k _. destruct (Nat.eqb i k); ring.
  - eapply (returns_same p q); [eapply Bind; [apply (one_returns q)|]; intros m Sm; apply product_returns; eassumption|exact Ra|].
    intros i j Hi Hj. cbv beta. rewrite (zsum_ext q _ (fun k => if Nat.eqb j k then A i k else 0)); [apply (zsum_delta q j (fun k => A i k) Hj)|].
    intros k _. rewrite (Nat.eqb_sym k j). destruct (Nat.eqb j k); ring.
  - eapply (returns_same r p).
    + eapply Bind; [apply (product_returns p q r a b); eassumption|]. intros m Sm. apply (transpose_returns p r m _ Sm).
    + eapply Bind; [apply (transpose_returns p q a _ Sa)|]. intros m Sm. eapply Bind; [apply (transpose_returns q r b _ Sb)|].
      intros m' Sm'. apply product_returns; eassumption.
    + intros i j Hi Hj. cbv beta. apply zsum_ext. intros k _. ring.
  - eapply (returns_same p q); [eapply Bind; [apply (transpose_returns p q a _ Sa)|]; intros m Sm; apply (transpose_returns q p m _ Sm)|exact Ra|reflexivity].
  - eapply (returns_same p q); [apply sum_returns; eassumption|apply sum_returns; eassumption|]. intros i j _ _. cbv beta. ring.
  - eapply (returns_same p q); [eapply Bind; [apply sum_returns; eassumption|]; intros m Sm; apply difference_returns; eassumption|exact Ra|].
    intros i j _ _. cbv beta. ring.
  - eapply (returns_same p q); [eapply Bind; [apply difference_returns; eassumption|]; intros m Sm; apply sum_returns; eassumption|exact Ra|].
    intros i j _ _. cbv beta. ring.
Qed.


(** ** Complex numbers *)


Definition complex_for (c : complex Z) (re im : Z) : Prop :=
  fits t (real c) /\ fits t (imag c) /\ num (real c) == re /\ num (imag c) == im.
Definition complex_returns (r : out (complex Z)) (re im : Z) : Prop := dbg = true /\ r = Pan \/ exists c, r = Ret c /\ complex_for c re im.

Lemma gives_returns re im r : gives_complex re im r -> forall re' im', re == re' -> im == im' -> complex_returns r re' im'.
Proof.
  intros [H|(c & E & [Or Vr] & [Oi Vi])] re' im' Hr Hi; [left; exact H|right; exists c]. split; [exact E|]. split; [exact Or|]. split; [exact Oi|].
  rewrite Vr, Vi. auto.
Qed.
Lemma complex_same r r' re im re' im' : complex_returns r re im -> complex_returns r' re' im' -> re = re' -> im = im' -> same dbg r r'.
Proof.
  intros [[P ->]|([x y] & -> & Ox & Oy & Vx & Vy)] [[P' ->]|([x' y'] & -> & Ox' & Oy' & Vx' & Vy')] -> ->; try (right; split; [assumption|auto]; fail).
  cbn [real imag] in *. left. exists (Cx x y). split; [reflexivity|]. do 2 f_equal; apply same_number; auto; etransitivity; eauto; symmetry; auto.
Qed.
Lemma complex_bind r f re im re' im' : complex_returns r re im -> (forall c, complex_for c re im -> complex_returns (f c) re' im') -> complex_returns (obind r f) re' im'.
Proof. intros [[P ->]|(c & -> & S)] H; [left; auto|]. apply H. exact S. Qed.
Lemma complex_ops x y a b c d : complex_for x a b -> complex_for y c d ->
  complex_returns (ci_add dbg t x y) (a + c) (b + d) /\ complex_returns (ci_sub dbg t x y) (a - c) (b - d) /\
  complex_returns (ci_mul dbg t x y) (a * c - b * d) (a * d + b * c).
Proof.
  intros (O1 & O2 & V1 & V2) (O3 & O4 & V3 & V4). destruct x as [xr xi], y as [yr yi]. cbn [real imag] in *.
  assert (Forall (fits t) [xr; xi; yr; yi; xr]) as F by (repeat constructor; apply O1 || apply O2 || apply O3 || apply O4).
  destruct (D_complex xr xi yr yi) as (A & S & M).
  split; [|split]; eapply gives_returns; try eassumption; rewrite ?V1, ?V2, ?V3, ?V4; reflexivity.
Qed.
Lemma complex_itself c : fits t (real c) -> fits t (imag c) -> complex_for c (num (real c)) (num (imag c)).
Proof. intros Or Oi. split; [exact Or|]. split; [exact Oi|]. split; reflexivity. Qed.
Lemma complex_one : complex_for (Cx (1) (0)) 1 0.
Proof. split; [apply number_one|]. split; [apply number_zero|]. split; [apply number_one|apply number_zero]. Qed.

(** The ring of complex numbers over [U<N>] and [I<N>]. *)
Lemma law_complex : forall a b c, Forall (fun z => fits t (real z) /\ fits t (imag z)) [a; b; c] ->
  let add := ci_add dbg t in let sub := ci_sub dbg t in let mul := ci_mul dbg t in let one := Cx (1) (0) in
  same dbg (add a b) (add b a) /\ same dbg (mul a b) (mul b a) /\
  same dbg (obind (add a b) (fun x => add x c)) (obind (add b c) (fun x => add a x)) /\
  same dbg (obind (mul a b) (fun x => mul x c)) (obind (mul b c) (fun x => mul a x)) /\
  same dbg (obind (add b c) (fun x => mul a x)) (obind (mul a b) (fun x => obind (mul a c) (fun y => add x y))) /\
  same dbg (obind (sub b c) (fun x => mul a x)) (obind (mul a b) (fun x => obind (mul a c) (fun y => sub x y))) /\
  same dbg (obind (add a b) (fun x => sub x b)) (Ret a) /\ same dbg (obind (sub a b) (fun x => add x b)) (Ret a) /\
  same dbg (mul a one) (Ret a) /\ same dbg (mul one a) (Ret a).
Proof.
  intros a b c F. cbv zeta.
  inversion F as [|? ? [Oa Oa'] F1]; subst. inversion F1 as [|? ? [Ob Ob'] F2]; subst. inversion F2 as [|? ? [Oc Oc'] _]; subst. clear F F1 F2.
  pose proof (complex_itself a Oa Oa') as Sa. pose proof (complex_itself b Ob Ob') as Sb. pose proof (complex_itself c Oc Oc') as Sc.
  pose proof complex_one as S1.
  assert (complex_returns (Ret a) (num (real a)) (num (imag a))) as Ra by (right; exists a; auto).
  pose proof (fun x y p q r s X Y => proj1 (complex_ops x y p q r s X Y)) as Add.
  pose proof (fun x y p q r s X Y => proj1 (proj2 (complex_ops x y p q r s X Y))) as Sub.
  pose proof (fun x y p q r s X Y => proj2 (proj2 (complex_ops x y p q r s X Y))) as Mul.
  pose proof complex_bind as Bind.
  split; [eapply complex_same; [apply Add; eassumption|apply Add; eassumption|ring|ring]|].
  split; [eapply complex_same; [apply Mul; eassumption|apply Mul; eassumption|ring|ring]|].
  split. { eapply complex_same; [eapply Bind; [apply Add; eassumption|]; intros m Sm; apply Add; eassumption|eapply Bind; [apply Add; [apply Sb|apply Sc]|]; intros m Sm; apply Add; eassumption|ring|ring]. }
  split. { eapply complex_same; [eapply Bind; [apply Mul; eassumption|]; intros m Sm; apply Mul; eassumption|eapply Bind; [apply Mul; [apply Sb|apply Sc]|]; intros m Sm; apply Mul; eassumption|ring|ring]. }
  split. { eapply complex_same; [eapply Bind; [apply Add; [apply Sb|apply Sc]|]; intros m Sm; apply Mul; eassumption
    |eapply Bind; [apply Mul; [apply Sa|apply Sb]|]; intros m Sm; eapply Bind; [apply Mul; [apply Sa|apply Sc]|]; intros m' Sm'; apply Add; eassumption|ring|ring]. }
  split. { eapply complex_same; [eapply Bind; [apply Sub; [apply Sb|apply Sc]|]; intros m Sm; apply Mul; eassumption
    |eapply Bind; [apply Mul; [apply Sa|apply Sb]|]; intros m Sm; eapply Bind; [apply Mul; [apply Sa|apply Sc]|]; intros m' Sm'; apply Sub; eassumption|ring|ring]. }
  split; [eapply complex_same; [eapply Bind; [apply Add; [apply Sa|apply Sb]|]; intros m Sm; apply Sub; eassumption|exact Ra|ring|ring]|].
  split; [eapply complex_same; [eapply Bind; [apply Sub; [apply Sa|apply Sb]|]; intros m Sm; apply Add; eassumption|exact Ra|ring|ring]|].
  split; eapply complex_same; try exact Ra; [apply Mul; eassumption|ring|ring|apply Mul; eassumption|ring|ring].
Qed.


(** ** Cross products *)

Definition three_for (u : Z * Z * Z) (x y z : Z) : Prop :=
  let '(a, b, c) := u in three_of t u /\ num a == x /\ num b == y /\ num c == z.
Definition three_returns (r : out (Z * Z * Z)) (x y z : Z) : Prop := dbg = true /\ r = Pan \/ exists u, r = Ret u /\ three_for u x y z.

Lemma three_same r r' x y z x' y' z' : three_returns r x y z -> three_returns r' x' y' z' -> x = x' -> y = y' -> z = z' -> same dbg r r'.
Proof.
  intros [[P ->]|([[a b] c] & -> & (Oa & Ob & Oc) & Va & Vb & Vc)] [[P' ->]|([[a' b'] c'] & -> & (Oa' & Ob' & Oc') & Va' & Vb' & Vc')] -> -> ->; try (right; split; [assumption|auto]; fail).
  left. exists (a, b, c). split; [reflexivity|].
  assert (a' = a) as -> by (apply same_number; auto; rewrite Va', Va; reflexivity).
  assert (b' = b) as -> by (apply same_number; auto; rewrite Vb', Vb; reflexivity).
  assert (c' = c) as -> by (apply same_number; auto; rewrite Vc', Vc; reflexivity). reflexivity.
Qed.
Lemma three_bind r f x y z x' y' z' : three_returns r x y z -> (forall u, three_for u x y z -> three_returns (f u) x' y' z') -> three_returns (obind r f) x' y' z'.
Proof. intros [[P ->]|(c & -> & S)] H; [left; auto|]. apply H. exact S. Qed.
Lemma cross_returns u v a b c x y z : three_for u a b c -> three_for v x y z ->
  three_returns (crossi dbg t u v) (b * z - c * y) (c * x - a * z) (a * y - b * x).
Proof.
  destruct u as [[u1 u2] u3], v as [[v1 v2] v3]. intros ((O1 & O2 & O3) & V1 & V2 & V3) ((O4 & O5 & O6) & V4 & V5 & V6).
  assert (Forall (fits t) [u1; u2; u3; v1; v2; v3]) as F by (repeat (constructor; [assumption|]); constructor).
  destruct (D_cross u1 u2 u3 v1 v2 v3) as [H|(p & q & r & E & [Op Vp] & [Oq Vq] & [Or Vr])]; [left; exact H|].
 
  right. exists (p, q, r). split; [exact E|]. split; [split; auto|]. rewrite Vp, Vq, Vr, V1, V2, V3, V4, V5, V6. repeat split; reflexivity.
Qed.
Lemma sum3_returns u v a b c x y z : three_for u a b c -> three_for v x y z -> three_returns (sum3 dbg t u v) (a + x) (b + y) (c + z).
Proof.
  destruct u as [[u1 u2] u3], v as [[v1 v2] v3]. intros ((O1 & O2 & O3) & V1 & V2 & V3) ((O4 & O5 & O6) & V4 & V5 & V6). unfold sum3.
  destruct (add_yields u1 v1) as [[P ->]|(p & -> & Op & Vp)]; [left; auto|]. cbn [obind].
  destruct (add_yields u2 v2) as [[P ->]|(q & -> & Oq & Vq)]; [left; auto|]. cbn [obind].
  destruct (add_yields u3 v3) as [[P ->]|(r & -> & Or & Vr)]; [left; auto|]. cbn [obind].
  right. exists (p, q, r). split; [reflexivity|]. split; [split; auto|]. rewrite Vp, Vq, Vr, V1, V2, V3, V4, V5, V6. repeat split; reflexivity.
Qed.

(** Cross products are alternating, distribute over sums on both sides, and satisfy the identity of Jacobi. *)
Lemma law_cross : forall u v w, three_of t u -> three_of t v -> three_of t w ->
  let cross := crossi dbg t in let sum := sum3 dbg t in let zero := Ret (0, 0, 0) in
  same dbg (cross u u) zero /\
  same dbg (obind (cross u v) (fun x => obind (cross v u) (fun y => sum x y))) zero /\
  same dbg (obind (sum v w) (fun x => cross u x)) (obind (cross u v) (fun x => obind (cross u w) (fun y => sum x y))) /\
  same dbg (obind (sum v w) (fun x => cross x u)) (obind (cross v u) (fun x => obind (cross w u) (fun y => sum x y))) /\
  same dbg (obind (obind (cross v w) (fun x => cross u x)) (fun x => obind (obind (cross w u) (fun y => cross v y)) (fun y =>
    obind (obind (cross u v) (fun z => cross w z)) (fun z => obind (sum x y) (fun s => sum s z))))) zero.
Proof.
  intros u v w Ou Ov Ow. cbv zeta. destruct u as [[u1 u2] u3], v as [[v1 v2] v3], w as [[w1 w2] w3].
  assert (forall a b c, three_of t (a, b, c) -> three_for (a, b, c) (num a) (num b) (num c)) as Self.
  { intros a b c O. split; [exact O|]. repeat split; reflexivity. }
  apply Self in Ou, Ov, Ow. clear Self.
  assert (three_returns (Ret (0, 0, 0)) 0 0 0) as Rz.
  { right. exists (0, 0, 0). split; [reflexivity|]. pose proof number_zero as [Oz Vz]. split; [split; auto|]. auto. }
  pose proof cross_returns as Cr. pose proof sum3_returns as Sm. pose proof three_bind as Bind.
  split; [eapply three_same; [apply Cr; [apply Ou|apply Ou]|exact Rz|ring..]|].
  split. { eapply three_same; [eapply Bind; [apply Cr; [apply Ou|apply Ov]|]; intros x X; eapply Bind; [apply Cr; [apply Ov|apply Ou]|]; intros y Y; apply Sm; eassumption|exact Rz|ring..]. }
  split. { eapply three_same; [eapply Bind; [apply Sm; [apply Ov|apply Ow]|]; intros x X; apply Cr; [apply Ou|apply X]
    |eapply Bind; [apply Cr; [apply Ou|apply Ov]|]; intros x X; eapply Bind; [apply Cr; [apply Ou|apply Ow]|]; intros y Y; apply Sm; eassumption|ring..]. }
  split. { eapply three_same; [eapply Bind; [apply Sm; [apply Ov|apply Ow]|]; intros x X; apply Cr; [apply X|apply Ou]
    |eapply Bind; [apply Cr; [apply Ov|apply Ou]|]; intros x X; eapply Bind; [apply Cr; [apply Ow|apply Ou]|]; intros y Y; apply Sm; eassumption|ring..]. }
  eapply three_same; [|exact Rz|..].
  - eapply Bind; [eapply Bind; [apply Cr; [apply Ov|apply Ow]|]; intros x X; apply Cr; [apply Ou|apply X]|]. intros x X.
    eapply Bind; [eapply Bind; [apply Cr; [apply Ow|apply Ou]|]; intros y Y; apply Cr; [apply Ov|apply Y]|]. intros y Y.
    eapply Bind; [eapply Bind; [apply Cr; [apply Ou|apply Ov]|]; intros z Z; apply Cr; [apply Ow|apply Z]|]. intros z Z.
    eapply Bind; [apply Sm; [apply X|apply Y]|]. intros s S. apply Sm; [apply S|apply Z].
  - ring.
  - ring.
  - ring.
Qed.


End Laws.

(** Matrix products associate and distribute over sums and differences, the identity is neutral, transposition reverses products and
    undoes itself, sums commute and differences undo them. *)
Theorem C189_matrices : forall dbg t p q r s a a' b b' c, sized t -> (0 < p)%nat -> (0 < q)%nat -> (0 < r)%nat ->
  int_matrix t p q a -> int_matrix t p q a' -> int_matrix t q r b -> int_matrix t q r b' -> int_matrix t r s c ->
  let add := int_add dbg t in let sub := int_sub dbg t in
  same dbg (obind (mati_mul dbg t p q r a b) (fun ab => mati_mul dbg t p r s ab c)) (obind (mati_mul dbg t q r s b c) (fun bc => mati_mul dbg t p q s a bc)) /\
  same dbg (obind (mat_op add q r b b') (fun d => mati_mul dbg t p q r a d)) (obind (mati_mul dbg t p q r a b) (fun x => obind (mati_mul dbg t p q r a b') (fun y => mat_op add p r x y))) /\
  same dbg (obind (mat_op sub q r b b') (fun d => mati_mul dbg t p q r a d)) (obind (mati_mul dbg t p q r a b) (fun x => obind (mati_mul dbg t p q r a b') (fun y => mat_op sub p r x y))) /\
  same dbg (obind (mat_op add p q a a') (fun d => mati_mul dbg t p q r d b)) (obind (mati_mul dbg t p q r a b) (fun x => obind (mati_mul dbg t p q r a' b) (fun y => mat_op add p r x y))) /\
  same dbg (obind (mat_one (0) (1) p p) (fun e => mati_mul dbg t p p q e a)) (Ret a) /\
  same dbg (obind (mat_one (0) (1) q q) (fun e => mati_mul dbg t p q q a e)) (Ret a) /\
  same dbg (obind (mati_mul dbg t p q r a b) (fun ab => transpose r ab))
    (obind (transpose q a) (fun a => obind (transpose r b) (fun b => mati_mul dbg t r q p b a))) /\
  same dbg (obind (transpose q a) (fun x => transpose p x)) (Ret a) /\
  same dbg (mat_op add p q a a') (mat_op add p q a' a) /\
  same dbg (obind (mat_op add p q a a') (fun x => mat_op sub p q x a')) (Ret a) /\
  same dbg (obind (mat_op sub p q a a') (fun x => mat_op add p q x a')) (Ret a).
Proof. intros dbg t p q r s a a' b b' c Hn. apply (law_matrices dbg t Hn). Qed.
Print Assumptions C189_matrices.

(** The ring of complex numbers over a primitive integer type. *)
Theorem C189_complex : forall dbg t a b c, sized t -> Forall (fun z => fits t (real z) /\ fits t (imag z)) [a; b; c] ->
  let add := ci_add dbg t in let sub := ci_sub dbg t in let mul := ci_mul dbg t in let one := Cx (1) (0) in
  same dbg (add a b) (add b a) /\ same dbg (mul a b) (mul b a) /\
  same dbg (obind (add a b) (fun x => add x c)) (obind (add b c) (fun x => add a x)) /\
  same dbg (obind (mul a b) (fun x => mul x c)) (obind (mul b c) (fun x => mul a x)) /\
  same dbg (obind (add b c) (fun x => mul a x)) (obind (mul a b) (fun x => obind (mul a c) (fun y => add x y))) /\
  same dbg (obind (sub b c) (fun x => mul a x)) (obind (mul a b) (fun x => obind (mul a c) (fun y => sub x y))) /\
  same dbg (obind (add a b) (fun x => sub x b)) (Ret a) /\ same dbg (obind (sub a b) (fun x => add x b)) (Ret a) /\
  same dbg (mul a one) (Ret a) /\ same dbg (mul one a) (Ret a).
Proof. intros dbg t a b c Hn. apply (law_complex dbg t Hn). Qed.
Print Assumptions C189_complex.

(** Cross products are alternating, distribute over sums on both sides, and satisfy the identity of Jacobi. *)
Theorem C189_cross : forall dbg t u v w, sized t -> three_of t u -> three_of t v -> three_of t w ->
  let cross := crossi dbg t in let sum := sum3 dbg t in let zero := Ret (0, 0, 0) in
  same dbg (cross u u) zero /\
  same dbg (obind (cross u v) (fun x => obind (cross v u) (fun y => sum x y))) zero /\
  same dbg (obind (sum v w) (fun x => cross u x)) (obind (cross u v) (fun x => obind (cross u w) (fun y => sum x y))) /\
  same dbg (obind (sum v w) (fun x => cross x u)) (obind (cross v u) (fun x => obind (cross w u) (fun y => sum x y))) /\
  same dbg (obind (obind (cross v w) (fun x => cross u x)) (fun x => obind (obind (cross w u) (fun y => cross v y)) (fun y =>
    obind (obind (cross u v) (fun z => cross w z)) (fun z => obind (sum x y) (fun s => sum s z))))) zero.
Proof. intros dbg t u v w Hn. apply (law_cross dbg t Hn). Qed.
Print Assumptions C189_cross.

(** With overflow checks one side of a law may panic and the other return: 0 * (100 * 2) and (0 * 100) * 2 in [i8].  So "or one of them
    panics" in [same] is needed. *)
Definition byte_type := {| ibits := 8; isigned := true |}.
Theorem C189_checked_sides : exists a b c, int_matrix byte_type 1 1 a /\ int_matrix byte_type 1 1 b /\ int_matrix byte_type 1 1 c /\
  obind (mati_mul true byte_type 1 1 1 a b) (fun ab => mati_mul true byte_type 1 1 1 ab c) = Ret [[0]] /\
  obind (mati_mul true byte_type 1 1 1 b c) (fun bc => mati_mul true byte_type 1 1 1 a bc) = Pan.
Proof.
  exists [[0]], [[100]], [[2]].
  assert (forall x, -128 <= x <= 127 -> int_matrix byte_type 1 1 [[x]]) as B.
  { intros x Hx. split; [split; [reflexivity|repeat constructor]|]. repeat constructor; unfold imin, imax; cbn; lia. }
  repeat (split; [apply B; lia|]). vm_compute. repeat split.
Qed.
Print Assumptions C189_checked_sides.

(** Sums that overflow: 100 * 2 does not fit. *)
Example C189_demo : sized byte_type /\ int_matrix byte_type 2 2 [[100; 7]; [3; -128]] /\
  mati_mul false byte_type 2 2 2 [[100; 7]; [3; -128]] [[2; 90]; [-1; 4]] = Ret [[-63; 68]; [-122; 14]] /\
  mati_mul true byte_type 2 2 2 [[100; 7]; [3; -128]] [[2; 90]; [-1; 4]] = Pan /\
  mati_mul true byte_type 2 2 2 [[10; 7]; [3; -12]] [[2; 9]; [-1; 4]] = Ret [[13; 118]; [18; -21]] /\
  ci_mul true byte_type (Cx 7 (-3)) (Cx 5 11) = Ret (Cx 68 62) /\ crossi true byte_type (1, 2, 3) (-4, 5, 6) = Ret (-3, -18, 13).
Proof.
  split; [split; [cbn; lia|unfold CompoundIntSpec.fits, imin, imax; cbn; lia]|]. split; [split; [split; [reflexivity|repeat constructor]|repeat constructor; unfold imin, imax; cbn; lia]|].
  repeat split; vm_compute; reflexivity.
Qed.
