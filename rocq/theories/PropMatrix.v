(** C88-C90, C92 (determinant): the matrix operations against MathComp's matrices. *)
From Coq Require Import List Arith ZArith Lia.
From Verif Require Import Base StaticIterModel VectorModel CompoundsSpec VectorProofs MatrixModel GaussProofs MatrixProofs.
Set Warnings "-ambiguous-paths,-notation-overridden".
From mathcomp Require Import all_ssreflect all_fingroup all_algebra.
From Verif Require Import DetProofs PropIndex.
Set Implicit Arguments. Unset Strict Implicit. Unset Printing Implicit Defensive.
Import GroupScope GRing.Theory.
Local Open Scope ring_scope.
Local Notation shape := CompoundsSpec.shape.
Local Notation obind := StaticIterModel.obind.

(** ** Specification: a list of rows as a mathematical matrix *)
Definition mx_of (R : ringType) (row col : nat) (m : list (list R)) : 'M[R]_(row, col) :=
  \matrix_(i, j) (match entry m i j with Some v => v | None => 0 end).

(** A matrix of the right shape is determined by the mathematical one. *)
Theorem C88_faithful (R : ringType) row col (a b : list (list R)) : shape row col a -> shape row col b ->
  mx_of row col a = mx_of row col b -> a = b.
Proof.
move=> Sa Sb /matrixP E. apply: (entry_ext row col a b Sa Sb) => i j Hi Hj.
rewrite (entry_at 0 _ _ _ _ _ Sa Hi Hj) (entry_at 0 _ _ _ _ _ Sb Hi Hj).
have /ltP Hi' := Hi. have /ltP Hj' := Hj. by have := E (Ordinal Hi') (Ordinal Hj'); rewrite !mxE /at_ /= => ->.
Qed.

Section Laws.
Variable R : comRingType.
Implicit Types a b c m : list (list R).

Lemma mx_tab row col (g : nat -> nat -> R) : mx_of row col (tabulate row col g) = \matrix_(i, j) g i j.
Proof.
apply/matrixP=> i j; rewrite !mxE.
by rewrite (tabulate_entry _ _ _ (nat_of_ord i) (nat_of_ord j)) //; apply/ltP.
Qed.

(** Transposition returns, exchanges indices, and is its own inverse. *)
Theorem C88_transpose row col m : shape row col m -> exists t,
  transpose col m = Ret t /\ shape col row t /\ (forall i j, entry t i j = entry m j i) /\
  mx_of col row t = (mx_of row col m)^T /\ transpose row t = Ret m.
Proof.
move=> S. exists (tabulate col row (fun i j => at_ 0 m j i)).
have St := tabulate_shape col row (fun i j => at_ 0 m j i).
rewrite (transpose_ok 0 _ _ _ S). split=> //. split=> //.
have E i j : entry (tabulate col row (fun i j => at_ 0 m j i)) i j = entry m j i.
  case: (Nat.lt_ge_cases i col) => Hi; last by rewrite (entry_out _ _ _ _ _ St) ?(entry_out _ _ _ _ _ S); auto.
  case: (Nat.lt_ge_cases j row) => Hj; last by rewrite (entry_out _ _ _ _ _ St) ?(entry_out _ _ _ _ _ S); auto.
  by rewrite tabulate_entry // (entry_at 0 _ _ _ _ _ S).
split=> //. split; first by apply/matrixP=> i j; rewrite !mxE E.
rewrite (transpose_ok 0 _ _ _ St). congr (Ret _).
rewrite -{2}(tabulate_self 0 _ _ _ S). by apply: tabulate_ext => i j Hi Hj; rewrite /at_ E.
Qed.

(** The product is the row-by-column sum. *)
Theorem C88_product row col col2 a b : shape row col.+1 a -> shape col.+1 col2 b -> exists p,
  mat_mul +%R *%R row col.+1 col2 a b = Ret p /\ shape row col2 p /\ mx_of row col2 p = mx_of row col.+1 a *m mx_of col.+1 col2 b.
Proof.
move=> Sa Sb. eexists. split; first exact: mat_mul_ok. split; first exact: tabulate_shape.
rewrite mx_tab. apply/matrixP=> i j. rewrite !mxE. by apply: eq_bigr => k _; rewrite !mxE.
Qed.

(** With an empty inner dimension the product panics unless the result is empty too. *)
Theorem C88_empty_inner row col2 a b : shape row.+1 0 a -> mat_mul +%R *%R row.+1 0 col2.+1 a b = Pan :> out (list (list R)).
Proof.
move=> Sa. rewrite /mat_mul /from_fn. cbn [List.seq array_map StaticIterModel.obind].
have -> : mat_get a 0%N 0%N = Pan by apply: (mat_get_out _ _ _ _ _ Sa); right; lia.
by [].
Qed.

Theorem C88_sum row col a b : shape row col a -> shape row col b -> exists s,
  mat_op (fun x y => Ret (x + y)) row col a b = Ret s /\ shape row col s /\ mx_of row col s = mx_of row col a + mx_of row col b.
Proof.
move=> Sa Sb. eexists. split; first exact: (mat_op_ok 0 0 +%R). split; first exact: tabulate_shape.
rewrite mx_tab. by apply/matrixP=> i j; rewrite !mxE.
Qed.

Theorem C88_difference row col a b : shape row col a -> shape row col b -> exists s,
  mat_op (fun x y => Ret (x - y)) row col a b = Ret s /\ shape row col s /\ mx_of row col s = mx_of row col a - mx_of row col b.
Proof.
move=> Sa Sb. eexists. split; first exact: (mat_op_ok 0 0 (fun x y => x - y)). split; first exact: tabulate_shape.
rewrite mx_tab. by apply/matrixP=> i j; rewrite !mxE.
Qed.

(** The identity and zero matrices. *)
Theorem C88_one n : exists o, mat_one (0 : R) 1 n n = Ret o /\ shape n n o /\ mx_of n n o = 1%:M.
Proof.
exists (tabulate n n (fun i j => if Nat.eqb i j then 1 else 0)). split.
  rewrite /mat_one /tabulate. apply: from_fn_ok => i Hi. by apply: from_fn_ok.
split; first exact: tabulate_shape.
rewrite mx_tab. apply/matrixP=> i j; rewrite !mxE.
have -> : Nat.eqb i j = (i == j).
  apply/idP/idP => [/Nat.eqb_eq E|/eqP ->]; first by apply/eqP/val_inj.
  exact: Nat.eqb_refl.
by case: (i == j).
Qed.

Theorem C88_zero row col : exists o, mat_zero (0 : R) row col = Ret o /\ shape row col o /\ mx_of row col o = 0.
Proof.
exists (tabulate row col (fun _ _ => 0)). split.
  rewrite /mat_zero /tabulate. apply: from_fn_ok => i Hi. by apply: from_fn_ok.
split; first exact: tabulate_shape. rewrite mx_tab. by apply/matrixP=> i j; rewrite !mxE.
Qed.

(** Associativity, identity, distributivity and the transpose of a product, for the operations. *)
Theorem C88_associative p q r s a b c : shape p q.+1 a -> shape q.+1 r.+1 b -> shape r.+1 s c ->
  exists x, obind (mat_mul +%R *%R p q.+1 r.+1 a b) (fun ab => mat_mul +%R *%R p r.+1 s ab c) = Ret x /\
            obind (mat_mul +%R *%R q.+1 r.+1 s b c) (fun bc => mat_mul +%R *%R p q.+1 s a bc) = Ret x.
Proof.
move=> Sa Sb Sc. case: (C88_product Sa Sb) => ab [-> [Sab Mab]]. case: (C88_product Sb Sc) => bc [-> [Sbc Mbc]].
cbn [StaticIterModel.obind]. case: (C88_product Sab Sc) => x [-> [Sx Mx]]. case: (C88_product Sa Sbc) => y [-> [Sy My]].
exists x. split=> //. congr (Ret _). apply: (C88_faithful Sy Sx). by rewrite My Mx Mab Mbc mulmxA.
Qed.

Theorem C88_identity p q a : shape p.+1 q.+1 a ->
  obind (mat_one (0 : R) 1 p.+1 p.+1) (fun o => mat_mul +%R *%R p.+1 p.+1 q.+1 o a) = Ret a /\
  obind (mat_one (0 : R) 1 q.+1 q.+1) (fun o => mat_mul +%R *%R p.+1 q.+1 q.+1 a o) = Ret a.
Proof.
move=> Sa. case: (C88_one p.+1) => o [-> [So Mo]]. case: (C88_one q.+1) => o' [-> [So' Mo']]. split; cbn [StaticIterModel.obind].
- case: (C88_product So Sa) => x [-> [Sx Mx]]. congr (Ret _). apply: (C88_faithful Sx Sa). by rewrite Mx Mo mul1mx.
- case: (C88_product Sa So') => x [-> [Sx Mx]]. congr (Ret _). apply: (C88_faithful Sx Sa). by rewrite Mx Mo' mulmx1.
Qed.

Theorem C88_distributive p q r a b c : shape p q.+1 a -> shape q.+1 r b -> shape q.+1 r c ->
  exists x, obind (mat_op (fun x y => Ret (x + y)) q.+1 r b c) (fun bc => mat_mul +%R *%R p q.+1 r a bc) = Ret x /\
            obind (mat_mul +%R *%R p q.+1 r a b) (fun ab => obind (mat_mul +%R *%R p q.+1 r a c) (fun ac =>
              mat_op (fun x y => Ret (x + y)) p r ab ac)) = Ret x.
Proof.
move=> Sa Sb Sc. case: (C88_sum Sb Sc) => bc [-> [Sbc Mbc]]. case: (C88_product Sa Sb) => ab [-> [Sab Mab]].
case: (C88_product Sa Sc) => ac [-> [Sac Mac]]. cbn [StaticIterModel.obind].
case: (C88_product Sa Sbc) => x [-> [Sx Mx]]. case: (C88_sum Sab Sac) => y [-> [Sy My]].
exists x. split=> //. congr (Ret _). apply: (C88_faithful Sy Sx). by rewrite Mx My Mbc Mab Mac mulmxDr.
Qed.

Theorem C88_transpose_product p q r a b : shape p q.+1 a -> shape q.+1 r b ->
  exists x, obind (mat_mul +%R *%R p q.+1 r a b) (transpose r) = Ret x /\
            obind (transpose r b) (fun bt => obind (transpose q.+1 a) (fun a_t => mat_mul +%R *%R r q.+1 p bt a_t)) = Ret x.
Proof.
move=> Sa Sb. case: (C88_product Sa Sb) => ab [-> [Sab Mab]].
case: (C88_transpose Sb) => bt [-> [Sbt [_ [Mbt _]]]]. case: (C88_transpose Sa) => a_t [-> [Sat [_ [Mat _]]]].
cbn [StaticIterModel.obind]. case: (C88_transpose Sab) => x [-> [Sx [_ [Mx _]]]]. case: (C88_product Sbt Sat) => y [-> [Sy My]].
exists x. split=> //. congr (Ret _). apply: (C88_faithful Sy Sx). by rewrite My Mx Mab Mbt Mat trmx_mul.
Qed.

(** [is_zero] and [is_one] decide being the zero and identity matrix. *)
Theorem C88_is_zero row col m : shape row col m ->
  mat_is_zero (fun x : R => x == 0) row col m = Ret (mx_of row col m == 0).
Proof.
move=> S. destruct (is_zero_ok (fun x : R => x == 0) row col m S) as (r & -> & H). congr (Ret _).
apply/idP/eqP => [Hr|/matrixP E].
- apply/matrixP=> i j. rewrite !mxE. case E: (entry m i j) => [v|] //. by move/H: Hr => /(_ _ _ _ E) /eqP.
- apply/H => i j v Ev.
  case: (Nat.lt_ge_cases i row) => Hi; last by rewrite (entry_out _ _ _ _ _ S) in Ev; auto.
  case: (Nat.lt_ge_cases j col) => Hj; last by rewrite (entry_out _ _ _ _ _ S) in Ev; auto.
  move/ltP in Hi. move/ltP in Hj. have := E (Ordinal Hi) (Ordinal Hj). by rewrite !mxE /= Ev => ->; rewrite eqxx.
Qed.

Theorem C88_is_one n m : shape n n m ->
  mat_is_one (fun x : R => x == 0) (fun x : R => x == 1) n n m = Ret (mx_of n n m == 1%:M).
Proof.
move=> S. destruct (is_one_ok (fun x : R => x == 0) (fun x : R => x == 1) n n m S) as (r & -> & H). congr (Ret _).
have Q (i j : 'I_n) : Nat.eqb i j = (i == j).
  apply/idP/idP => [/Nat.eqb_eq E|/eqP ->]; first by apply/eqP/val_inj.
  exact: Nat.eqb_refl.
apply/idP/eqP => [Hr|/matrixP E].
- apply/matrixP=> i j. rewrite !mxE. have Hi := ltn_ord i. have Hj := ltn_ord j. move/ltP in Hi. move/ltP in Hj.
  have Ev := entry_at 0 _ _ _ _ _ S Hi Hj. rewrite Ev. move/H: Hr => /(_ _ _ _ Ev). rewrite Q.
  by case: (i == j) => /eqP.
- apply/H => i j v Ev.
  case: (Nat.lt_ge_cases i n) => Hi; last by rewrite (entry_out _ _ _ _ _ S) in Ev; auto.
  case: (Nat.lt_ge_cases j n) => Hj; last by rewrite (entry_out _ _ _ _ _ S) in Ev; auto.
  move/ltP in Hi. move/ltP in Hj. have := E (Ordinal Hi) (Ordinal Hj). rewrite !mxE /= Ev => ->.
  have := Q (Ordinal Hi) (Ordinal Hj) => /= ->. by case: (_ == _); rewrite /= eqxx.
Qed.
End Laws.

(** ** C89, C90, C92 over a field *)
Section Field.
Variable F : fieldType.
(** Division is exact away from zero (it may panic on zero), and the ordering used to choose
    pivots is total but otherwise arbitrary. *)
Variables (cmp : F -> F -> option comparison) (div : F -> F -> out F).
Hypothesis div_spec : forall x t : F, t <> 0 -> div x t = Ret (x / t).
Hypothesis cmp_total : forall x y, cmp x y <> None.
Local Notation det n m := (MatrixModel.determinant 1 (fun x y : F => x - y) *%R -%R div (fun x => x == 0) cmp n m).

(** The determinant: always returned, and MathComp's (the Leibniz sum over permutations). *)
Theorem C89_determinant n (m : list (list F)) : shape n n m -> det n m = Ret (\det (mx_of n n m)).
Proof. exact: determinant_ok. Qed.

Theorem C89_leibniz n (m : list (list F)) : shape n n m ->
  det n m = Ret (\sum_(s : 'S_n) (-1) ^+ s * \prod_i mx_of n n m i (s i)).
Proof. exact: determinant_ok. Qed.

(** The determinant is multiplicative, invariant under transposition, and one on the identity. *)
Theorem C89_multiplicative n (a b : list (list F)) : shape n.+1 n.+1 a -> shape n.+1 n.+1 b ->
  exists p x y, mat_mul +%R *%R n.+1 n.+1 n.+1 a b = Ret p /\ det n.+1 a = Ret x /\ det n.+1 b = Ret y /\ det n.+1 p = Ret (x * y).
Proof.
move=> Sa Sb. case: (C88_product Sa Sb) => p [E [Sp Mp]]. exists p, (\det (mx_of n.+1 n.+1 a)), (\det (mx_of n.+1 n.+1 b)).
by rewrite !C89_determinant // Mp det_mulmx.
Qed.

Theorem C89_transpose n (a : list (list F)) : shape n n a -> obind (transpose n a) (fun t => det n t) = det n a.
Proof.
move=> Sa. case: (C88_transpose Sa) => t [-> [St [_ [Mt _]]]]. cbn [StaticIterModel.obind]. by rewrite !C89_determinant // Mt det_tr.
Qed.

(** ** C90: square matrices *)
(** The result is in echelon form and row-equivalent to the input. *)
Theorem C90_square_partial n (m : list (list F)) : shape n n m -> exists m' (P : 'M[F]_n),
  static_row_reduce 1 (fun x y : F => x - y) *%R -%R div (fun x => x == 0) cmp n n m = Ret m' /\ shape n n m' /\
  P \in unitmx /\ mx_of n n m' = P *m mx_of n n m /\ echelon 0 m'.
Proof.
move=> S. destruct (static_gauss_ok div_spec cmp_total S) as (m' & sg & P & E & S' & EP & D & Sg & Ech & _).
exists m', P. rewrite /static_row_reduce E. split=> //. split=> //. split.
  rewrite unitmxE D. by case: Sg => ->; rewrite ?unitr1 ?unitrN1.
split=> // i i' j' v' Hii Ev Nz.
case: (Nat.lt_ge_cases i' n) => Hi; last by rewrite (entry_out _ _ _ _ _ S') in Ev; auto.
case: (Nat.lt_ge_cases j' n) => Hj; last by rewrite (entry_out _ _ _ _ _ S') in Ev; auto.
case: (Ech i i' j') => //; first by rewrite /at_ Ev.
move=> j [Hjj Nz']. exists j, (at_ 0 m' i j). split=> //. split=> //. apply: (entry_at 0 _ _ _ _ _ S'); lia.
Qed.

Theorem C90_dyn_square_partial dbg n (d : dyn F) : dyn_ok n n d -> exists d' (P : 'M[F]_n),
  dyn_row_reduce 1 (fun x y : F => x - y) *%R -%R div (fun x => x == 0) cmp dbg d = Ret d' /\ dyn_ok n n d' /\
  P \in unitmx /\ mxf n n (dyn_at 0 n d') = P *m mxf n n (dyn_at 0 n d) /\
  (forall i i' j', (i < i')%coq_nat -> (i' < n)%coq_nat -> (j' < n)%coq_nat -> dyn_at 0 n d' i' j' <> 0 ->
     exists j, (j < j')%coq_nat /\ dyn_at 0 n d' i j <> 0).
Proof.
move=> S. destruct (dyn_gauss_ok div_spec cmp_total dbg S) as (m' & sg & P & E & S' & EP & D & Sg & Ech & _).
exists m', P. rewrite /dyn_row_reduce E. split=> //. split=> //. split.
  rewrite unitmxE D. by case: Sg => ->; rewrite ?unitr1 ?unitrN1.
split=> // i i' j' Hii Hi Hj. exact: Ech.
Qed.

(** ** C92: the determinant changes sign *)
Theorem C92_determinant n (m : list (list F)) a b : shape n n m -> (a < n)%coq_nat -> (b < n)%coq_nat -> a <> b ->
  exists m' x, swap_rows m a b = Ret m' /\ det n m = Ret x /\ det n m' = Ret (- x).
Proof.
move=> S Ha Hb Nab. destruct (swap_rows_ok n n m a b S Ha Hb) as (m' & E & S' & En).
exists m', (\det (mx_of n n m)). split=> //. rewrite !C89_determinant //. split=> //. congr (Ret _).
move/ltP in Ha. move/ltP in Hb. set oa := Ordinal Ha. set ob := Ordinal Hb.
have -> : mx_of n n m' = tperm_mx oa ob *m mx_of n n m.
  rewrite -row_permE. apply/matrixP=> i j. rewrite !mxE En.
  suff -> : (if Nat.eqb i b then a else if Nat.eqb i a then b else nat_of_ord i) = tperm oa ob i by [].
  case: tpermP => [->|->|Na Nb] /=.
  - rewrite Nat.eqb_refl. by case: (Nat.eqb_spec a b).
  - by rewrite Nat.eqb_refl.
  - case: (Nat.eqb_spec i b) => [Eb|_]; first by case: Nb; apply: val_inj.
    by case: (Nat.eqb_spec i a) => [Ea|//]; case: Na; apply: val_inj.
rewrite det_mulmx det_tperm. by case: eqP => [[/Nab]|_] //; rewrite mulN1r.
Qed.
End Field.

(** ** The hypotheses are met: the rationals *)
Definition rat_div (x y : rat) : out rat := if y == 0 then Pan else Ret (x / y).
Definition rat_cmp (x y : rat) : option comparison := Some (if x == y then Eq else if (x < y)%R then Lt else Gt).
Lemma rat_div_spec (x t : rat) : t <> 0 -> rat_div x t = Ret (x / t).
Proof. by rewrite /rat_div => /eqP /negbTE ->. Qed.
Lemma rat_cmp_total (x y : rat) : rat_cmp x y <> None.
Proof. by []. Qed.
Example C88_demo : shape 2 3 [:: [:: 1; 2; 3]; [:: 4; 5; 6]]%N.
Proof. by do !constructor. Qed.
Example C89_demo : exists x, MatrixModel.determinant 1 (fun x y : rat => x - y) *%R -%R rat_div (fun x => x == 0) rat_cmp 3
  [:: [:: 0; 1; 2%:R]; [:: 1; 1; 1]; [:: 2%:R; 0; 1]]%R = Ret x.
Proof. eexists. apply: (C89_determinant rat_div_spec rat_cmp_total). by do !constructor. Qed.
Example C90_demo_square : exists m', static_row_reduce 1 (fun x y : rat => x - y) *%R -%R rat_div (fun x => x == 0) rat_cmp 2 2
  [:: [:: 0; 1]; [:: 2%:R; 1]]%R = Ret m'.
Proof.
case: (C90_square_partial rat_div_spec rat_cmp_total (m := [:: [:: 0; 1]; [:: 2%:R; 1]]) (n := 2)); first by do !constructor.
by move=> m' [P [E _]]; exists m'.
Qed.

Print Assumptions C88_faithful.
Print Assumptions C88_transpose.
Print Assumptions C88_product.
Print Assumptions C88_empty_inner.
Print Assumptions C88_sum.
Print Assumptions C88_difference.
Print Assumptions C88_one.
Print Assumptions C88_zero.
Print Assumptions C88_associative.
Print Assumptions C88_identity.
Print Assumptions C88_distributive.
Print Assumptions C88_transpose_product.
Print Assumptions C88_is_zero.
Print Assumptions C88_is_one.
Print Assumptions C89_determinant.
Print Assumptions C89_leibniz.
Print Assumptions C89_multiplicative.
Print Assumptions C89_transpose.
Print Assumptions C90_square_partial.
Print Assumptions C90_dyn_square_partial.
Print Assumptions C92_determinant.
