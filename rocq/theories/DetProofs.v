(** Matrices of the model as MathComp matrices; elimination and determinants. *)
From Coq Require Import List Arith Lia.
From Verif Require Import Base StaticIterModel VectorModel CompoundsSpec VectorProofs MatrixModel GaussProofs MatrixProofs PropVector.
Set Warnings "-ambiguous-paths,-notation-overridden".
From mathcomp Require Import all_ssreflect all_fingroup all_algebra.
Set Implicit Arguments. Unset Strict Implicit. Unset Printing Implicit Defensive.
Import GroupScope GRing.Theory.
Local Open Scope ring_scope.
Local Notation shape := CompoundsSpec.shape.
Local Notation obind := StaticIterModel.obind.

Definition mxf (R : Type) (m n : nat) (f : nat -> nat -> R) : 'M[R]_(m, n) := \matrix_(i, j) f i j.

Section Ring.
Variable R : comRingType.

Lemma mxf_ext m n (f g : nat -> nat -> R) :
  (forall i j, (i < m)%coq_nat -> (j < n)%coq_nat -> f i j = g i j) -> mxf m n f = mxf m n g.
Proof. by move=> H; apply/matrixP=> i j; rewrite !mxE H //; apply/ltP. Qed.

Lemma mxf_inj m n (f g : nat -> nat -> R) : mxf m n f = mxf m n g ->
  forall i j, (i < m)%coq_nat -> (j < n)%coq_nat -> f i j = g i j.
Proof.
move=> /matrixP H i j /ltP Hi /ltP Hj; by have := H (Ordinal Hi) (Ordinal Hj); rewrite !mxE.
Qed.

Lemma foldl_sum n (g : nat -> R) (x : R) :
  List.fold_left +%R (List.map g (List.seq 0 n)) x = x + \sum_(i < n) g i.
Proof.
elim: n => [|n IH]; first by rewrite big_ord0 addr0.
by rewrite List.seq_S List.map_app List.fold_left_app IH big_ord_recr addrA.
Qed.

Lemma foldl_prod n (g : nat -> R) :
  List.fold_left *%R (List.map g (List.seq 0 n)) 1 = \prod_(i < n) g i.
Proof.
elim: n => [|n IH]; first by rewrite big_ord0.
by rewrite List.seq_S List.map_app List.fold_left_app IH big_ord_recr.
Qed.


(** ** Products *)
Lemma mat_get_tab row col (a : list (list R)) i j : shape row col a -> (i < row)%coq_nat -> (j < col)%coq_nat ->
  mat_get a i j = Ret (at_ 0 a i j).
Proof. exact: mat_get_at. Qed.

Lemma mul_loop row col col2 (a b : list (list R)) i j (f := fun k => at_ 0 a i k * at_ 0 b k j) :
  shape row col a -> shape col col2 b -> (i < row)%coq_nat -> (j < col2)%coq_nat ->
  forall n k x, (Nat.add k n <= col)%coq_nat ->
  List.fold_left (fun acc k => obind acc (fun acc =>
      obind (mat_get a i k) (fun x => obind (mat_get b k j) (fun y => Ret (acc + x * y)))))
      (List.seq k n) (Ret x) = Ret (List.fold_left +%R (List.map f (List.seq k n)) x).
Proof.
move=> Sa Sb Hi Hj. elim=> [|n IH] k x Hk //=.
rewrite (@mat_get_tab row col a i k) //; last by lia.
rewrite (@mat_get_tab col col2 b k j) //=; last by lia.
by rewrite IH //; lia.
Qed.

Lemma mat_mul_ok row col col2 (a b : list (list R)) : shape row col.+1 a -> shape col.+1 col2 b ->
  mat_mul +%R *%R row col.+1 col2 a b =
  Ret (tabulate row col2 (fun i j => \sum_(k < col.+1) at_ 0 a i k * at_ 0 b k j)).
Proof.
move=> Sa Sb. rewrite /mat_mul /tabulate.
apply: from_fn_ok => i Hi. apply: from_fn_ok => j Hj.
rewrite (@mat_get_tab row col.+1 a i 0) //; last by lia.
rewrite (@mat_get_tab col.+1 col2 b 0 j) //=; last by lia.
rewrite (mul_loop Sa Sb) //; last by lia.
congr Ret. rewrite ?PeanoNat.Nat.sub_0_r.
rewrite big_ord_recl /=. rewrite -List.seq_shift List.map_map.
by rewrite foldl_sum.
Qed.

Lemma mxf_tab m n (g : nat -> nat -> R) : mxf m n (at_ 0 (tabulate m n g)) = mxf m n g.
Proof. by apply: mxf_ext => i j Hi Hj; rewrite tabulate_at. Qed.

Lemma mx_eq m n (a b : list (list R)) : shape m n a -> shape m n b ->
  mxf m n (at_ 0 a) = mxf m n (at_ 0 b) -> a = b.
Proof.
move=> Sa Sb E. rewrite -(tabulate_self 0 _ _ _ Sa) -(tabulate_self 0 _ _ _ Sb). apply: tabulate_ext => i j Hi Hj.
exact: (mxf_inj E).
Qed.

End Ring.

Section Elim.
Variable F : fieldType.
Variable n : nat.
Let quo (x y : F) : F := x / y.

Lemma swapped_mx (f : nat -> nat -> F) (s r : 'I_n) :
  mxf n n (swapped f s r) = tperm_mx s r *m mxf n n f.
Proof.
rewrite -row_permE. apply/matrixP=> i j. rewrite !mxE /swapped.
congr (f _ _). case: tpermP => [->|->|/eqP Hs /eqP Hr].
- by case: (Nat.eqb_spec s r) => [<-|_] //; rewrite Nat.eqb_refl.
- by rewrite Nat.eqb_refl.
- case: Nat.eqb_spec => [/val_inj E|_]; first by rewrite E eqxx in Hr.
  by case: Nat.eqb_spec => [/val_inj E|_] //; rewrite E eqxx in Hs.
Qed.

Lemma det_tperm (s r : 'I_n) : \det (tperm_mx s r : 'M[F]_n) = if s == r then 1 else -1.
Proof. by rewrite /tperm_mx det_perm odd_tperm; case: eqP => _ /=; rewrite ?expr0 ?expr1. Qed.

Definition lower (g : nat -> nat -> F) (row : 'I_n) (col : nat) : 'M[F]_n :=
  \matrix_(i, j) ((i == j)%:R - (if (row < i)%N && (j == row) then quo (g i col) (g row col) else 0)).

Lemma det_lower g row col : \det (lower g row col) = 1.
Proof.
rewrite det_trig.
- rewrite (eq_bigr (fun=> 1)) ?big1_eq // => i _. rewrite mxE eqxx.
  case: ifP => [/andP [H /eqP E]|_]; last by rewrite subr0.
  by rewrite -E ltnn in H.
- apply/is_trig_mxP => i j Hij. rewrite mxE. have -> : (i == j) = false by apply/negbTE; rewrite neq_ltn Hij.
  case: ifP => [/andP [H /eqP E]|_]; last by rewrite subrr.
  by rewrite E in Hij; have := ltn_trans H Hij; rewrite ltnn.
Qed.

Lemma reduced_mx (g : nat -> nat -> F) (row : 'I_n) col :
  (forall j, (j < col)%coq_nat -> g row j = 0) ->
  mxf n n (reduced (fun x y : F => x - y) *%R quo g row col) = lower g row col *m mxf n n g.
Proof.
move=> Hz. apply/matrixP=> i j. rewrite !mxE.
rewrite (eq_bigr (fun k : 'I_n => (if k == i then g k j else 0) - (if k == row then (if (row < i)%N then quo (g i col) (g row col) * g k j else 0) else 0))); last first.
  move=> k _. rewrite !mxE mulrBl [i == k]eq_sym. congr (_ - _).
  - by case: (k == i); rewrite ?mul1r ?mul0r.
  - by case: (row < i)%N => /=; case: (k == row); rewrite ?mul0r.
rewrite sumrB -!big_mkcond /= !big_pred1_eq /reduced.
case: (Nat.ltb_spec row i) => [/ltP H|/leP H] /=; last by rewrite ltnNge H /= subr0.
rewrite H. case: (Nat.leb_spec col j) => [_|Hj]; first by rewrite mulrC.
by rewrite (Hz j Hj) mulr0 subr0.
Qed.

Variables (M : Type) (cmp : F -> F -> option comparison) (div : F -> F -> out F).
Variables (get : M -> nat -> nat -> out F) (set : M -> nat -> nat -> F -> out M) (swap : M -> nat -> nat -> out M).
Variables (ok : M -> Prop) (at0 : M -> nat -> nat -> F).
Hypothesis div_spec : forall x t : F, t <> 0 -> div x t = Ret (x / t).
Hypothesis cmp_total : forall x y, cmp x y <> None.
Hypothesis get_ok : forall m i j, ok m -> (i < n)%coq_nat -> (j < n)%coq_nat -> get m i j = Ret (at0 m i j).
Hypothesis set_ok : forall m i j v, ok m -> (i < n)%coq_nat -> (j < n)%coq_nat -> exists m', set m i j v = Ret m' /\ ok m' /\
  forall a b, (a < n)%coq_nat -> (b < n)%coq_nat -> at0 m' a b = if Nat.eqb a i && Nat.eqb b j then v else at0 m a b.
Hypothesis swap_ok : forall m s r, ok m -> (s < n)%coq_nat -> (r < n)%coq_nat -> s <> r -> exists m', swap m s r = Ret m' /\ ok m' /\
  forall a b, (a < n)%coq_nat -> (b < n)%coq_nat -> at0 m' a b = at0 m (if Nat.eqb a r then s else if Nat.eqb a s then r else a) b.

Lemma gauss_mx m : ok m -> exists m' sign (P : 'M[F]_n),
  gauss_elim 1 (fun x y : F => x - y) *%R -%R div (fun x => x == 0) cmp get set swap n n m = Ret (m', sign) /\ ok m' /\
  mxf n n (at0 m') = P *m mxf n n (at0 m) /\ \det P = sign /\ (sign = 1 \/ sign = -1) /\
  (forall i i' j', (i < i')%coq_nat /\ (i' < n)%coq_nat -> (j' < n)%coq_nat -> at0 m' i' j' <> 0 -> exists j, (j < j')%coq_nat /\ at0 m' i j <> 0) /\
  (forall i j, (j < i)%coq_nat /\ (i < n)%coq_nat -> at0 m' i j = 0).
Proof.
move=> Hm.
have Z : forall x : F, (x == 0) = true <-> x = 0 by move=> x; split=> [/eqP|-> //]; rewrite ?eqxx.
have C : forall x t : F, t <> 0 -> x - t * quo x t = 0.
  by move=> x t Ht; rewrite /quo mulrC mulfVK ?subrr //; apply/eqP.
have S0 : forall x k : F, x - 0 * k = x by move=> x k; rewrite mul0r subr0.
destruct (
  @gauss_elim_spec F M 0 1 (fun x y : F => x - y) *%R -%R div quo (fun x => x == 0) cmp get set swap n ok at0
   Z div_spec C S0 cmp_total get_ok set_ok swap_ok m Hm
   (fun f sign => exists P : 'M[F]_n, mxf n n f = P *m mxf n n (at0 m) /\ \det P = sign /\ (sign = 1 \/ sign = -1))) as (m' & sign & row & E & Hm' & (P & H1 & H2 & H3) & _ & Hp).
- by exists 1%:M; rewrite mul1mx det1; auto.
- move=> f f' sign row col s [P [HP [HD HS]]] Hs Hr Hc Nz Hz Hf'.
  have Ls : (s < n)%N by apply/ltP; lia. have Lr : (row < n)%N by apply/ltP.
  exists (lower (swapped f s row) (Ordinal Lr) col *m tperm_mx (Ordinal Ls) (Ordinal Lr) *m P). split; [|split].
  + rewrite -!mulmxA -HP -swapped_mx -reduced_mx /=; last first.
      by move=> j Hj; rewrite /swapped Nat.eqb_refl Hz //; lia.
    by apply: mxf_ext.
  + rewrite !det_mulmx det_lower det_tperm mul1r HD.
    case: Nat.eqb_spec => [E|E]; first by rewrite (_ : _ == _) ?mul1r // -val_eqE /= E.
    by rewrite (_ : (_ == _) = false) ?mulN1r //; apply/negbTE; rewrite -val_eqE /=; apply/eqP.
  + case: Nat.eqb_spec => // _; case: HS => ->; rewrite ?opprK; auto.
- exists m', sign, P. split=> //. split=> //. split=> //. split=> //. split=> //.
  destruct (echelon_final _ _ _ _ Hp) as [G1 G2]; split; [exact G1|exact G2].
Qed.
End Elim.

Section Determinant.
Variable F : fieldType.
Variables (cmp : F -> F -> option comparison) (div : F -> F -> out F).
Hypothesis div_spec : forall x t : F, t <> 0 -> div x t = Ret (x / t).
Hypothesis cmp_total : forall x y, cmp x y <> None.
Let is0 (x : F) := x == 0.
Let subF (x y : F) := x - y.

Lemma det2 (f : nat -> nat -> F) : \det (mxf 2 2 f) = f 0%N 0%N * f 1%N 1%N - f 1%N 0%N * f 0%N 1%N.
Proof.
rewrite (expand_det_row _ 0) !big_ord_recl big_ord0 addr0 /cofactor !det_mx11 !mxE /=.
by rewrite /bump /= expr0 expr1 mul1r mulN1r mulrN [f 0%N 1%N * _]mulrC.
Qed.

Lemma static_gauss_ok n (m : list (list F)) : shape n n m -> exists m' sign (P : 'M[F]_n),
  static_gauss 1 subF *%R -%R div is0 cmp n n m = Ret (m', sign) /\ shape n n m' /\
  mxf n n (at_ 0 m') = P *m mxf n n (at_ 0 m) /\ \det P = sign /\ (sign = 1 \/ sign = -1) /\
  (forall i i' j', (i < i')%coq_nat /\ (i' < n)%coq_nat -> (j' < n)%coq_nat -> at_ 0 m' i' j' <> 0 ->
     exists j, (j < j')%coq_nat /\ at_ 0 m' i j <> 0) /\
  (forall i j, (j < i)%coq_nat /\ (i < n)%coq_nat -> at_ 0 m' i j = 0).
Proof.
move=> S. apply: (@gauss_mx F n _ cmp div mat_get mat_set (@swap_rows F) (@shape F n n) (at_ 0)) => //.
- exact: static_get_ok.
- exact: static_set_ok.
- exact: static_swap_ok.
Qed.

Lemma determinant_ok n (m : list (list F)) : shape n n m ->
  MatrixModel.determinant 1 subF *%R -%R div is0 cmp n m = Ret (\det (mxf n n (at_ 0 m))).
Proof.
move=> S.
have G : obind (static_gauss 1 subF *%R -%R div is0 cmp n n m) (fun '(reduced, factor) =>
         obind (diag n reduced) (fun d =>
         obind (vec_product 1 (fun x y => Ret (x * y)) n d) (fun p => div p factor))) = Ret (\det (mxf n n (at_ 0 m))).
  have [m' [sign [P [E [S' [H1 [H2 [H3 [_ H5]]]]]]]]] := static_gauss_ok S.
  rewrite E /= /diag.
  rewrite (@from_fn_ok F n _ (fun i => at_ 0 m' i i)) /=; last by move=> i Hi; apply: (@mat_get_at _ 0 n n).
  rewrite (proj2 (C86_sum_product F 0 1 +%R *%R n _ _)) /=; last by rewrite List.map_length List.seq_length.
  rewrite /sum_of foldl_prod.
  have Ns : sign <> 0.
    by case: H3 => -> /eqP; rewrite ?oppr_eq0 oner_eq0.
  rewrite div_spec //. congr Ret.
  have -> : \prod_(i < n) at_ 0 m' i i = \det (mxf n n (at_ 0 m')).
    rewrite -det_tr det_trig.
    - by apply: eq_bigr => i _; rewrite !mxE.
    - by apply/is_trig_mxP => i j /ltP Hij; rewrite !mxE H5 //; split=> //; apply/ltP.
  rewrite H1 det_mulmx H2 mulrAC mulfV ?mul1r //. exact/eqP.
case: n S G => [|[|[|n]]] S G //.
- rewrite /= (@mat_get_at _ 0 1 1) //; try lia. by rewrite det_mx11 mxE.
- rewrite /= !(@mat_get_at _ 0 2 2) //; try lia. by rewrite /= det2.
Qed.

Lemma dyn_gauss_ok dbg n (d : dyn F) : dyn_ok n n d -> exists d' sign (P : 'M[F]_n),
  dyn_gauss 1 subF *%R -%R div is0 cmp dbg d = Ret (d', sign) /\ dyn_ok n n d' /\
  mxf n n (dyn_at 0 n d') = P *m mxf n n (dyn_at 0 n d) /\ \det P = sign /\ (sign = 1 \/ sign = -1) /\
  (forall i i' j', (i < i')%coq_nat /\ (i' < n)%coq_nat -> (j' < n)%coq_nat -> dyn_at 0 n d' i' j' <> 0 ->
     exists j, (j < j')%coq_nat /\ dyn_at 0 n d' i j <> 0) /\
  (forall i j, (j < i)%coq_nat /\ (i < n)%coq_nat -> dyn_at 0 n d' i j = 0).
Proof.
move=> O. rewrite /dyn_gauss. have [-> [-> _]] := O. rewrite Znat.Nat2Z.id.
apply: (@gauss_mx F n _ cmp div _ _ _ (@dyn_ok F n n) (dyn_at 0 n)) => //.
- exact: dyn_get_ok.
- exact: dyn_set_ok.
- exact: dyn_swap_ok.
Qed.
End Determinant.
