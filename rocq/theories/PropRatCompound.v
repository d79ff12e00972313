(** C156: vectors, matrices and complex numbers of rationals. *)
From Coq Require Import ZArith QArith Qround Qabs List Bool Lia.
From Verif Require Import RatModel RatExprModel Base Words Spec Arith BitSliceModel BitSliceProofs PrimModel PrimProofs PropPrim
  FixedModel RealSpec RealProofs RatProofs PropReals PropReals3 PropReals5 PropRatExpr StaticIterModel StaticIterSpec StaticIterProofs CompoundsSpec
  VectorModel VectorProofs MatrixModel MatrixProofs CompoundIntModel RatCompoundModel.
Import ListNotations.
Local Open Scope Z_scope.

(** ** What is claimed of a result *)

(** The rational [q], or a panic. *)
Definition exact (t : ity) (q : Q) (r : out rat) : Prop :=
  r = Pan \/ exists v, r = Ret v /\ rat_ok t v /\ (rat_val v == q)%Q.

(** Sums and products of rationals. *)
Fixpoint qsum (l : list Q) : Q := match l with [] => 0 | x :: l' => x + qsum l' end%Q.
Fixpoint qproduct (l : list Q) : Q := match l with [] => 1 | x :: l' => x * qproduct l' end%Q.
Fixpoint qdot (a b : list Q) : Q := match a, b with x :: a', y :: b' => x * y + qdot a' b' | _, _ => 0 end%Q.

(** Row [i] and column [j] of a matrix. *)
Definition row_of (m : list (list rat)) (i : nat) : list rat := nth i m [].
Definition column_of (m : list (list rat)) (j : nat) : list rat := map (fun r => nth j r rat_zero) m.

(** ** One operation *)

Section Ops.
Context (fuel : nat) (t : ity) (S : setting t fuel).

Lemma of_res_cases {A} (r : res A) : of_res r = Pan \/ exists v, r = Ok v /\ of_res r = Ret v.
Proof. destruct r; cbn; eauto. Qed.

Lemma add_exact x y : rat_ok t x -> rat_ok t y -> exact t (rat_val x + rat_val y) (rq_add true fuel t x y).
Proof. intros Ox Oy. unfold rq_add. destruct (of_res_cases (rat_add true fuel t x y)) as [->|(v & E & ->)]; [left; auto|].
  right. exists v. split; auto. apply (C79_checked_exact fuel t x y v S Ox Oy). auto. Qed.
Lemma sub_exact x y : rat_ok t x -> rat_ok t y -> exact t (rat_val x - rat_val y) (rq_sub true fuel t x y).
Proof. intros Ox Oy. unfold rq_sub. destruct (of_res_cases (rat_sub true fuel t x y)) as [->|(v & E & ->)]; [left; auto|].
  right. exists v. split; auto. apply (C79_checked_exact fuel t x y v S Ox Oy). auto. Qed.
Lemma mul_exact x y : rat_ok t x -> rat_ok t y -> exact t (rat_val x * rat_val y) (rq_mul true fuel t x y).
Proof. intros Ox Oy. unfold rq_mul. destruct (of_res_cases (rat_mul true fuel t x y)) as [->|(v & E & ->)]; [left; auto|].
  right. exists v. split; auto. apply (C79_checked_exact fuel t x y v S Ox Oy). auto. Qed.
Lemma div_exact x y : rat_ok t x -> rat_ok t y ->
  rq_div true fuel t x y = Pan \/ ~ (rat_val y == 0)%Q /\ exact t (rat_val x / rat_val y) (rq_div true fuel t x y).
Proof. intros Ox Oy. unfold rq_div. destruct (of_res_cases (rat_div true fuel t x y)) as [->|(v & E & ->)]; [left; auto|].
  right. destruct (C79_checked_exact fuel t x y v S Ox Oy) as (_ & _ & _ & H & _). destruct (H E) as (O & N & V).
  split; auto. right. exists v. auto. Qed.

Lemma exact_eq q q' r : exact t q r -> (q == q')%Q -> exact t q' r.
Proof. intros [H|(v & E & O & V)] Q; [left; auto|right]. exists v. repeat split; auto; try apply O. rewrite V. auto. Qed.

End Ops.
Arguments exact_eq {t q q' r}.

(** ** Vectors, with overflow checks *)

Section Checked.
Context (fuel : nat) (t : ity) (S : setting t fuel).

Lemma ofold_exact (op : rat -> rat -> out rat) (qop : Q -> Q -> Q) :
  (forall x y, rat_ok t x -> rat_ok t y -> exact t (qop (rat_val x) (rat_val y)) (op x y)) ->
  (forall x x' y, (x == x')%Q -> (qop x y == qop x' y)%Q) ->
  forall l s q, Forall (rat_ok t) l -> rat_ok t s -> (rat_val s == q)%Q -> exact t (fold_left qop (map rat_val l) q) (ofold op l s).
Proof.
  intros H P. induction l as [|x l IH]; intros s q F Os V; cbn [ofold map fold_left].
  - right. exists s. auto.
  - inversion F; subst. destruct (H s x) as [->|(v & -> & Ov & Vv)]; auto; [left; auto|]. cbn [obind]. apply IH; auto.
    rewrite Vv. apply P. auto.
Qed.

Lemma fold_value {A R} (f : R -> A -> out R) n a l s : items n 0 a l -> value (it_fold n a s f) = ofold f l s.
Proof.
  intros H. pose proof (items_length _ _ _ _ _ H) as L. rewrite Nat.sub_0_r in L. unfold it_fold, value.
  destruct (fold_items f n l 0 a s H) as [(a' & s' & E1 & E2)|[[E1 E2]|[E1 E2]]]; [lia| | |]; rewrite L in E1; rewrite E1, E2; reflexivity.
Qed.

Lemma fold_qsum l : forall q, (fold_left Qplus l q == q + qsum l)%Q.
Proof. induction l as [|x l IH]; intros q; cbn [fold_left qsum]; [ring|]. rewrite IH. ring. Qed.
Lemma fold_qproduct l : forall q, (fold_left Qmult l q == q * qproduct l)%Q.
Proof. induction l as [|x l IH]; intros q; cbn [fold_left qproduct]; [ring|]. rewrite IH. ring. Qed.

Lemma zero_ok : rat_ok t rat_zero /\ rat_ok t rat_one.
Proof.
  destruct S as (_ & F & _). unfold rat_ok, fits in *. cbn [num denom rat_zero rat_one].
  assert (imin t <= 0) by (unfold imin; destruct (isigned t); [|lia]; pose proof (Z.pow_nonneg 2 (Z.of_nat (ibits t) - 1)); lia). lia.
Qed.

Lemma zip_fold_exact : forall a b s q, Forall (rat_ok t) a -> Forall (rat_ok t) b -> rat_ok t s -> (rat_val s == q)%Q ->
  exact t (q + qdot (map rat_val a) (map rat_val b)) (zip_fold (rq_add true fuel t) (rq_mul true fuel t) a b s).
Proof.
  induction a as [|x a IH]; intros b s q Fa Fb Os V.
  - cbn. right. exists s. repeat split; try apply Os. rewrite V. ring.
  - destruct b as [|y b]; [cbn; right; exists s; repeat split; try apply Os; rewrite V; ring|].
    inversion Fa; inversion Fb; subst. cbn [zip_fold map qdot].
    destruct (mul_exact fuel t S x y) as [->|(p & -> & Op & Vp)]; auto; [left; auto|]. cbn [obind].
    destruct (add_exact fuel t S s p) as [->|(z & -> & Oz & Vz)]; auto; [left; auto|]. cbn [obind].
    eapply exact_eq; [apply (IH b z (rat_val z)); auto; reflexivity|]. rewrite Vz, Vp, V. ring.
Qed.
End Checked.

Theorem C156_folds_checked : forall fuel t n a b, setting t fuel -> Forall (rat_ok t) a -> Forall (rat_ok t) b ->
  length a = n ->
  exact t (qsum (map rat_val a)) (rv_sum true fuel t n a) /\
  exact t (qproduct (map rat_val a)) (rv_product true fuel t n a) /\
  exact t (qdot (map rat_val a) (map rat_val b)) (rv_dot true fuel t a b).
Proof.
  intros fuel t n a b S Fa Fb L. pose proof (zero_ok fuel t S) as [Oz Oo]. split; [|split].
  - unfold rv_sum, vec_sum, it_sum. rewrite (fold_value _ n _ a) by (apply into_items; auto).
    eapply exact_eq; [apply (ofold_exact t _ Qplus) with (q := 0%Q)|rewrite fold_qsum; ring]; auto.
    + intros. apply add_exact; auto.
    + intros x x' y E. rewrite E. reflexivity.
    + reflexivity.
  - unfold rv_product, vec_product, it_product. rewrite (fold_value _ n _ a) by (apply into_items; auto).
    eapply exact_eq; [apply (ofold_exact t _ Qmult) with (q := 1%Q)|rewrite fold_qproduct; ring]; auto.
    + intros. apply mul_exact; auto.
    + intros x x' y E. rewrite E. reflexivity.
    + reflexivity.
  - unfold rv_dot, dot_product. eapply exact_eq; [apply (zip_fold_exact fuel t S a b rat_zero 0%Q); auto; reflexivity|]. ring.
Qed.
Print Assumptions C156_folds_checked.

(** ** Element by element *)

(** Every element is the exact result, or a panic. *)
Definition elementwise (t : ity) (qop : Q -> Q -> Q) (a b : list rat) (r : out (list rat)) : Prop :=
  r = Pan \/ exists c, r = Ret c /\ Forall3 (fun x y z => rat_ok t z /\ (rat_val z == qop (rat_val x) (rat_val y))%Q) a b c.

Lemma vec_op_cases {A B O} (op : A -> B -> out O) (PA : A -> Prop) (PB : B -> Prop) (R : A -> B -> O -> Prop) :
  (forall x y, PA x -> PB y -> op x y = Pan \/ exists z, op x y = Ret z /\ R x y z) ->
  forall n a b, length a = n -> length b = n -> Forall PA a -> Forall PB b ->
  vec_op op n a b = Pan /\ vec_op_ref op n a b = Pan \/
  exists c, vec_op op n a b = Ret c /\ vec_op_ref op n a b = Ret c /\ Forall3 R a b c.
Proof.
  intros H n a b La Lb Fa Fb.
  assert (breaks (on_pair op) tt (combine a b) \/
    exists c, Forall3 (fun x y z => op x y = Ret z) a b c /\ Forall3 R a b c) as [Br|(c & F & G)].
  - rewrite <- Lb in La. clear Lb n. revert b La Fb. induction Fa as [|x a Px Fa IH]; intros [|y b] L Fb; try discriminate.
    + right. exists []. split; constructor.
    + inversion Fb; subst. destruct (H x y) as [E|(z & E & Rz)]; auto; [left; apply breaks_here; cbn; rewrite E; auto|].
      destruct (IH b) as [K|(c & F & G)]; auto; [left; eapply breaks_later; [cbn; rewrite E; reflexivity|exact K]|].
      right. exists (z :: c). split; constructor; auto.
  - left. assert (length (combine a b) = n) as L by (rewrite combine_length; lia).
    split; unfold vec_op, vec_op_ref, collect_array, array_from_static_iter, it_map; rewrite <- L at 1;
      erewrite collect_map_pan with (n := n); eauto; cbn [items it_zip]; exists a, b; auto using into_items, ref_items.
  - right. exists c. split; [|split; auto]; [apply vec_op_ret|apply vec_op_ref_ret]; auto.
Qed.

Lemma array_map_cases {A O} (f : A -> out O) (P : A -> Prop) (R : A -> O -> Prop) :
  (forall x, P x -> f x = Pan \/ exists z, f x = Ret z /\ R x z) ->
  forall a, Forall P a -> array_map f a = Pan \/ exists c, array_map f a = Ret c /\ Forall2 R a c.
Proof.
  intros H. induction 1 as [|x a Px F IH]; cbn [array_map]; [right; exists []; auto|].
  destruct (H x Px) as [->|(z & -> & Rz)]; [left; auto|]. cbn [obind]. destruct IH as [->|(c & -> & G)]; [left; auto|].
  right. exists (z :: c). auto.
Qed.

(** The operators by element between vectors, between a vector and a scalar, and between matrices. *)
Definition rat_ops (dbg : bool) (fuel : nat) (t : ity) : list ((rat -> rat -> out rat) * (Q -> Q -> Q)) :=
  [(rq_add dbg fuel t, Qplus); (rq_sub dbg fuel t, Qminus); (rq_mul dbg fuel t, Qmult); (rq_div dbg fuel t, Qdiv)].

Lemma ops_exact fuel t op qop x y : setting t fuel -> In (op, qop) (rat_ops true fuel t) -> rat_ok t x -> rat_ok t y ->
  exact t (qop (rat_val x) (rat_val y)) (op x y).
Proof.
  intros S [E|[E|[E|[E|[]]]]] Ox Oy; injection E as <- <-.
  - apply add_exact; auto.
  - apply sub_exact; auto.
  - apply mul_exact; auto.
  - destruct (div_exact fuel t S x y Ox Oy) as [H|[_ H]]; [left|]; auto.
Qed.

Theorem C156_elementwise_checked : forall fuel t op qop n a b s, setting t fuel -> In (op, qop) (rat_ops true fuel t) ->
  length a = n -> length b = n -> Forall (rat_ok t) a -> Forall (rat_ok t) b -> rat_ok t s ->
  elementwise t qop a b (rv_op op n a b) /\ elementwise t qop a (repeat s n) (rv_scalar op a s).
Proof.
  intros fuel t op qop n a b s S I La Lb Fa Fb Os. pose proof (ops_exact fuel t op qop) as X. split.
  - destruct (vec_op_cases op (rat_ok t) (rat_ok t) (fun x y z => rat_ok t z /\ (rat_val z == qop (rat_val x) (rat_val y))%Q)) with (n := n) (a := a) (b := b)
      as [[H _]|(c & H & _ & G)]; auto; [intros x y Ox Oy; apply X; auto|left|right; exists c]; auto.
  - destruct (array_map_cases (fun x => op x s) (rat_ok t) (fun x z => rat_ok t z /\ (rat_val z == qop (rat_val x) (rat_val s))%Q)) with (a := a)
      as [H|(c & H & G)]; auto; [intros x Ox; apply X; auto|left; auto|right; exists c]. split; auto. rewrite <- La.
    clear - G. induction G; cbn; constructor; auto.
Qed.
Print Assumptions C156_elementwise_checked.

Theorem C156_matrix_elementwise_checked : forall fuel t op qop row col a b, setting t fuel -> In (op, qop) (rat_ops true fuel t) ->
  shape row col a -> shape row col b -> Forall (Forall (rat_ok t)) a -> Forall (Forall (rat_ok t)) b ->
  mat_op op row col a b = Pan \/
  exists c, mat_op op row col a b = Ret c /\
    Forall3 (Forall3 (fun x y z => rat_ok t z /\ (rat_val z == qop (rat_val x) (rat_val y))%Q)) a b c.
Proof.
  intros fuel t op qop row col a b S I [La Sa] [Lb Sb] Fa Fb. pose proof (ops_exact fuel t op qop) as X.
  assert (forall m, Forall (fun r : list rat => length r = col) m -> Forall (Forall (rat_ok t)) m ->
    Forall (fun r => length r = col /\ Forall (rat_ok t) r) m) as K.
  { intros m H1 H2. rewrite Forall_forall in *. auto. }
  change (mat_op op row col a b) with (vec_op (vec_op op col) row a b).
  destruct (vec_op_cases (vec_op op col) (fun r => length r = col /\ Forall (rat_ok t) r) (fun r => length r = col /\ Forall (rat_ok t) r)
    (Forall3 (fun x y z => rat_ok t z /\ (rat_val z == qop (rat_val x) (rat_val y))%Q))) with (n := row) (a := a) (b := b)
    as [[H _]|(c & H & _ & G)]; auto; [|right; exists c; auto].
  intros x y [Lx Fx] [Ly Fy].
  destruct (vec_op_cases op (rat_ok t) (rat_ok t) (fun x y z => rat_ok t z /\ (rat_val z == qop (rat_val x) (rat_val y))%Q)) with (n := col) (a := x) (b := y)
    as [[H _]|(c & H & _ & G)]; auto; [intros; apply X; auto|right; exists c; auto].
Qed.
Print Assumptions C156_matrix_elementwise_checked.

(** ** Matrix products *)

Section Entry.
Context (add mul : rat -> rat -> out rat).

Definition entryf (col : nat) (a b : list (list rat)) (i j : nat) : out rat :=
  obind (mat_get a i 0) (fun x => obind (mat_get b 0 j) (fun y =>
    fold_left (fun acc k => obind acc (fun acc =>
      obind (mat_get a i k) (fun x => obind (mat_get b k j) (fun y => obind (mul x y) (fun p => add acc p)))))
      (seq 1 (col - 1)) (mul x y))).

Lemma fold_pan {A X} (f : A -> X -> out A) l : fold_left (fun acc k => obind acc (fun acc => f acc k)) l Pan = Pan.
Proof. induction l; cbn; auto. Qed.
Lemma fold_ub {A X} (f : A -> X -> out A) l : fold_left (fun acc k => obind acc (fun acc => f acc k)) l UB = UB.
Proof. induction l; cbn; auto. Qed.

Lemma at_row row col (a : list (list rat)) i k : shape row col a -> (i < row)%nat -> (k < col)%nat ->
  at_ rat_zero a i k = nth k (row_of a i) rat_zero.
Proof.
  intros S Hi Hk. destruct (shape_row row col a i S Hi) as (r & E & L). unfold at_, entry, row_of. rewrite E.
  rewrite (nth_error_nth a i [] E). destruct (nth_error r k) eqn:Er; [erewrite nth_error_nth by exact Er; auto|].
  apply nth_error_None in Er. lia.
Qed.
Lemma at_column row col (a : list (list rat)) k j : shape row col a -> (k < row)%nat -> (j < col)%nat ->
  at_ rat_zero a k j = nth k (column_of a j) rat_zero.
Proof.
  intros S Hk Hj. destruct (shape_row row col a k S Hk) as (r & E & L). unfold at_, entry, column_of. rewrite E.
  rewrite (nth_error_nth (map (fun r => nth j r rat_zero) a) k rat_zero (x := nth j r rat_zero)) by (rewrite nth_error_map, E; reflexivity).
  destruct (nth_error r j) eqn:Er; [erewrite nth_error_nth by exact Er; auto|]. apply nth_error_None in Er. lia.
Qed.

Lemma skipn_nth (l : list rat) k : (k < length l)%nat -> skipn k l = nth k l rat_zero :: skipn (S k) l.
Proof.
  revert k. induction l as [|x l IH]; intros [|k] H; cbn in *; try lia; auto. rewrite IH by lia. reflexivity.
Qed.

Lemma entry_zip row col col2 a b i j : shape row col a -> shape col col2 b -> (i < row)%nat -> (j < col2)%nat -> (0 < col)%nat ->
  length (row_of a i) = col /\ length (column_of b j) = col /\
  entryf col a b i j = obind (mul (nth 0 (row_of a i) rat_zero) (nth 0 (column_of b j) rat_zero))
    (zip_fold add mul (skipn 1 (row_of a i)) (skipn 1 (column_of b j))).
Proof.
  intros Sa Sb Hi Hj Hc.
  assert (length (row_of a i) = col) as Lr. { destruct (shape_row row col a i Sa Hi) as (r & E & L). unfold row_of. rewrite (nth_error_nth a i [] E). auto. }
  assert (length (column_of b j) = col) as Lc. { unfold column_of. rewrite map_length. apply Sb. }
  split; [|split]; auto. unfold entryf.
  rewrite (mat_get_at rat_zero row col a i 0 Sa Hi Hc), (mat_get_at rat_zero col col2 b 0 j Sb Hc Hj). cbn [obind].
  rewrite (at_row row col), (at_column col col2) by auto.
  assert (forall n s acc, (s + n = col)%nat -> fold_left (fun acc k => obind acc (fun acc =>
      obind (mat_get a i k) (fun x => obind (mat_get b k j) (fun y => obind (mul x y) (fun p => add acc p)))))
      (seq s n) (Ret acc) = zip_fold add mul (skipn s (row_of a i)) (skipn s (column_of b j)) acc) as G.
  { induction n as [|n IH]; intros s acc E.
    - cbn [seq fold_left]. rewrite !skipn_all2 by lia. reflexivity.
    - cbn [seq fold_left]. cbn [obind]. rewrite (mat_get_at rat_zero row col a i s Sa Hi), (mat_get_at rat_zero col col2 b s j Sb) by lia. cbn [obind].
      rewrite (at_row row col), (at_column col col2) by (auto; lia).
      rewrite (skipn_nth (row_of a i) s), (skipn_nth (column_of b j) s) by lia. cbn [zip_fold].
      destruct (mul (nth s (row_of a i) rat_zero) (nth s (column_of b j) rat_zero)) as [p| |]; cbn [obind];
        [|apply (fold_pan (fun acc k => obind (mat_get a i k) (fun x => obind (mat_get b k j) (fun y => obind (mul x y) (fun p => add acc p)))))
         |apply (fold_ub (fun acc k => obind (mat_get a i k) (fun x => obind (mat_get b k j) (fun y => obind (mul x y) (fun p => add acc p)))))].
      destruct (add acc p) as [z| |]; cbn [obind];
        [|apply (fold_pan (fun acc k => obind (mat_get a i k) (fun x => obind (mat_get b k j) (fun y => obind (mul x y) (fun p => add acc p)))))
         |apply (fold_ub (fun acc k => obind (mat_get a i k) (fun x => obind (mat_get b k j) (fun y => obind (mul x y) (fun p => add acc p)))))].
      apply IH. lia. }
  destruct (mul (nth 0 (row_of a i) rat_zero) (nth 0 (column_of b j) rat_zero)) as [p| |]; cbn [obind];
    [apply G; lia|apply (fold_pan (fun acc k => obind (mat_get a i k) (fun x => obind (mat_get b k j) (fun y => obind (mul x y) (fun p => add acc p)))))
         |apply (fold_ub (fun acc k => obind (mat_get a i k) (fun x => obind (mat_get b k j) (fun y => obind (mul x y) (fun p => add acc p)))))].
Qed.
End Entry.

Lemma from_fn_cases {T} n (f : nat -> out T) (R : nat -> T -> Prop) : (forall i, (i < n)%nat -> f i = Pan \/ exists z, f i = Ret z /\ R i z) ->
  from_fn n f = Pan \/ exists l, from_fn n f = Ret l /\ length l = n /\ forall i z, nth_error l i = Some z -> R i z.
Proof.
  intros H. unfold from_fn. destruct (array_map_cases f (fun i => (i < n)%nat) R H (seq 0 n)) as [E|(l & E & F)]; auto.
  - apply Forall_forall. intros i I. apply in_seq in I. lia.
  - right. exists l. split; auto. assert (n = length l) as L by (rewrite <- (seq_length n 0); clear - F; induction F; cbn; auto). split; auto. intros i z E'.
    assert (i < n)%nat as Hi. { rewrite L. apply nth_error_Some. congruence. }
    assert (forall s l m, Forall2 R (seq s m) l -> forall i z, nth_error l i = Some z -> R (s + i)%nat z) as K.
    { clear. intros s l m. revert s l. induction m as [|m IH]; intros s l F i z E; cbn in F; inversion F; subst; [destruct i; discriminate|].
      destruct i as [|i]; cbn in E; [injection E as ->; rewrite Nat.add_0_r; auto|]. replace (s + S i)%nat with (S s + i)%nat by lia. eapply IH; eauto. }
    exact (K 0%nat l n F i z E').
Qed.

Lemma row_ok t row col (a : list (list rat)) i : shape row col a -> Forall (Forall (rat_ok t)) a -> Forall (rat_ok t) (row_of a i).
Proof.
  intros _ F. unfold row_of. destruct (nth_in_or_default i a []) as [I| ->]; [|constructor]. rewrite Forall_forall in F. auto.
Qed.
Lemma column_ok t row col (a : list (list rat)) j : shape row col a -> (j < col)%nat -> Forall (Forall (rat_ok t)) a -> Forall (rat_ok t) (column_of a j).
Proof.
  intros [_ S] Hj F. unfold column_of. apply Forall_forall. intros x I. apply in_map_iff in I. destruct I as (r & <- & Ir).
  rewrite Forall_forall in F, S. specialize (F r Ir). rewrite Forall_forall in F. apply F. apply nth_In. rewrite S; auto.
Qed.

(** Each entry of the product is the dot product of a row and a column. *)
Theorem C156_matrix_product_checked : forall fuel t row col col2 a b, setting t fuel -> (0 < col)%nat -> shape row col a -> shape col col2 b ->
  Forall (Forall (rat_ok t)) a -> Forall (Forall (rat_ok t)) b ->
  rm_mul true fuel t row col col2 a b = Pan \/
  exists p, rm_mul true fuel t row col col2 a b = Ret p /\ shape row col2 p /\
    forall i j v, entry p i j = Some v -> rat_ok t v /\ (rat_val v == qdot (map rat_val (row_of a i)) (map rat_val (column_of b j)))%Q.
Proof.
  intros fuel t row col col2 a b S Hc Sa Sb Fa Fb.
  change (rm_mul true fuel t row col col2 a b) with
    (from_fn row (fun i => from_fn col2 (fun j => entryf (rq_add true fuel t) (rq_mul true fuel t) col a b i j))).
  destruct (from_fn_cases row (fun i => from_fn col2 (fun j => entryf (rq_add true fuel t) (rq_mul true fuel t) col a b i j))
    (fun i r => length r = col2 /\ forall j v, nth_error r j = Some v -> rat_ok t v /\
      (rat_val v == qdot (map rat_val (row_of a i)) (map rat_val (column_of b j)))%Q)) as [->|(p & -> & L & H)]; auto.
  - intros i Hi. apply from_fn_cases. intros j Hj.
    destruct (entry_zip (rq_add true fuel t) (rq_mul true fuel t) row col col2 a b i j Sa Sb Hi Hj Hc) as (Lr & Lc & ->).
    pose proof (row_ok t row col a i Sa Fa) as Or. pose proof (column_ok t col col2 b j Sb Hj Fb) as Oc.
    destruct (row_of a i) as [|x r]; [cbn in Lr; lia|]. destruct (column_of b j) as [|y c]; [cbn in Lc; lia|]. cbn [nth skipn map qdot].
    inversion Or; inversion Oc; subst. destruct (mul_exact fuel t S x y) as [->|(v & -> & Ov & Vv)]; auto. cbn [obind].
    destruct (zip_fold_exact fuel t S r c v (rat_val x * rat_val y)%Q) as [->|(z & -> & Oz & Vz)]; auto. right. exists z. auto.
  - right. exists p. split; auto. split.
    + split; auto. apply Forall_forall. intros r I. apply In_nth_error in I. destruct I as (i & E). apply (H i r E).
    + intros i j v E. unfold entry in E. destruct (nth_error p i) as [r|] eqn:Er; try discriminate. apply (H i r Er). auto.
Qed.
Print Assumptions C156_matrix_product_checked.

(** ** Cross products and complex numbers, with overflow checks *)

Definition exact3 (t : ity) (q1 q2 q3 : Q) (r : out (rat * rat * rat)) : Prop :=
  r = Pan \/ exists x y z, r = Ret (x, y, z) /\ Forall (rat_ok t) [x; y; z] /\
    (rat_val x == q1)%Q /\ (rat_val y == q2)%Q /\ (rat_val z == q3)%Q.
Definition exactc (t : ity) (re im : Q) (r : out (complex rat)) : Prop :=
  r = Pan \/ exists v, r = Ret v /\ rat_ok t (real v) /\ rat_ok t (imag v) /\ (rat_val (real v) == re)%Q /\ (rat_val (imag v) == im)%Q.

Ltac one L := let v := fresh "v" in let O := fresh "O" in let V := fresh "V" in
  destruct L as [->|(v & -> & O & V)]; try assumption; try (left; reflexivity); cbn [obind].

Theorem C156_cross_checked : forall fuel t ax ay az bx by_ bz, setting t fuel -> Forall (rat_ok t) [ax; ay; az; bx; by_; bz] ->
  let v := rat_val in
  exact3 t (v ay * v bz - v az * v by_) (v az * v bx - v ax * v bz) (v ax * v by_ - v ay * v bx)
    (rv_cross true fuel t (ax, ay, az) (bx, by_, bz)).
Proof.
  intros fuel t ax ay az bx by_ bz S F v. repeat match goal with H : Forall _ (_ :: _) |- _ => inversion H; clear H; subst end.
  unfold rv_cross, crossf.
  one (mul_exact fuel t S ay bz). one (mul_exact fuel t S az by_). one (mul_exact fuel t S az bx). one (mul_exact fuel t S ax bz).
  one (mul_exact fuel t S ax by_). one (mul_exact fuel t S ay bx).
  one (sub_exact fuel t S v0 v1). one (sub_exact fuel t S v2 v3). one (sub_exact fuel t S v4 v5).
  right. exists v6, v7, v8. split; auto. split; [repeat (apply Forall_cons; [assumption|]); constructor|]. unfold v. rewrite V5, V6, V7, V, V0, V1, V2, V3, V4. repeat split; reflexivity.
Qed.
Print Assumptions C156_cross_checked.

Theorem C156_complex_checked : forall fuel t a b s, setting t fuel -> rat_ok t (real a) -> rat_ok t (imag a) -> rat_ok t (real b) -> rat_ok t (imag b) ->
  rat_ok t s -> let v := rat_val in
  exactc t (v (real a) + v (real b)) (v (imag a) + v (imag b)) (rc_add true fuel t a b) /\
  exactc t (v (real a) - v (real b)) (v (imag a) - v (imag b)) (rc_sub true fuel t a b) /\
  exactc t (v (real a) * v (real b) - v (imag a) * v (imag b)) (v (real a) * v (imag b) + v (imag a) * v (real b)) (rc_mul true fuel t a b) /\
  exactc t (v (real a) + v s) (v (imag a)) (rc_add_scalar true fuel t a s) /\
  exactc t (v (real a) - v s) (v (imag a)) (rc_sub_scalar true fuel t a s) /\
  exactc t (v (real a) * v s) (v (imag a) * v s) (rc_mul_scalar true fuel t a s) /\
  exact t (v (real a) * v (real a) + v (imag a) * v (imag a)) (rc_abs_squared true fuel t a).
Proof.
  intros fuel t [ar ai] [br bi] s S Oar Oai Obr Obi Os v. cbn [real imag] in *. unfold v.
  unfold rc_add, rc_sub, rc_mul, rc_add_scalar, rc_sub_scalar, rc_mul_scalar, rc_abs_squared, cf_add, cf_sub, cf_mul, cf_add_scalar, cf_sub_scalar, cf_mul_scalar.
  cbn [real imag]. repeat split.
  - one (add_exact fuel t S ar br). one (add_exact fuel t S ai bi). right. eexists. split; [reflexivity|]. cbn [real imag]. auto.
  - one (sub_exact fuel t S ar br). one (sub_exact fuel t S ai bi). right. eexists. split; [reflexivity|]. cbn [real imag]. auto.
  - one (mul_exact fuel t S ar br). one (mul_exact fuel t S ai bi). one (sub_exact fuel t S v0 v1).
    one (mul_exact fuel t S ar bi). one (mul_exact fuel t S br ai). one (add_exact fuel t S v3 v4).
    right. eexists. split; [reflexivity|]. cbn [real imag]. split; auto. split; auto. rewrite V1, V4, V, V0, V2, V3. split; ring.
  - one (add_exact fuel t S ar s). right. eexists. split; [reflexivity|]. cbn [real imag]. repeat split; try apply O; try apply Oai; auto; reflexivity.
  - one (sub_exact fuel t S ar s). right. eexists. split; [reflexivity|]. cbn [real imag]. repeat split; try apply O; try apply Oai; auto; reflexivity.
  - one (mul_exact fuel t S ar s). one (mul_exact fuel t S ai s). right. eexists. split; [reflexivity|]. cbn [real imag]. auto.
  - one (mul_exact fuel t S ar ar). one (mul_exact fuel t S ai ai). one (add_exact fuel t S v0 v1).
    right. eexists. split; [reflexivity|]. split; auto. rewrite V1, V, V0. reflexivity.
Qed.
Print Assumptions C156_complex_checked.

(** A quotient of complex numbers that is returned, times the divisor, is the dividend; the divisor was not zero. *)
Theorem C156_complex_division_checked : forall fuel t a b, setting t fuel -> rat_ok t (real a) -> rat_ok t (imag a) -> rat_ok t (real b) -> rat_ok t (imag b) ->
  let v := rat_val in
  rc_div true fuel t a b = Pan \/
  exists q, rc_div true fuel t a b = Ret q /\ rat_ok t (real q) /\ rat_ok t (imag q) /\
    ~ (v (real b) == 0 /\ v (imag b) == 0)%Q /\
    (v (real q) * v (real b) - v (imag q) * v (imag b) == v (real a))%Q /\
    (v (real q) * v (imag b) + v (imag q) * v (real b) == v (imag a))%Q.
Proof.
  intros fuel t [ar ai] [br bi] S Oar Oai Obr Obi v. cbn [real imag] in *. unfold v, rc_div, cf_div. cbn [real imag].
  one (mul_exact fuel t S br br). one (mul_exact fuel t S bi bi). one (add_exact fuel t S v0 v1).
  one (mul_exact fuel t S ar br). one (mul_exact fuel t S ai bi). one (add_exact fuel t S v3 v4).
  destruct (div_exact fuel t S v5 v2) as [->|[N [->|(r & -> & Or & Vr)]]]; auto. cbn [obind].
  one (mul_exact fuel t S ai br). one (mul_exact fuel t S ar bi). one (sub_exact fuel t S v6 v7).
  destruct (div_exact fuel t S v8 v2) as [->|[_ [->|(i & -> & Oi & Vi)]]]; auto. cbn [obind].
  right. eexists. split; [reflexivity|]. cbn [real imag]. split; auto. split; auto.
  rewrite V1, V, V0 in N. split; [intros [E1 E2]; apply N; rewrite E1, E2; ring|].
  rewrite Vr, Vi, V4, V7, V1, V, V0, V2, V3, V5, V6. split; field; auto.
Qed.
Print Assumptions C156_complex_division_checked.

Theorem C156_complex_scalar_division_checked : forall fuel t a s, setting t fuel -> rat_ok t (real a) -> rat_ok t (imag a) -> rat_ok t s ->
  let v := rat_val in
  rc_div_scalar true fuel t a s = Pan \/
  exists q, rc_div_scalar true fuel t a s = Ret q /\ rat_ok t (real q) /\ rat_ok t (imag q) /\ ~ (v s == 0)%Q /\
    (v (real q) == v (real a) / v s)%Q /\ (v (imag q) == v (imag a) / v s)%Q.
Proof.
  intros fuel t [ar ai] s S Oar Oai Os v. cbn [real imag] in *. unfold v, rc_div_scalar, cf_div_scalar. cbn [real imag].
  one (mul_exact fuel t S s s). one (mul_exact fuel t S ar s).
  destruct (div_exact fuel t S v1 v0) as [->|[N [->|(r & -> & Or & Vr)]]]; auto. cbn [obind].
  one (mul_exact fuel t S ai s).
  destruct (div_exact fuel t S v2 v0) as [->|[_ [->|(i & -> & Oi & Vi)]]]; auto. cbn [obind].
  right. eexists. split; [reflexivity|]. cbn [real imag]. split; auto. split; auto.
  rewrite V in N. assert (~ (rat_val s == 0)%Q) as Ns by (intros E; apply N; rewrite E; ring). split; auto.
  rewrite Vr, Vi, V, V0, V1. split; field; auto.
Qed.
Print Assumptions C156_complex_scalar_division_checked.

(** ** Numbers small enough: every build returns the exact result *)

(** [v] is [q], its numerator at most [a] and its denominator at most [b] in absolute value. *)
Definition within (t : ity) (a b : Z) (q : Q) (v : rat) : Prop :=
  rat_ok t v /\ (rat_val v == q)%Q /\ Z.abs (num v) <= a /\ Z.abs (denom v) <= b.

Section Small.
Context (dbg : bool) (fuel : nat) (t : ity) (S : setting t fuel) (Hs : isigned t = true).

Lemma new_within n d q : d <> 0 -> Z.abs n <= imax t -> Z.abs d <= imax t -> (frac n d == q)%Q ->
  exists r, rat_new_unwrap fuel t n d = Ok r /\ within t (Z.abs n) (Z.abs d) q r.
Proof.
  intros Nd An Ad Q. destruct (fits_abs t n Hs An), (fits_abs t d Hs Ad).
  destruct (new_gives fuel t n d q) as (r & E & O & V); auto. exists r. destruct (new_small _ _ _ _ _ E). unfold within. auto.
Qed.
Lemma arith_small v : Z.abs v <= imax t -> arith dbg t v = Ok v.
Proof. intros H. apply arith_in. apply fits_abs; auto. Qed.
Lemma within_le a b a' b' q q' v : within t a b q v -> a <= a' -> b <= b' -> (q == q')%Q -> within t a' b' q' v.
Proof. intros (O & V & A & B) Ha Hb Q. repeat split; try apply O; try lia. rewrite V. auto. Qed.

Lemma add_within a b c d p q x y : within t a b p x -> within t c d q y -> a * d + c * b <= imax t -> b * d <= imax t ->
  exists v, rq_add dbg fuel t x y = Ret v /\ within t (a * d + c * b) (b * d) (p + q) v.
Proof.
  intros ((X1 & X2 & X3) & Vx & Nx & Dx) ((Y1 & Y2 & Y3) & Vy & Ny & Dy) H1 H2. unfold rq_add, rat_add.
  assert (Z.abs (num x * denom y) <= a * d /\ Z.abs (num y * denom x) <= c * b /\ Z.abs (denom x * denom y) <= b * d) as (P1 & P2 & P3).
  { rewrite !Z.abs_mul. repeat split; apply Z.mul_le_mono_nonneg; lia. }
  rewrite (arith_small (num x * denom y)), (arith_small (num y * denom x)) by lia. cbn [bind]. rewrite arith_small by lia. cbn [bind]. rewrite arith_small by lia. cbn [bind].
  destruct (new_within (num x * denom y + num y * denom x) (denom x * denom y) (p + q)%Q) as (r & E & W);
    [apply Z.neq_mul_0; auto|lia|lia| |rewrite E; exists r; split; auto; eapply within_le; eauto; try lia; reflexivity].
  rewrite <- Vx, <- Vy. unfold rat_val, frac. rewrite inject_Z_plus, !inject_Z_mult. field. split; apply inj_nz; auto.
Qed.
Lemma sub_within a b c d p q x y : within t a b p x -> within t c d q y -> a * d + c * b <= imax t -> b * d <= imax t ->
  exists v, rq_sub dbg fuel t x y = Ret v /\ within t (a * d + c * b) (b * d) (p - q) v.
Proof.
  intros ((X1 & X2 & X3) & Vx & Nx & Dx) ((Y1 & Y2 & Y3) & Vy & Ny & Dy) H1 H2. unfold rq_sub, rat_sub.
  assert (Z.abs (num x * denom y) <= a * d /\ Z.abs (num y * denom x) <= c * b /\ Z.abs (denom x * denom y) <= b * d) as (P1 & P2 & P3).
  { rewrite !Z.abs_mul. repeat split; apply Z.mul_le_mono_nonneg; lia. }
  rewrite (arith_small (num x * denom y)), (arith_small (num y * denom x)) by lia. cbn [bind]. rewrite arith_small by lia. cbn [bind]. rewrite arith_small by lia. cbn [bind].
  destruct (new_within (num x * denom y - num y * denom x) (denom x * denom y) (p - q)%Q) as (r & E & W);
    [apply Z.neq_mul_0; auto|lia|lia| |rewrite E; exists r; split; auto; eapply within_le; eauto; try lia; reflexivity].
  rewrite <- Vx, <- Vy. unfold rat_val, frac, Z.sub. rewrite inject_Z_plus, inject_Z_opp, !inject_Z_mult. field. split; apply inj_nz; auto.
Qed.
Lemma mul_within a b c d p q x y : within t a b p x -> within t c d q y -> a * c <= imax t -> b * d <= imax t ->
  exists v, rq_mul dbg fuel t x y = Ret v /\ within t (a * c) (b * d) (p * q) v.
Proof.
  intros ((X1 & X2 & X3) & Vx & Nx & Dx) ((Y1 & Y2 & Y3) & Vy & Ny & Dy) H1 H2. unfold rq_mul, rat_mul.
  assert (Z.abs (num x * num y) <= a * c /\ Z.abs (denom x * denom y) <= b * d) as (P1 & P3).
  { rewrite !Z.abs_mul. repeat split; apply Z.mul_le_mono_nonneg; lia. }
  rewrite (arith_small (num x * num y)) by lia. cbn [bind]. rewrite arith_small by lia. cbn [bind].
  destruct (new_within (num x * num y) (denom x * denom y) (p * q)%Q) as (r & E & W);
    [apply Z.neq_mul_0; auto|lia|lia| |rewrite E; exists r; split; auto; eapply within_le; eauto; try lia; reflexivity].
  rewrite <- Vx, <- Vy. unfold rat_val, frac. rewrite !inject_Z_mult. field. split; apply inj_nz; auto.
Qed.
Lemma div_within a b c d p q x y : within t a b p x -> within t c d q y -> ~ (q == 0)%Q -> a * d <= imax t -> b * c <= imax t ->
  exists v, rq_div dbg fuel t x y = Ret v /\ within t (a * d) (b * c) (p / q) v.
Proof.
  intros ((X1 & X2 & X3) & Vx & Nx & Dx) ((Y1 & Y2 & Y3) & Vy & Ny & Dy) Dn H1 H2. unfold rq_div, rat_div.
  assert (num y <> 0) as Nz. { intros Z. apply Dn. rewrite <- Vy. unfold rat_val. rewrite Z. reflexivity. }
  assert (Z.abs (num x * denom y) <= a * d /\ Z.abs (denom x * num y) <= b * c) as (P1 & P3).
  { rewrite !Z.abs_mul. repeat split; apply Z.mul_le_mono_nonneg; lia. }
  rewrite (arith_small (num x * denom y)) by lia. cbn [bind]. rewrite arith_small by lia. cbn [bind].
  destruct (new_within (num x * denom y) (denom x * num y) (p / q)%Q) as (r & E & W);
    [apply Z.neq_mul_0; auto|lia|lia| |rewrite E; exists r; split; auto; eapply within_le; eauto; try lia; reflexivity].
  rewrite <- Vx, <- Vy. unfold rat_val, frac. rewrite !inject_Z_mult. field. repeat split; apply inj_nz; auto.
Qed.

(** Numbers whose numerator and denominator are at most [m]. *)
Definition small (m : Z) (v : rat) : Prop := rat_ok t v /\ Z.abs (num v) <= m /\ Z.abs (denom v) <= m.
Lemma small_within m v : small m v -> within t m m (rat_val v) v.
Proof. intros (O & A & B). repeat split; auto; try apply O; reflexivity. Qed.
Lemma zero_within : within t 0 1 0 rat_zero /\ within t 1 1 1 rat_one.
Proof. pose proof (zero_ok fuel t S) as [Oz Oo]. split; (split; [assumption|split; [reflexivity|cbn; lia]]). Qed.

Lemma pow_mono m i j : 1 <= m -> (i <= j)%nat -> 1 <= m ^ Z.of_nat i <= m ^ Z.of_nat j.
Proof. intros Hm H. split; [pose proof (Z.pow_le_mono_r m 0 (Z.of_nat i)); rewrite Z.pow_0_r in *; lia|apply Z.pow_le_mono_r; lia]. Qed.
Lemma pow_S m k : m ^ Z.of_nat (Datatypes.S k) = m ^ Z.of_nat k * m.
Proof. rewrite Nat2Z.inj_succ, Z.pow_succ_r by lia. lia. Qed.

(** A sum of [n] products with [k] already added. *)
Lemma zip_fold_within m : 1 <= m -> forall a b s q k n, Forall (small m) a -> Forall (small m) b -> length a = length b -> (k + length a <= n)%nat ->
  (0 < n)%nat -> Z.of_nat n * (m * m) ^ Z.of_nat n <= imax t ->
  within t (Z.of_nat k * (m * m) ^ Z.of_nat k) ((m * m) ^ Z.of_nat k) q s ->
  exists v, zip_fold (rq_add dbg fuel t) (rq_mul dbg fuel t) a b s = Ret v /\ rat_ok t v /\ (rat_val v == q + qdot (map rat_val a) (map rat_val b))%Q.
Proof.
  intros Hm. induction a as [|x a IH]; intros b s q k n Fa Fb L Hk Hn B W.
  - exists s. cbn. split; auto. split; [apply W|]. destruct W as (_ & -> & _). ring.
  - destruct b as [|y b]; try discriminate. inversion Fa; inversion Fb; subst. cbn [zip_fold map qdot].
    assert (1 <= m * m) as Hmm by nia.
    assert ((m * m) ^ Z.of_nat (Datatypes.S k) <= (m * m) ^ Z.of_nat n) as P1 by (apply pow_mono; auto; cbn in Hk; lia).
    pose proof (pow_mono (m * m) 1 (Datatypes.S k) Hmm ltac:(lia)) as P2. change (Z.of_nat 1) with 1 in P2. rewrite Z.pow_1_r in P2.
    assert ((m * m) ^ Z.of_nat n <= Z.of_nat n * (m * m) ^ Z.of_nat n) as P3 by nia.
    assert (Z.of_nat (Datatypes.S k) * (m * m) ^ Z.of_nat (Datatypes.S k) <= Z.of_nat n * (m * m) ^ Z.of_nat n) as P4.
    { apply Z.mul_le_mono_nonneg; cbn in Hk; lia. }
    destruct (mul_within m m m m (rat_val x) (rat_val y) x y) as (p & -> & Wp); try (apply small_within; auto); try lia. cbn [obind].
    rewrite pow_S in *. rewrite Nat2Z.inj_succ in P4.
    destruct (add_within _ _ _ _ _ _ s p W Wp) as (z & -> & Wz); [lia|lia|]. cbn [obind].
    destruct (IH b z (q + rat_val x * rat_val y)%Q (Datatypes.S k) n) as (v & E & O & V); auto; [cbn in *; lia| |].
    { eapply within_le; [exact Wz| | |reflexivity]; rewrite ?pow_S, ?Nat2Z.inj_succ; lia. }
    exists v. split; auto. split; auto. rewrite V. ring.
Qed.

Lemma sum_within m : 1 <= m -> forall a s q k n, Forall (small m) a -> (k + length a <= n)%nat -> (0 < n)%nat ->
  Z.of_nat n * m ^ Z.of_nat n <= imax t -> within t (Z.of_nat k * m ^ Z.of_nat k) (m ^ Z.of_nat k) q s ->
  exists v, ofold (rq_add dbg fuel t) a s = Ret v /\ rat_ok t v /\ (rat_val v == q + qsum (map rat_val a))%Q.
Proof.
  intros Hm. induction a as [|x a IH]; intros s q k n Fa Hk Hn B W.
  - exists s. cbn. split; auto. split; [apply W|]. destruct W as (_ & -> & _). ring.
  - inversion Fa; subst. cbn [ofold map qsum].
    assert (m ^ Z.of_nat (Datatypes.S k) <= m ^ Z.of_nat n) as P1 by (apply pow_mono; auto; cbn in Hk; lia).
    pose proof (pow_mono m k (Datatypes.S k) Hm ltac:(lia)) as P2.
    assert (m ^ Z.of_nat n <= Z.of_nat n * m ^ Z.of_nat n) as P3 by nia.
    assert (Z.of_nat (Datatypes.S k) * m ^ Z.of_nat (Datatypes.S k) <= Z.of_nat n * m ^ Z.of_nat n) as P4.
    { apply Z.mul_le_mono_nonneg; cbn in Hk; lia. }
    rewrite pow_S in *. rewrite Nat2Z.inj_succ in P4.
    destruct (add_within _ _ m m _ (rat_val x) s x W) as (z & -> & Wz); [apply small_within; auto|lia|lia|]. cbn [obind].
    destruct (IH z (q + rat_val x)%Q (Datatypes.S k) n) as (v & E & O & V); auto; [cbn in *; lia| |].
    { eapply within_le; [exact Wz| | |reflexivity]; rewrite ?pow_S, ?Nat2Z.inj_succ; lia. }
    exists v. split; auto. split; auto. rewrite V. ring.
Qed.

Lemma product_within m : 1 <= m -> forall a s q k n, Forall (small m) a -> (k + length a <= n)%nat ->
  m ^ Z.of_nat n <= imax t -> within t (m ^ Z.of_nat k) (m ^ Z.of_nat k) q s ->
  exists v, ofold (rq_mul dbg fuel t) a s = Ret v /\ rat_ok t v /\ (rat_val v == q * qproduct (map rat_val a))%Q.
Proof.
  intros Hm. induction a as [|x a IH]; intros s q k n Fa Hk B W.
  - exists s. cbn. split; auto. split; [apply W|]. destruct W as (_ & -> & _). ring.
  - inversion Fa; subst. cbn [ofold map qproduct].
    assert (m ^ Z.of_nat (Datatypes.S k) <= m ^ Z.of_nat n) as P1 by (apply pow_mono; auto; cbn in Hk; lia).
    rewrite pow_S in P1.
    destruct (mul_within _ _ m m _ (rat_val x) s x W) as (z & -> & Wz); [apply small_within; auto|lia|lia|]. cbn [obind].
    destruct (IH z (q * rat_val x)%Q (Datatypes.S k) n) as (v & E & O & V); auto; [cbn in *; lia| |].
    { eapply within_le; [exact Wz| | |reflexivity]; rewrite ?pow_S; lia. }
    exists v. split; auto. split; auto. rewrite V. ring.
Qed.
End Small.

(** [r] returns the rational [q]. *)
Definition returns (t : ity) (q : Q) (r : out rat) : Prop := exists v, r = Ret v /\ rat_ok t v /\ (rat_val v == q)%Q.

(** Numerators and denominators at most [m]: sums, products and dot products of [n] elements are exact in every build
    when [n m^n], [m^n] and [n m^2n] fit. *)
Theorem C156_folds_small : forall dbg fuel t m n a b, setting t fuel -> isigned t = true -> 1 <= m -> Forall (small t m) a -> Forall (small t m) b ->
  length a = n -> length b = n -> let n' := Z.of_nat n in
  (n' * m ^ n' <= imax t -> returns t (qsum (map rat_val a)) (rv_sum dbg fuel t n a)) /\
  (m ^ n' <= imax t -> returns t (qproduct (map rat_val a)) (rv_product dbg fuel t n a)) /\
  (n' * (m * m) ^ n' <= imax t -> returns t (qdot (map rat_val a) (map rat_val b)) (rv_dot dbg fuel t a b)).
Proof.
  intros dbg fuel t m n a b S Hs Hm Fa Fb La Lb n'. pose proof (zero_within fuel t S) as [Wz Wo]. unfold returns. split; [|split]; intros B.
  - unfold rv_sum, vec_sum, it_sum. rewrite (fold_value _ n _ a) by (apply into_items; auto). destruct n as [|n].
    { destruct a; try discriminate. exists rat_zero. split; [reflexivity|]. split; [apply Wz|reflexivity]. }
    destruct (sum_within dbg fuel t S Hs m Hm a rat_zero 0%Q 0 (Datatypes.S n)) as (v & E & O & V); auto; try lia.
    exists v. split; auto. split; auto. rewrite V. ring.
  - unfold rv_product, vec_product, it_product. rewrite (fold_value _ n _ a) by (apply into_items; auto).
    destruct (product_within dbg fuel t S Hs m Hm a rat_one 1%Q 0 n) as (v & E & O & V); auto; try lia.
    exists v. split; auto. split; auto. rewrite V. ring.
  - unfold rv_dot, dot_product. destruct n as [|n].
    { destruct a; try discriminate. exists rat_zero. split; [reflexivity|]. split; [apply Wz|reflexivity]. }
    destruct (zip_fold_within dbg fuel t S Hs m Hm a b rat_zero 0%Q 0 (Datatypes.S n)) as (v & E & O & V); auto; try lia.
    exists v. split; auto. split; auto. rewrite V. ring.
Qed.
Print Assumptions C156_folds_small.

Theorem C156_matrix_product_small : forall dbg fuel t m row col col2 a b, setting t fuel -> isigned t = true -> 1 <= m -> (0 < col)%nat ->
  shape row col a -> shape col col2 b -> Forall (Forall (small t m)) a -> Forall (Forall (small t m)) b ->
  Z.of_nat col * (m * m) ^ Z.of_nat col <= imax t ->
  exists p, rm_mul dbg fuel t row col col2 a b = Ret p /\ shape row col2 p /\
    forall i j, (i < row)%nat -> (j < col2)%nat -> exists v, entry p i j = Some v /\ rat_ok t v /\
      (rat_val v == qdot (map rat_val (row_of a i)) (map rat_val (column_of b j)))%Q.
Proof.
  intros dbg fuel t m row col col2 a b S Hs Hm Hc Sa Sb Fa Fb B.
  pose (f := entryf (rq_add dbg fuel t) (rq_mul dbg fuel t) col a b).
  assert (forall i j, (i < row)%nat -> (j < col2)%nat -> exists v, f i j = Ret v /\ rat_ok t v /\
    (rat_val v == qdot (map rat_val (row_of a i)) (map rat_val (column_of b j)))%Q) as K.
  { intros i j Hi Hj. unfold f.
    destruct (entry_zip (rq_add dbg fuel t) (rq_mul dbg fuel t) row col col2 a b i j Sa Sb Hi Hj Hc) as (Lr & Lc & ->).
    assert (Forall (small t m) (row_of a i)) as Or.
    { unfold row_of. destruct (nth_in_or_default i a []) as [I| ->]; [|constructor]. rewrite Forall_forall in Fa. auto. }
    assert (Forall (small t m) (column_of b j)) as Oc.
    { unfold column_of. apply Forall_forall. intros x I. apply in_map_iff in I. destruct I as (r & <- & Ir). destruct Sb as [_ Sb].
      rewrite Forall_forall in Fb, Sb. specialize (Fb r Ir). rewrite Forall_forall in Fb. apply Fb. apply nth_In. rewrite Sb; auto. }
    destruct (row_of a i) as [|x r]; [cbn in Lr; lia|]. destruct (column_of b j) as [|y c]; [cbn in Lc; lia|]. cbn [nth skipn map qdot].
    inversion Or; inversion Oc; subst. assert (1 <= m * m) as Hmm by nia.
    pose proof (pow_mono (m * m) 1 (length (x :: r)) Hmm ltac:(cbn; lia)) as P2. change (Z.of_nat 1) with 1 in P2. rewrite Z.pow_1_r in P2.
    destruct (mul_within dbg fuel t S Hs m m m m (rat_val x) (rat_val y) x y) as (p & -> & Wp); try (apply small_within; auto); try nia. cbn [obind].
    destruct (zip_fold_within dbg fuel t S Hs m Hm r c p (rat_val x * rat_val y)%Q 1 (length (x :: r))) as (v & E & O & V); auto; try (cbn in *; lia).
    - eapply within_le; [exact Wp| | |reflexivity]; change (Z.of_nat 1) with 1; rewrite ?Z.pow_1_r; lia.
    - exists v. auto. }
  pose (g := fun i j => match f i j with Ret v => v | _ => rat_zero end).
  change (rm_mul dbg fuel t row col col2 a b) with (from_fn row (fun i => from_fn col2 (fun j => f i j))).
  exists (tabulate row col2 g). split; [|split; [apply tabulate_shape|]].
  - apply from_fn_ok. intros i Hi. apply from_fn_ok. intros j Hj. unfold g. destruct (K i j Hi Hj) as (v & -> & _). reflexivity.
  - intros i j Hi Hj. rewrite tabulate_entry by auto. unfold g. destruct (K i j Hi Hj) as (v & -> & O & V). exists v. auto.
Qed.
Print Assumptions C156_matrix_product_small.

Ltac w L := let v := fresh "v" in let W := fresh "W" in destruct L as (v & -> & W); auto; try nia; cbn [obind].

(** Complex numbers and cross products: [2 m^4] for products, [2 m^8] for quotients. *)
Theorem C156_complex_small : forall dbg fuel t m a b, setting t fuel -> isigned t = true -> 1 <= m ->
  small t m (real a) -> small t m (imag a) -> small t m (real b) -> small t m (imag b) -> let v := rat_val in
  (2 * m ^ 4 <= imax t -> exists q, rc_mul dbg fuel t a b = Ret q /\ rat_ok t (real q) /\ rat_ok t (imag q) /\
    (v (real q) == v (real a) * v (real b) - v (imag a) * v (imag b))%Q /\
    (v (imag q) == v (real a) * v (imag b) + v (imag a) * v (real b))%Q) /\
  (2 * m ^ 8 <= imax t -> ~ (v (real b) == 0 /\ v (imag b) == 0)%Q -> exists q, rc_div dbg fuel t a b = Ret q /\ rat_ok t (real q) /\ rat_ok t (imag q) /\
    (v (real q) * v (real b) - v (imag q) * v (imag b) == v (real a))%Q /\
    (v (real q) * v (imag b) + v (imag q) * v (real b) == v (imag a))%Q).
Proof.
  intros dbg fuel t m [ar ai] [br bi] S Hs Hm Oar Oai Obr Obi v. cbn [real imag] in *. unfold v.
  apply small_within in Oar, Oai, Obr, Obi. remember (m * m) as m2 eqn:E2. remember (m2 * m2) as m4 eqn:E4.
  assert (m <= m2) by nia. assert (m2 <= m4) by nia.
  assert (m ^ 4 = m4) as Q4 by (subst; ring). assert (m ^ 8 = m4 * m4) as Q8 by (subst; ring). rewrite Q4, Q8. split.
  - intros B. unfold rc_mul, cf_mul. cbn [real imag].
    w (mul_within dbg fuel t S Hs _ _ _ _ _ _ ar br Oar Obr). w (mul_within dbg fuel t S Hs _ _ _ _ _ _ ai bi Oai Obi).
    rewrite <- E2 in *. w (sub_within dbg fuel t S Hs _ _ _ _ _ _ v0 v1 W W0).
    w (mul_within dbg fuel t S Hs _ _ _ _ _ _ ar bi Oar Obi). w (mul_within dbg fuel t S Hs _ _ _ _ _ _ br ai Obr Oai).
    rewrite <- E2 in *. w (add_within dbg fuel t S Hs _ _ _ _ _ _ v3 v4 W2 W3).
    eexists. split; [reflexivity|]. cbn [real imag]. destruct W1 as (O1 & V1 & _), W4 as (O4 & V4 & _). split; auto. split; auto.
    rewrite V1, V4. split; ring.
  - intros B N. unfold rc_div, cf_div. cbn [real imag]. assert (m4 <= m4 * m4) by nia.
    w (mul_within dbg fuel t S Hs _ _ _ _ _ _ br br Obr Obr). w (mul_within dbg fuel t S Hs _ _ _ _ _ _ bi bi Obi Obi).
    rewrite <- E2 in *. w (add_within dbg fuel t S Hs _ _ _ _ _ _ v0 v1 W W0).
    w (mul_within dbg fuel t S Hs _ _ _ _ _ _ ar br Oar Obr). w (mul_within dbg fuel t S Hs _ _ _ _ _ _ ai bi Oai Obi).
    rewrite <- E2 in *. w (add_within dbg fuel t S Hs _ _ _ _ _ _ v3 v4 W2 W3). rewrite <- E4 in *.
    assert (~ (rat_val br * rat_val br + rat_val bi * rat_val bi == 0)%Q) as D.
    { intros E. apply N.
      assert (forall x y : Q, (x * x + y * y == 0)%Q -> (x == 0)%Q) as Z.
      { intros x y Hxy. destruct (Qeq_dec x 0) as [|Nx]; auto. exfalso. assert (0 < x * x)%Q by (destruct x as [p d]; unfold Qlt, Qeq, Qmult in *; cbn in *; nia).
        assert (0 <= y * y)%Q by (destruct y as [p d]; unfold Qle, Qmult; cbn; nia). 
        apply (Qlt_irrefl 0). rewrite <- Hxy at 2. apply Qlt_le_trans with (x * x)%Q; auto. rewrite <- (Qplus_0_r (x * x)) at 1. apply Qplus_le_compat; auto. apply Qle_refl. }
      split; [apply (Z _ (rat_val bi)); auto|apply (Z _ (rat_val br)); rewrite Qplus_comm; auto]. }
    w (div_within dbg fuel t S Hs _ _ _ _ _ _ v5 v2 W4 W1 D).
    w (mul_within dbg fuel t S Hs _ _ _ _ _ _ ai br Oai Obr). w (mul_within dbg fuel t S Hs _ _ _ _ _ _ ar bi Oar Obi).
    rewrite <- E2 in *. w (sub_within dbg fuel t S Hs _ _ _ _ _ _ v7 v8 W6 W7). rewrite <- E4 in *.
    w (div_within dbg fuel t S Hs _ _ _ _ _ _ v9 v2 W8 W1 D).
    eexists. split; [reflexivity|]. cbn [real imag]. destruct W5 as (O5 & V5 & _), W9 as (O9 & V9 & _). split; auto. split; auto.
    rewrite V5, V9. split; field; auto.
Qed.
Print Assumptions C156_complex_small.

Theorem C156_cross_small : forall dbg fuel t m ax ay az bx by_ bz, setting t fuel -> isigned t = true -> 1 <= m ->
  Forall (small t m) [ax; ay; az; bx; by_; bz] -> 2 * m ^ 4 <= imax t -> let v := rat_val in
  exists x y z, rv_cross dbg fuel t (ax, ay, az) (bx, by_, bz) = Ret (x, y, z) /\ Forall (rat_ok t) [x; y; z] /\
    (v x == v ay * v bz - v az * v by_)%Q /\ (v y == v az * v bx - v ax * v bz)%Q /\ (v z == v ax * v by_ - v ay * v bx)%Q.
Proof.
  intros dbg fuel t m ax ay az bx by_ bz S Hs Hm F B v. unfold v.
  repeat match goal with H : Forall _ (_ :: _) |- _ => inversion H; clear H; subst end.
  repeat match goal with H : small _ _ _ |- _ => apply small_within in H end. remember (m * m) as m2 eqn:E2.
  assert (m <= m2) by nia. replace (m ^ 4) with (m2 * m2) in B by (subst; ring). unfold rv_cross, crossf.
  w (mul_within dbg fuel t S Hs m m m m (rat_val ay) (rat_val bz) ay bz). w (mul_within dbg fuel t S Hs m m m m (rat_val az) (rat_val by_) az by_).
  w (mul_within dbg fuel t S Hs m m m m (rat_val az) (rat_val bx) az bx). w (mul_within dbg fuel t S Hs m m m m (rat_val ax) (rat_val bz) ax bz).
  w (mul_within dbg fuel t S Hs m m m m (rat_val ax) (rat_val by_) ax by_). w (mul_within dbg fuel t S Hs m m m m (rat_val ay) (rat_val bx) ay bx).
  rewrite <- E2 in *. w (sub_within dbg fuel t S Hs _ _ _ _ _ _ v0 v1 W W0). w (sub_within dbg fuel t S Hs _ _ _ _ _ _ v2 v3 W1 W2).
  w (sub_within dbg fuel t S Hs _ _ _ _ _ _ v4 v5 W3 W4).
  destruct W5 as (O5 & V5 & _), W6 as (O6 & V6 & _), W7 as (O7 & V7 & _).
  exists v6, v7, v8. split; auto.
Qed.
Print Assumptions C156_cross_small.

(** In every build, dividing by a vector with an element equal to zero, or by a scalar zero, panics. *)
Theorem C156_zero_divisor : forall dbg fuel t n a b s i x y, setting t fuel -> length a = n -> length b = n -> nth_error a i = Some x -> nth_error b i = Some y ->
  (num y = 0 -> rv_op (rq_div dbg fuel t) n a b = Pan) /\ (num s = 0 -> rv_scalar (rq_div dbg fuel t) a s = Pan).
Proof.
  intros dbg fuel t n a b s i x y S La Lb Ha Hb.
  assert (forall x y, rq_div dbg fuel t x y <> UB) as NU by (intros; unfold rq_div, of_res; destruct (rat_div _ _ _ _ _); discriminate).
  assert (forall x y, num y = 0 -> rq_div dbg fuel t x y = Pan) as Z.
  { intros u v E. unfold rq_div, rat_div. rewrite E, Z.mul_0_r. destruct (arith dbg t (num u * denom v)) as [p| |]; auto. cbn [bind].
    rewrite arith_in by (apply (zero_ok fuel t S)). reflexivity. }
  split; intros E.
  - apply (vec_op_pan _ n a b i x y NU La Lb Ha Hb). auto.
  - apply (array_map_pan _ (fun x => NU x s) a x); auto. eapply nth_error_In; eauto.
Qed.
Print Assumptions C156_zero_divisor.

(** Over i8: [1/2, 2/3] and [3/4, 3/5]; a 1 by 2 by 1 product; (1/2 + i) / (1 + i/2); an overflow in the last bit. *)
Example C156_demo : setting i8 1000 /\ Forall (small i8 5) [mkRat 1 2; mkRat 2 3; mkRat 3 4; mkRat 3 5] /\
  rv_dot true 1000 i8 [mkRat 1 2; mkRat 2 3] [mkRat 3 4; mkRat 3 5] = Ret (mkRat 31 40) /\
  rv_sum true 1000 i8 2 [mkRat 1 2; mkRat 2 3] = Ret (mkRat 7 6) /\
  rv_product true 1000 i8 2 [mkRat 1 2; mkRat 2 3] = Ret (mkRat 2 6) /\
  rm_mul true 1000 i8 1 2 1 [[mkRat 1 2; mkRat 2 3]] [[mkRat 3 4]; [mkRat 3 5]] = Ret [[mkRat 31 40]] /\
  rc_div true 1000 i8 (Cx (mkRat 1 2) (mkRat 1 1)) (Cx (mkRat 1 1) (mkRat 1 2)) = Ret (Cx (mkRat 4 5) (mkRat 3 5)) /\
  rv_dot true 1000 i8 [mkRat 100 1] [mkRat 2 1] = Pan /\ rv_dot false 1000 i8 [mkRat 100 1] [mkRat 2 1] = Ret (mkRat (-56) 1) /\
  2 * 2 ^ 4 <= imax i8 /\ 2 * 1 ^ 8 <= imax i8 /\ Z.of_nat 2 * (2 * 2) ^ Z.of_nat 2 <= imax i8.
Proof.
  split; [unfold setting, fits; cbn [ibits]; repeat split; vm_compute; (reflexivity || discriminate || lia)|].
  split; [repeat (apply Forall_cons; [unfold small, rat_ok, fits; cbn [num denom]; repeat split; vm_compute; discriminate|]); constructor|].
  repeat split; vm_compute; (reflexivity || discriminate).
Qed.

