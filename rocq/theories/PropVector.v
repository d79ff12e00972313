(** C86, C87, C93: vectors and complex numbers. *)
From Coq Require Import List Bool Arith ZArith Lia Ring Field Ring_theory Field_theory.
From Verif Require Import Base StaticIterModel StaticIterSpec StaticIterProofs PropStatic VectorModel CompoundsSpec VectorProofs PrimModel.
Import ListNotations.

(** ** C86 *)

(** [+], [-], [*], [/], [%] between vectors, for element operators that may panic. *)
Theorem C86_elementwise A B O (op : A -> B -> out O) n a b c :
  length a = n -> Forall3 (fun x y z => op x y = Ret z) a b c ->
  vec_op op n a b = Ret c /\ vec_op_ref op n a b = Ret c.
Proof. intros L F. split; [apply vec_op_ret|apply vec_op_ref_ret]; auto. Qed.

Theorem C86_elementwise_panics A B O (op : A -> B -> out O) n a b i x y :
  (forall x y, op x y <> UB) -> length a = n -> length b = n ->
  nth_error a i = Some x -> nth_error b i = Some y -> op x y = Pan ->
  vec_op op n a b = Pan /\ vec_op_ref op n a b = Pan.
Proof. apply vec_op_pan. Qed.

(** Between a vector and a scalar. *)
Theorem C86_scalar A B O (op : A -> B -> out O) a s c :
  Forall2 (fun x z => op x s = Ret z) a c -> vec_op_scalar op a s = Ret c.
Proof. apply array_map_ret. Qed.

Theorem C86_scalar_panics A B O (op : A -> B -> out O) a s x :
  (forall x, op x s <> UB) -> In x a -> op x s = Pan -> vec_op_scalar op a s = Pan.
Proof. intros H. apply (array_map_pan (fun x => op x s)); auto. Qed.

(** The assigning forms. *)
Theorem C86_assign A B (op : A -> B -> out A) a b c :
  Forall3 (fun x y z => op x y = Ret z) a b c -> vec_assign op a b = Ret c.
Proof. apply each_pair_ret. Qed.

Theorem C86_assign_panics A B (op : A -> B -> out A) : (forall x y, op x y <> UB) -> forall a b i x y,
  nth_error a i = Some x -> nth_error b i = Some y -> op x y = Pan -> vec_assign op a b = Pan.
Proof.
  intros Hop. induction a as [|x0 a IH]; intros [|y0 b] [|i] x y Ha Hb E; try discriminate; unfold vec_assign in *; cbn in *.
  - injection Ha as ->. injection Hb as ->. rewrite E. auto.
  - destruct (op x0 y0) as [v| |] eqn:E0; cbn; auto; [|elim (Hop _ _ E0)]. rewrite (IH b i x y) by auto. auto.
Qed.

Theorem C86_assign_scalar A B (op : A -> B -> out A) a s c :
  Forall2 (fun x z => op x s = Ret z) a c -> vec_assign_scalar op a s = Ret c.
Proof. apply array_map_ret. Qed.

Lemma checked_items A B O (op : A -> B -> option O) n a b : length a = n -> length b = n ->
  let it := it_map (it_zip (into_iter a) (into_iter b)) (on_pair (fun x y => Ret (op x y))) tt in
  fresh n it /\ items n 0 it (map (fun p => op (fst p) (snd p)) (combine a b)).
Proof.
  intros La Lb. cbn [it_map it_zip fresh items]. split.
  - split; [intros c [x y]; discriminate|]. split; apply into_fresh; auto.
  - exists (combine a b). split.
    + exists a, b. auto using into_items.
    + clear. generalize (combine a b). induction l as [|[x y] l IH]; cbn; [constructor|].
      econstructor; [reflexivity|exact IH].
Qed.

Theorem C86_checked_some A B O (op : A -> B -> option O) n a b c :
  length a = n -> Forall3 (fun x y z => op x y = Some z) a b c -> vec_checked op n a b = Ret (Some c).
Proof.
  intros L F. pose proof (Forall3_length _ _ _ _ F) as [Lb Lc].
  destruct (checked_items A B O op n a b L) as [Fr It]; [lia|].
  assert (map (fun p => op (fst p) (snd p)) (combine a b) = map Some c) as E.
  { clear - F. induction F as [|x y z a b c E F IH]; cbn; auto. rewrite E, IH. auto. }
  rewrite E in It. destruct (C85_option_all_some O n _ c Fr It) as (a' & Q & _).
  unfold vec_checked. rewrite Q. auto.
Qed.

Theorem C86_checked_none A B O (op : A -> B -> option O) n a b i x y :
  length a = n -> length b = n -> nth_error a i = Some x -> nth_error b i = Some y -> op x y = None ->
  vec_checked op n a b = Ret None.
Proof.
  intros La Lb Ha Hb E. destruct (checked_items A B O op n a b La Lb) as [Fr It].
  assert (exists vs rest, map (fun p => op (fst p) (snd p)) (combine a b) = map Some vs ++ None :: rest) as (vs & rest & Q).
  { clear - Ha Hb E. revert i b Ha Hb. induction a as [|x0 a IH]; intros [|i] [|y0 b] Ha Hb; try discriminate; cbn in *.
    - injection Ha as ->. injection Hb as ->. exists [], (map (fun p => op (fst p) (snd p)) (combine a b)). rewrite E. auto.
    - destruct (op x0 y0) as [v|] eqn:E0.
      + destruct (IH i b Ha Hb) as (vs & rest & Q). exists (v :: vs), rest. rewrite Q. auto.
      + exists [], (map (fun p => op (fst p) (snd p)) (combine a b)). auto. }
  rewrite Q in It. destruct (C85_option_first_none O n _ vs rest Fr It) as (a' & P & _).
  unfold vec_checked. rewrite P. auto.
Qed.

(** The dot product is the sum of the products. *)
Theorem C86_dot T zero (add mul : T -> T -> T) a b c :
  Forall3 (fun x y z => z = mul x y) a b c ->
  dot_product zero (fun x y => Ret (add x y)) (fun x y => Ret (mul x y)) a b = Ret (sum_of zero add c).
Proof.
  intros F. unfold dot_product, sum_of. rewrite zip_fold_pure. do 2 f_equal.
  induction F as [|x y z a b c E F IH]; cbn; auto. rewrite IH, E. auto.
Qed.

Theorem C86_sum_product T zero one (add mul : T -> T -> T) n a : length a = n ->
  vec_sum zero (fun x y => Ret (add x y)) n a = Ret (sum_of zero add a) /\
  vec_product one (fun x y => Ret (mul x y)) n a = Ret (sum_of one mul a).
Proof.
  intros L. split; unfold vec_sum, vec_product.
  - destruct (C84_sum_items T zero add n _ a (into_items n a L)) as (a' & E). rewrite E. auto.
  - destruct (C84_product_items T one mul n _ a (into_items n a L)) as (a' & E). rewrite E. auto.
Qed.

(** [is_zero] holds exactly when every element is zero. *)
Theorem C86_is_zero T (is_zero : T -> bool) n a : length a = n ->
  exists r, vec_is_zero is_zero n a = Ret r /\ (r = true <-> forall x, In x a -> is_zero x = true).
Proof.
  intros L. destruct (C84_all_items T n _ a is_zero (ref_fresh n a L) (ref_items n a L)) as (a' & E & _).
  exists (forallb is_zero a). unfold vec_is_zero. rewrite E. split; auto. apply forallb_forall.
Qed.

(** ** C87 *)
Lemma triple_eq {A B C} (a a' : A) (b b' : B) (c c' : C) : a = a' -> b = b' -> c = c' -> (a, b, c) = (a', b', c').
Proof. congruence. Qed.

Section Ring.
Context {R : Type} (rO rI : R) (radd rmul rsub : R -> R -> R) (ropp : R -> R).
Context (RT : ring_theory rO rI radd rmul rsub ropp (@eq R)).
Add Ring Rring : RT.

Local Notation vec := (R * R * R)%type.
(** Written out component by component, independently of the model. *)
Definition dot3 (a b : vec) : R :=
  let '(x, y, z) := a in let '(u, v, w) := b in radd (radd (rmul x u) (rmul y v)) (rmul z w).
Definition vneg (a : vec) : vec := let '(x, y, z) := a in (ropp x, ropp y, ropp z).
Definition vadd (a b : vec) : vec := let '(x, y, z) := a in let '(u, v, w) := b in (radd x u, radd y v, radd z w).
Definition vscale (k : R) (a : vec) : vec := let '(x, y, z) := a in (rmul k x, rmul k y, rmul k z).

Theorem C87_orthogonal (a b : vec) : dot3 a (cross rsub rmul a b) = rO /\ dot3 b (cross rsub rmul a b) = rO.
Proof. destruct a as [[x y] z], b as [[u v] w]. cbn. split; ring. Qed.

Theorem C87_anticommutative (a b : vec) : cross rsub rmul b a = vneg (cross rsub rmul a b).
Proof. destruct a as [[x y] z], b as [[u v] w]. cbn. apply triple_eq; ring. Qed.

Theorem C87_self (a : vec) : cross rsub rmul a a = (rO, rO, rO).
Proof. destruct a as [[x y] z]. cbn. apply triple_eq; ring. Qed.

Theorem C87_bilinear k (a b c : vec) :
  cross rsub rmul (vadd (vscale k a) b) c = vadd (vscale k (cross rsub rmul a c)) (cross rsub rmul b c).
Proof. destruct a as [[x y] z], b as [[u v] w], c as [[p q] r]. cbn. apply triple_eq; ring. Qed.

Theorem C87_jacobi (a b c : vec) :
  vadd (vadd (cross rsub rmul a (cross rsub rmul b c)) (cross rsub rmul b (cross rsub rmul c a)))
       (cross rsub rmul c (cross rsub rmul a b)) = (rO, rO, rO).
Proof. destruct a as [[x y] z], b as [[u v] w], c as [[p q] r]. cbn. apply triple_eq; ring. Qed.

Theorem C87_lagrange (a b : vec) :
  dot3 (cross rsub rmul a b) (cross rsub rmul a b) =
  rsub (rmul (dot3 a a) (dot3 b b)) (rmul (dot3 a b) (dot3 a b)).
Proof. destruct a as [[x y] z], b as [[u v] w]. cbn. ring. Qed.

(** Right-handed: the product of the first two axes is the third. *)
Theorem C87_axes : cross rsub rmul (rI, rO, rO) (rO, rI, rO) = (rO, rO, rI).
Proof. cbn. apply triple_eq; ring. Qed.

(** ** C93, ring laws *)
Local Notation cx := (complex R).
Theorem C93_ring :
  ring_theory (c_zero rO) (c_one rO rI) (c_add radd) (c_mul radd rsub rmul) (c_sub rsub)
    (fun a => Cx (ropp (real a)) (ropp (imag a))) (@eq cx).
Proof.
  constructor; intros; repeat match goal with a : complex R |- _ => destruct a end;
    unfold c_zero, c_one, c_add, c_mul, c_sub, from_real; cbn; f_equal; ring.
Qed.

(** The imaginary unit squares to minus one. *)
Theorem C93_i_squared : c_mul radd rsub rmul (from_imag rO rI) (from_imag rO rI) = from_real rO (ropp rI).
Proof. unfold c_mul, from_imag, from_real; cbn. f_equal; ring. Qed.

Theorem C93_abs_squared_multiplicative (a b : cx) :
  abs_squared radd rmul (c_mul radd rsub rmul a b) = rmul (abs_squared radd rmul a) (abs_squared radd rmul b).
Proof. destruct a, b. unfold abs_squared, c_mul. cbn. ring. Qed.

(** Scalar operands act as real numbers. *)
Theorem C93_scalar (a : cx) (s : R) :
  c_add_scalar radd a s = c_add radd a (from_real rO s) /\
  c_sub_scalar rsub a s = c_sub rsub a (from_real rO s) /\
  c_mul_scalar rmul a s = c_mul radd rsub rmul a (from_real rO s).
Proof.
  destruct a. unfold c_add_scalar, c_sub_scalar, c_mul_scalar, c_add, c_sub, c_mul, from_real. cbn.
  repeat split; f_equal; ring.
Qed.
End Ring.

(** ** C93, field laws *)
Section Field.
Context {F : Type} (rO rI : F) (radd rmul rsub : F -> F -> F) (ropp : F -> F) (rdiv : F -> F -> F) (rinv : F -> F).
Context (FT : field_theory rO rI radd rmul rsub ropp rdiv rinv (@eq F)).
Add Field Ffield : FT.
Local Notation cx := (complex F).

Theorem C93_div (a b : cx) : abs_squared radd rmul b <> rO ->
  c_mul radd rsub rmul (c_div radd rsub rmul rdiv a b) b = a.
Proof. destruct a, b. unfold abs_squared, c_mul, c_div. cbn. intros H. f_equal; field; auto. Qed.

Theorem C93_div_scalar (a : cx) (s : F) : s <> rO ->
  c_div_scalar rmul rdiv a s = c_div radd rsub rmul rdiv a (from_real rO s).
Proof.
  destruct a. unfold c_div_scalar, c_div, from_real. cbn. intros H. f_equal; field; repeat split; auto;
  replace (radd (rmul s s) (rmul rO rO)) with (rmul s s) by ring; intros E; apply H;
    (transitivity (rmul (rinv s) (rmul s s)); [field; auto|rewrite E; ring]).
Qed.

(** Over a field where sums of two squares vanish only trivially, a field. *)
Theorem C93_field :
  (forall x y, radd (rmul x x) (rmul y y) = rO -> x = rO /\ y = rO) ->
  field_theory (c_zero rO) (c_one rO rI) (c_add radd) (c_mul radd rsub rmul) (c_sub rsub)
    (fun a => Cx (ropp (real a)) (ropp (imag a)))
    (c_div radd rsub rmul rdiv) (c_div radd rsub rmul rdiv (c_one rO rI)) (@eq cx).
Proof.
  intros Hsq. constructor.
  - apply C93_ring. apply FT.
  - intros E. injection E as E1. apply (F_1_neq_0 FT E1).
  - intros a b. destruct a as [a1 a2], b as [b1 b2].
    unfold c_div, c_mul, c_one, from_real. cbn. rewrite !(Fdiv_def FT).
    f_equal; ring.
  - intros a Ha. apply C93_div. unfold abs_squared. intros E. apply Hsq in E. destruct a as [a1 a2]. cbn in E.
    destruct E; subst. apply Ha. auto.
Qed.

Theorem C93_is_zero_one (eqb : F -> F -> bool) (Heq : forall x y, eqb x y = true <-> x = y) (a : cx) :
  (c_is_zero rO eqb a = true <-> a = c_zero rO) /\ (c_is_one rO rI eqb a = true <-> a = c_one rO rI).
Proof.
  destruct a as [x y]. unfold c_is_zero, c_is_one, c_eqb, c_zero, c_one, from_real. cbn.
  rewrite !andb_true_iff, !Heq. split; (split; [intros [-> ->]; auto|intros E; inversion E; auto]).
Qed.
End Field.

(** ** The hypotheses are met *)
Example C86_demo : vec_op (fun x y => Ret (x + y)%Z) 3 [1; 2; 3]%Z [10; 20; 30]%Z = Ret [11; 22; 33]%Z.
Proof. apply (C86_elementwise _ _ _ (fun x y => Ret (x + y)%Z) 3); repeat constructor. Qed.
Example C86_demo_panic : vec_op (fun x y => if (y =? 0)%Z then Pan else Ret (x / y)%Z) 3 [1; 2; 3]%Z [1; 0; 1]%Z = Pan.
Proof.
  apply (C86_elementwise_panics _ _ _ (fun x y => if (y =? 0)%Z then Pan else Ret (x / y)%Z) 3 _ _ 1 2%Z 0%Z); auto.
  intros x y. destruct (y =? 0)%Z; discriminate.
Qed.
Definition ex_checked_i8 (x y : Z) : option Z := if ((-128 <=? x + y) && (x + y <=? 127))%Z then Some (x + y)%Z else None.
Example C86_demo_checked_some : vec_checked ex_checked_i8 2 [100; -100]%Z [27; -28]%Z = Ret (Some [127; -128]%Z).
Proof. apply C86_checked_some; repeat constructor. Qed.
Example C86_demo_checked_none : vec_checked ex_checked_i8 3 [1; 100; 2]%Z [1; 28; 2]%Z = Ret None.
Proof. apply (C86_checked_none _ _ _ _ 3 _ _ 1 100%Z 28%Z); auto. Qed.
Example C86_demo_dot : dot_product 0%Z (fun x y => Ret (x + y)%Z) (fun x y => Ret (x * y)%Z) [1; 2; 3]%Z [4; 5; 6]%Z = Ret 32%Z.
Proof. apply (C86_dot Z 0%Z Z.add Z.mul _ _ [4; 10; 18]%Z). repeat constructor. Qed.
From Coq Require Import QArith Qcanon.
Example C87_demo := C87_jacobi 0%Z 1%Z Z.add Z.mul Z.sub Z.opp InitialRing.Zth.
Lemma Qc_sum_squares (x y : Qc) : (x * x + y * y)%Qc = Q2Qc 0 -> x = Q2Qc 0 /\ y = Q2Qc 0.
Proof.
  intros E.
  assert (forall z : Qc, (z * z)%Qc = Q2Qc 0 -> z = Q2Qc 0) as Z0.
  { intros z Hz. destruct (Qcmult_integral z z) as [H|H]; auto. }
  assert (forall z : Qc, (Q2Qc 0 <= z * z)%Qc) as P.
  { intros z. unfold Qcle. change (this (z * z)%Qc) with (Qred (this z * this z)). rewrite Qred_correct.
    change (this (Q2Qc 0)) with 0%Q. destruct (this z) as [a b]. unfold Qle, Qmult. cbn. rewrite Z.mul_1_r. apply Z.square_nonneg. }
  assert ((x * x)%Qc = Q2Qc 0) as Ex.
  { apply Qcle_antisym; [|apply P]. rewrite <- E. rewrite <- (Qcplus_0_r (x * x)) at 1.
    apply Qcplus_le_compat; [apply Qcle_refl|apply P]. }
  split; [auto|]. apply Z0. rewrite Ex, Qcplus_0_l in E. auto.
Qed.
Example C93_demo :
  field_theory (c_zero (Q2Qc 0)) (c_one (Q2Qc 0) (Q2Qc 1)) (c_add Qcplus) (c_mul Qcplus Qcminus Qcmult) (c_sub Qcminus)
    (fun a => Cx (Qcopp (real a)) (Qcopp (imag a))) (c_div Qcplus Qcminus Qcmult Qcdiv)
    (c_div Qcplus Qcminus Qcmult Qcdiv (c_one (Q2Qc 0) (Q2Qc 1))) (@eq (complex Qc)).
Proof. apply (C93_field _ _ _ _ _ _ _ _ Qcft Qc_sum_squares). Qed.

Print Assumptions C86_elementwise.
Print Assumptions C86_elementwise_panics.
Print Assumptions C86_scalar.
Print Assumptions C86_scalar_panics.
Print Assumptions C86_assign.
Print Assumptions C86_assign_panics.
Print Assumptions C86_assign_scalar.
Print Assumptions C86_checked_some.
Print Assumptions C86_checked_none.
Print Assumptions C86_dot.
Print Assumptions C86_sum_product.
Print Assumptions C86_is_zero.
Print Assumptions C87_orthogonal.
Print Assumptions C87_anticommutative.
Print Assumptions C87_self.
Print Assumptions C87_bilinear.
Print Assumptions C87_jacobi.
Print Assumptions C87_lagrange.
Print Assumptions C87_axes.
Print Assumptions C93_ring.
Print Assumptions C93_i_squared.
Print Assumptions C93_abs_squared_multiplicative.
Print Assumptions C93_scalar.
Print Assumptions C93_div.
Print Assumptions C93_div_scalar.
Print Assumptions C93_field.
Print Assumptions C93_is_zero_one.
