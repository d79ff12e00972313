(** C163: products of vectors, matrices and complex numbers of fixed-point numbers. *)
From Coq Require Import ZArith QArith Qround List Bool Lia Permutation.
From Verif Require Import Base Words BitSliceModel PrimModel PrimProofs FixedModel RealSpec StaticIterModel StaticIterSpec StaticIterProofs
  CompoundsSpec VectorModel VectorProofs MatrixModel MatrixProofs CompoundIntModel CompoundIntSpec PropCompoundInt CompoundRows FixedCompoundModel
  PropFixedCompound.
Import ListNotations.
Local Open Scope Z_scope.

(** ** Specification *)

(** How much too large a product of two numbers with [N] fraction bits is. *)
Definition factor (N : nat) : Q := inject_Z (2 ^ Z.of_nat N).
Fixpoint qprod (l : list Q) : Q := match l with [] => 1 | x :: l' => x * qprod l' end%Q.
Fixpoint zprod (l : list Z) : Z := match l with [] => 1 | x :: l' => x * zprod l' end.
Fixpoint qpow (q : Q) (n : nat) : Q := match n with O => 1 | S n' => q * qpow q n' end%Q.
(** The running products of [l] starting with [s]. *)
Definition partial_products (s : Z) (l : list Z) : list Z := map (fun k => s * zprod (firstn k l)) (seq 1 (length l)).
(** Entry in row [i], column [j] of the product of [a] and [b], as rationals. *)
Definition qentry (N : nat) (a b : list (list Z)) (n i j : nat) : Q :=
  qsum (map (fun k => fixed_val N (elt a i k) * fixed_val N (elt b k j))%Q (seq 0 n)).

(** ** Proofs *)

Lemma dot_rif t : forall a b s, returns_if_fit t
    (map (fun '(x, y) => x * y) (combine a b) ++
     map (fun k => s + zsum (firstn k (map (fun '(x, y) => x * y) (combine a b)))) (seq 1 (length (map (fun '(x, y) => x * y) (combine a b)))))
    (zip_fold (fq_add true t) (fq_mul true t) a b s) (s + zdot a b).
Proof.
  induction a as [|x a IH]; intros b s; [cbn; rewrite Z.add_0_r; apply rif_nil|]. destruct b as [|y b]; [cbn; rewrite Z.add_0_r; apply rif_nil|].
  cbn [combine map]. cbn [zip_fold]. unfold fq_mul at 1, fx_mul. unfold fq_add at 1, fx_add.
  pose proof (rif_cons t (s + x * y) _ (fun r => zip_fold (fq_add true t) (fq_mul true t) a b r) _ (IH b (s + x * y))) as [H1 H2].
  pose proof (rif_cons t (x * y) _ (fun v => obind (of_res (arith true t (s + v))) (zip_fold (fq_add true t) (fq_mul true t) a b)) _ (conj H1 H2)) as [K1 K2].
  rewrite !Forall_cons_iff, Forall_app in K1, K2. unfold returns_if_fit. rewrite Forall_app, partial_sums_from, Forall_cons_iff. cbn [zdot].
  rewrite Z.add_assoc. split; intros H; [apply K1|apply K2]; tauto.
Qed.

Lemma dot_any dbg t : forall a b s,
    Forall (fits t) (map (fun '(x, y) => x * y) (combine a b)) ->
    Forall (fits t) (map (fun k => s + zsum (firstn k (map (fun '(x, y) => x * y) (combine a b)))) (seq 1 (length (map (fun '(x, y) => x * y) (combine a b))))) ->
    zip_fold (fq_add dbg t) (fq_mul dbg t) a b s = Ret (s + zdot a b).
Proof.
  induction a as [|x a IH]; intros b s; [cbn; rewrite Z.add_0_r; auto|]. destruct b as [|y b]; [cbn; rewrite Z.add_0_r; auto|].
  cbn [combine map]. rewrite partial_sums_from, Forall_cons_iff. intros [H1 H2] [H3 H4]. cbn [zip_fold zdot]. unfold fq_mul at 1, fx_mul. unfold fq_add at 1, fx_add.
  rewrite (checked_in dbg t (x * y)) by auto. cbn [obind]. rewrite checked_in by auto. cbn [obind]. rewrite IH by auto. rewrite Z.add_assoc. auto.
Qed.

Lemma reduces_refl t s : fits t s -> reduces_to t s s.
Proof. intros F. split; auto. rewrite Z.sub_diag. apply Z.mod_0_l. pose proof (two_pow_pos (ibits t)). lia. Qed.
Lemma dot_release t : (0 < ibits t)%nat -> forall a b s, fits t s -> exists r, zip_fold (fq_add false t) (fq_mul false t) a b s = Ret r /\ reduces_to t (s + zdot a b) r.
Proof.
  intros Hb. induction a as [|x a IH]; intros b s F; [exists s; cbn; rewrite Z.add_0_r; split; auto; apply reduces_refl; auto|].
  destruct b as [|y b]; [exists s; cbn; rewrite Z.add_0_r; split; auto; apply reduces_refl; auto|].
  cbn [zip_fold zdot]. unfold fq_mul at 1, fx_mul. unfold fq_add at 1, fx_add.
  destruct (released t (x * y) Hb) as (p & -> & R1 & E1). cbn [obind]. destruct (released t (s + p) Hb) as (q & -> & R2 & E2). cbn [obind].
  destruct (IH b q) as (r & E & R); [apply R2|]. exists r. split; auto. eapply reduces_mod; [exact R|].
  rewrite Zplus_mod, E2, <- Zplus_mod. replace (s + p + zdot a b) with (p + (s + zdot a b)) by ring.
  rewrite Zplus_mod, E1, <- Zplus_mod. f_equal. ring.
Qed.

(** Dot products: too large by the factor 2^N. *)
Theorem C163_dot_partial : forall t N a b, (0 < ibits t)%nat ->
  (Forall (fits t) (dot_steps a b) -> forall dbg, exists r, fv_dot dbg t a b = Ret r /\
     (fixed_val N r == factor N * qdot (map (fixed_val N) a) (map (fixed_val N) b))%Q) /\
  (~ Forall (fits t) (dot_steps a b) -> fv_dot true t a b = Pan) /\
  exists r, fv_dot false t a b = Ret r /\ reduces_to t (zdot a b) r.
Proof.
  intros t N a b Hb. unfold fv_dot, dot_product, fx_new, dot_steps, partial_sums.
  assert (forall l, map (fun k => zsum (firstn k l)) (seq 1 (length l)) = map (fun k => 0 + zsum (firstn k l)) (seq 1 (length l))) as Z0 by reflexivity.
  rewrite Z0. repeat apply conj.
  - intros F dbg. apply Forall_app in F. destruct F as [F1 F2]. exists (zdot a b). split; [apply (dot_any dbg t a b 0); auto|apply fv_dot_q].
  - apply (dot_rif t a b 0).
  - apply (dot_release t Hb a b 0). apply imin_le0. auto.
Qed.
Print Assumptions C163_dot_partial.

(** So a dot product is right exactly when it is zero or the format has no fraction bits. *)
Lemma factor_one N q : (factor N * q == q)%Q <-> (N = 0)%nat \/ (q == 0)%Q.
Proof.
  unfold factor. split.
  - intros E. destruct N as [|N]; auto. right. assert ((inject_Z (2 ^ Z.of_nat (S N)) - 1) * q == 0)%Q as E' by (ring_simplify; rewrite E; ring).
    apply Qmult_integral in E'. destruct E' as [E'|E']; auto. exfalso. pose proof (Z.pow_le_mono_r 2 1 (Z.of_nat (S N)) ltac:(lia) ltac:(lia)).
    unfold Qminus, inject_Z, Qeq, Qplus, Qopp in E'. cbn [Qnum Qden] in E'. rewrite Z.pow_1_r in *. lia.
  - intros [->|E]; [change (inject_Z (2 ^ Z.of_nat 0)) with 1%Q; ring|rewrite E; ring].
Qed.

Theorem C163_dot_right_partial : forall dbg t N a b, (0 < ibits t)%nat -> Forall (fits t) (dot_steps a b) ->
  let exact := qdot (map (fixed_val N) a) (map (fixed_val N) b) in
  (exists r, fv_dot dbg t a b = Ret r /\ (fixed_val N r == exact)%Q) <-> (N = 0)%nat \/ (exact == 0)%Q.
Proof.
  intros dbg t N a b Hb F exact. destruct (proj1 (C163_dot_partial t N a b Hb) F dbg) as (r & E & V). fold exact in V. rewrite <- factor_one. split.
  - intros (r' & E' & V'). assert (r' = r) as -> by congruence. rewrite <- V, V'. reflexivity.
  - intros H. exists r. split; auto. rewrite V. auto.
Qed.
Print Assumptions C163_dot_right_partial.

Lemma first_sum_seq (v : Z -> Q) (f : nat -> Z) (g : nat -> Q) (c : Q) n : (v 0%Z == 0)%Q -> (forall x y, v (x + y)%Z == v x + v y)%Q -> (forall k, v (f k) == c * g k)%Q ->
  (v (first_sum f n) == c * qsum (map g (seq 0 n)))%Q.
Proof.
  intros V0 Vp Vf. induction n as [|n IH]; cbn [first_sum].
  - cbn. rewrite V0. ring.
  - rewrite Vp, IH, Vf. rewrite seq_S, map_app. cbn [map Nat.add].
    assert (forall l x, (qsum (l ++ [x]) == qsum l + x)%Q) as Sa. { intros l x. induction l; cbn [qsum app]; [ring|]. rewrite IHl. ring. }
    rewrite Sa. ring.
Qed.

(** Matrix products. *)
Theorem C163_matrix_partial : forall t N row col col2 a b, (0 < ibits t)%nat -> (0 < col)%nat -> shape row col a -> shape col col2 b ->
  let product i j k := elt a i k * elt b k j in
  let all_fit i j := forall k, (k < col)%nat -> fits t (product i j k) /\ fits t (first_sum (product i j) (S k)) in
  ((forall i j, (i < row)%nat -> (j < col2)%nat -> all_fit i j) ->
     exists p, fm_mul true t row col col2 a b = Ret p /\ shape row col2 p /\
       forall i j, (i < row)%nat -> (j < col2)%nat -> (fixed_val N (elt p i j) == factor N * qentry N a b col i j)%Q) /\
  (forall i j, (i < row)%nat -> (j < col2)%nat -> ~ all_fit i j -> fm_mul true t row col col2 a b = Pan) /\
  exists p, fm_mul false t row col col2 a b = Ret p /\ shape row col2 p /\
    forall i j, (i < row)%nat -> (j < col2)%nat -> reduces_to t (first_sum (product i j) col) (elt p i j).
Proof.
  intros t N row col col2 a b Hb Hc Sa Sb product all_fit.
  assert (forall dbg, fm_mul dbg t row col col2 a b = mati_mul dbg t row col col2 a b) as E by reflexivity.
  destruct (C137_matrix_product t row col col2 a b Hb Hc Sa Sb) as (H1 & H2 & H3). rewrite !E. split; [|split]; auto.
  intros F. destruct (H1 F) as (p & Ep & Sp & Vp). exists p. split; auto. split; auto. intros i j Hi Hj. rewrite Vp by auto. unfold qentry.
  apply (first_sum_seq (fixed_val N)); [apply fv_zero|apply fv_plus|intros; unfold factor; apply fv_times].
Qed.
Print Assumptions C163_matrix_partial.

(** Cross products of three-dimensional vectors. *)
Theorem C163_cross_partial : forall t N ax ay az bx by_ bz, (0 < ibits t)%nat -> let v := fixed_val N in
  let raws := [ay * bz; az * by_; az * bx; ax * bz; ax * by_; ay * bx; ay * bz - az * by_; az * bx - ax * bz; ax * by_ - ay * bx] in
  (Forall (fits t) raws -> exists x y z, fv_cross true t (ax, ay, az) (bx, by_, bz) = Ret (x, y, z) /\
     (v x == factor N * (v ay * v bz - v az * v by_))%Q /\ (v y == factor N * (v az * v bx - v ax * v bz))%Q /\
     (v z == factor N * (v ax * v by_ - v ay * v bx))%Q) /\
  (~ Forall (fits t) raws -> fv_cross true t (ax, ay, az) (bx, by_, bz) = Pan).
Proof.
  intros t N ax ay az bx by_ bz Hb v raws. destruct (C137_cross t ax ay az bx by_ bz Hb) as ([H1 H2] & _).
  assert (forall a b, fv_cross true t a b = crossi true t a b) as E by reflexivity. rewrite !E. split; auto.
  intros F. do 3 eexists. split; [apply H1; exact F|]. unfold v, factor. rewrite !fv_minus, !fv_times. repeat split; ring.
Qed.
Print Assumptions C163_cross_partial.

(** Complex products, and products with a scalar. *)
Theorem C163_complex_partial : forall t N ar ai br bi s, let v := fixed_val N in
  let good (r : out (complex Z)) raws re im :=
    (Forall (fits t) raws -> exists c, r = Ret c /\ (v (real c) == factor N * re)%Q /\ (v (imag c) == factor N * im)%Q) /\
    (~ Forall (fits t) raws -> r = Pan) in
  good (fc_mul true t (Cx ar ai) (Cx br bi)) [ar * br; ai * bi; ar * br - ai * bi; ar * bi; br * ai; ar * bi + br * ai]
    (v ar * v br - v ai * v bi)%Q (v ar * v bi + v ai * v br)%Q /\
  good (fc_mul_scalar true t (Cx ar ai) s) [ar * s; ai * s] (v ar * v s)%Q (v ai * v s)%Q.
Proof.
  intros t N ar ai br bi s v good. destruct (C135_checked t ar ai br bi s) as (_ & _ & [H1 H2] & _ & _ & [K1 K2]).
  assert (forall a b, fc_mul true t a b = ci_mul true t a b) as E by reflexivity.
  assert (forall a b, fc_mul_scalar true t a b = ci_mul_scalar true t a b) as E' by reflexivity.
  unfold good, v, factor. rewrite E, E'. repeat apply conj; auto; intros F; [specialize (H1 F)|specialize (K1 F)]; eexists; (split; [eauto|]); cbn [real imag];
    rewrite ?fv_plus, ?fv_minus, ?fv_times; split; ring.
Qed.
Print Assumptions C163_complex_partial.

(** The square of the absolute value. *)
Theorem C163_abs_squared_partial : forall t N ar ai, let v := fixed_val N in let raws := [ar * ar; ai * ai; ar * ar + ai * ai] in
  (Forall (fits t) raws -> forall dbg, exists r, fc_abs_squared dbg t (Cx ar ai) = Ret r /\ (v r == factor N * (v ar * v ar + v ai * v ai))%Q) /\
  (~ Forall (fits t) raws -> fc_abs_squared true t (Cx ar ai) = Pan).
Proof.
  intros t N ar ai v raws. split.
  - intros F dbg. unfold raws in F. repeat match goal with H : Forall _ (_ :: _) |- _ => inversion H; clear H; subst end.
    unfold fc_abs_squared, fq_mul, fq_add, fx_mul, fx_add. cbn [real imag]. rewrite !checked_in by auto. cbn [obind]. rewrite checked_in by auto.
    eexists. split; [reflexivity|]. unfold v, factor. rewrite fv_plus, !fv_times. ring.
  - apply (rif_cons t (ar * ar) [ai * ai; ar * ar + ai * ai]
      (fun x => obind (of_res (arith true t (ai * ai))) (fun y => of_res (arith true t (x + y)))) (ar * ar + ai * ai)).
    apply (rif_cons t (ai * ai) [ar * ar + ai * ai] (fun y => of_res (arith true t (ar * ar + y))) (ar * ar + ai * ai)).
    split; intros F; [inversion F; subst; apply checked_in; auto|apply checked_out; intros F'; apply F; constructor; auto].
Qed.
Print Assumptions C163_abs_squared_partial.

(** Complex quotients: the raw values are the parts of the true quotient rounded toward zero, so what is returned is the
    quotient without its fraction, too small by the factor 2^N. *)
Definition trunc (q : Q) : Z := Z.quot (Qnum q) (Zpos (Qden q)).
Lemma trunc_div x y : 0 < y -> Z.quot x y = trunc (x # Z.to_pos y).
Proof. intros H. unfold trunc. cbn [Qnum Qden]. rewrite Z2Pos.id by auto. auto. Qed.
Lemma trunc_eq p q : (p == q)%Q -> trunc p = trunc q.
Proof.
  unfold Qeq, trunc. destruct p as [a b], q as [c d]. cbn [Qnum Qden]. intros E.
  rewrite <- (Z.quot_mul_cancel_r a (Zpos b) (Zpos d)) by discriminate. rewrite E.
  rewrite (Z.mul_comm (Zpos b) (Zpos d)). apply Z.quot_mul_cancel_r; discriminate.
Qed.
Theorem C163_quotient_partial : forall dbg t N ar ai br bi, (0 < ibits t)%nat -> br <> 0 \/ bi <> 0 -> Forall (fits t) (div_values ar ai br bi) ->
  let v := fixed_val N in let n := (v br * v br + v bi * v bi)%Q in
  exists c, fc_div dbg t (Cx ar ai) (Cx br bi) = Ret c /\
    real c = trunc ((v ar * v br + v ai * v bi) / n) /\ imag c = trunc ((v ai * v br - v ar * v bi) / n).
Proof.
  intros dbg t N ar ai br bi Hb Nz F v n. assert (forall a b, fc_div dbg t a b = ci_div dbg t a b) as E by reflexivity.
  eexists. split; [rewrite E; apply (proj1 (proj2 (C135_quotient dbg t ar ai br bi Hb)) Nz F)|]. cbn [real imag].
  assert (0 < br * br + bi * bi) as P by nia. pose proof (pow_pos_Q N) as Hp. set (e := inject_Z (2 ^ Z.of_nat N)) in *.
  assert (~ inject_Z (br * br + bi * bi) == 0)%Q as Hn by (unfold inject_Z, Qeq; cbn [Qnum Qden]; lia).
  assert (forall x, (x # Z.to_pos (br * br + bi * bi) == inject_Z x / inject_Z (br * br + bi * bi))%Q) as Fr.
  { intros x. rewrite Qmake_Qdiv. rewrite Z2Pos.id by auto. reflexivity. }
  split; rewrite trunc_div by auto; apply trunc_eq; rewrite Fr; unfold n, v, fixed_val; fold e; unfold Z.sub;
    rewrite !inject_Z_plus, ?inject_Z_opp, !inject_Z_mult in *; field; split; auto.
Qed.
Print Assumptions C163_quotient_partial.

(** The product of the elements of a vector: the raw product of the elements, times the raw one. *)
Lemma product_rif t : forall l s, returns_if_fit t (partial_products s l) (ofold (fq_mul true t) l s) (s * zprod l).
Proof.
  induction l as [|x l IH]; intros s; cbn [ofold zprod].
  - rewrite Z.mul_1_r. apply rif_nil.
  - destruct (rif_cons t (s * x) _ (ofold (fq_mul true t) l) _ (IH (s * x))) as [H1 H2].
    assert (partial_products s (x :: l) = s * x :: partial_products (s * x) l) as ->.
    { unfold partial_products. cbn [length seq map firstn zprod]. f_equal; [ring|]. rewrite <- seq_shift, map_map. apply map_ext. intros k. cbn [firstn zprod]. ring. }
    rewrite Z.mul_assoc. split; auto.
Qed.
Lemma product_any dbg t : forall l s, Forall (fits t) (partial_products s l) -> ofold (fq_mul dbg t) l s = Ret (s * zprod l).
Proof.
  induction l as [|x l IH]; intros s; cbn [ofold zprod]; [rewrite Z.mul_1_r; auto|].
  assert (partial_products s (x :: l) = s * x :: partial_products (s * x) l) as ->.
  { unfold partial_products. cbn [length seq map firstn zprod]. f_equal; [ring|]. rewrite <- seq_shift, map_map. apply map_ext. intros k. cbn [firstn zprod]. ring. }
  intros F. inversion F; subst. unfold fq_mul at 1, fx_mul. rewrite checked_in by auto. cbn [obind]. rewrite IH by auto. rewrite Z.mul_assoc. auto.
Qed.
Lemma fv_prod_q N l : (inject_Z (zprod l) == qpow (factor N) (length l) * qprod (map (fixed_val N) l))%Q.
Proof.
  induction l as [|x l IH]; cbn [zprod qpow qprod map length]; [reflexivity|]. rewrite inject_Z_mult, IH. unfold fixed_val, factor. field. apply pow_pos_Q.
Qed.
Lemma one_fits dbg t N : (0 < ibits t)%nat -> fits t (2 ^ Z.of_nat N) -> fx_one dbg t N = Ok (2 ^ Z.of_nat N).
Proof.
  intros Hb F. unfold fx_one, prim_shl. assert (N < ibits t)%nat as L.
  { unfold fits in F. destruct (Nat.lt_ge_cases N (ibits t)); auto. exfalso. destruct F as [_ F]. unfold imax in F.
    pose proof (Z.pow_le_mono_r 2 (Z.of_nat (ibits t)) (Z.of_nat N) ltac:(lia) ltac:(lia)).
    pose proof (Z.pow_le_mono_r 2 (Z.of_nat (ibits t) - 1) (Z.of_nat (ibits t)) ltac:(lia) ltac:(lia)). destruct (isigned t); lia. }
  rewrite (proj2 (Nat.ltb_lt _ _) L). rewrite Z.shiftl_mul_pow2, Z.mul_1_l, wrap_id by (auto; lia). auto.
Qed.
Theorem C163_product_partial : forall t N n a, (0 < ibits t)%nat -> length a = n -> fits t (2 ^ Z.of_nat N) ->
  (Forall (fits t) (partial_products (2 ^ Z.of_nat N) a) -> forall dbg, exists r, fv_product dbg t N n a = Ret r /\
     (fixed_val N r == qpow (factor N) n * qprod (map (fixed_val N) a))%Q) /\
  (~ Forall (fits t) (partial_products (2 ^ Z.of_nat N) a) -> fv_product true t N n a = Pan).
Proof.
  intros t N n a Hb L F1.
  assert (forall dbg, fv_product dbg t N n a = ofold (fq_mul dbg t) a (2 ^ Z.of_nat N)) as E.
  { intros dbg. unfold fv_product. rewrite one_fits by auto. cbn [of_res obind]. unfold vec_product, it_product. apply (fold_value _ n _ a). apply into_items. auto. }
  rewrite E. split; [|apply product_rif]. intros F dbg. rewrite E. eexists. split; [apply product_any; auto|].
  unfold fixed_val at 1. rewrite inject_Z_mult. rewrite (fv_prod_q N a), L. field. apply pow_pos_Q.
Qed.
Print Assumptions C163_product_partial.

(** A type without a one, for it has no more bits than fraction bits: with overflow checks every product panics, also that of no
    elements; without them the number of fraction bits is reduced. *)
Theorem C163_product_no_one_partial : forall t N n a, (0 < ibits t <= N)%nat ->
  fv_product true t N n a = Pan /\ fv_product false t N n a = fv_product false t (Nat.modulo N (ibits t)) n a.
Proof.
  intros t N n a H. unfold fv_product, fx_one, prim_shl. rewrite (proj2 (Nat.ltb_ge N (ibits t))) by lia. split; [reflexivity|].
  rewrite (proj2 (Nat.ltb_lt (Nat.modulo N (ibits t)) (ibits t))) by (apply Nat.mod_upper_bound; lia). rewrite <- Nat2Z.inj_mod. reflexivity.
Qed.
Print Assumptions C163_product_no_one_partial.
Example C163_demo_no_one : let i8 := {| ibits := 8; isigned := true |} in
  fv_product true i8 9 2 [3; 4] = Pan /\ fv_product false i8 9 2 [3; 4] = Ret 24.
Proof. vm_compute. auto. Qed.

(** As stated the property is false: with one fraction bit, [1.0] . [1.5] is 3 and (1 + 0i) * (1.5 + 0i) is 3; the sole entry
    of the product of two one-by-one matrices and the product of the elements of a one-element vector are wrong in the same way. *)
Theorem C163_refuted : let i8 := {| ibits := 8; isigned := true |} in let v := fixed_val 1 in exists one x y,
  (v one == 1)%Q /\ (v x == 3 # 2)%Q /\ (v y == 3)%Q /\ forall dbg,
  fv_dot dbg i8 [one] [x] = Ret y /\ fm_mul dbg i8 1 1 1 [[one]] [[x]] = Ret [[y]] /\
  fv_cross dbg i8 (one, 0, 0) (0, x, 0) = Ret (0, 0, y) /\
  fc_mul dbg i8 (Cx one 0) (Cx x 0) = Ret (Cx y 0) /\ fv_product dbg i8 1 1 [x] = Ret y /\
  fc_div dbg i8 (Cx y 0) (Cx one 0) = Ret (Cx x 0).
Proof. exists 2, 3, 6. repeat split; destruct dbg; vm_compute; reflexivity. Qed.
Print Assumptions C163_refuted.

(** [1.5, -0.5] . [2.0, 3.0] with two fraction bits: 6.0 where 1.5 is right; 16.0 . 16.0 overflows. *)
Example C163_demo : let i8 := {| ibits := 8; isigned := true |} in
  Forall (fits i8) (dot_steps [6; -2] [8; 12]) /\ fv_dot true i8 [6; -2] [8; 12] = Ret 24 /\ (fixed_val 2 24 == factor 2 * (3 # 2))%Q /\
  fv_dot true i8 [64] [64] = Pan /\ fv_dot false i8 [64] [64] = Ret 0 /\
  fm_mul true i8 1 2 1 [[6; -2]] [[8]; [12]] = Ret [[24]] /\ fc_mul true i8 (Cx 6 (-2)) (Cx 4 3) = Ret (Cx 30 10) /\
  fc_div true i8 (Cx 15 5) (Cx 6 (-2)) = Ret (Cx 2 1) /\ Forall (fits i8) (div_values 15 5 6 (-2)) /\
  fc_abs_squared true i8 (Cx 6 (-2)) = Ret 40 /\ fits i8 (2 ^ Z.of_nat 2) /\ fv_product true i8 2 2 [2; 3] = Ret 24.
Proof. repeat split; try (vm_compute; reflexivity); try (vm_compute; discriminate); repeat constructor; vm_compute; discriminate. Qed.
