(** C162, C163: vectors, matrices and complex numbers of fixed-point numbers. *)
From Coq Require Import ZArith QArith Qround List Bool Lia.
From Verif Require Import Base Words BitSliceModel PrimModel PrimProofs FixedModel RealSpec StaticIterModel StaticIterSpec StaticIterProofs
  CompoundsSpec VectorModel VectorProofs MatrixModel MatrixProofs CompoundIntModel CompoundIntSpec PropCompoundInt CompoundRows FixedCompoundModel.
Import ListNotations.
Local Open Scope Z_scope.

(** ** Specification *)

(** Sums of integers and of rationals; all the partial sums. *)
Fixpoint zsum (l : list Z) : Z := match l with [] => 0 | x :: l' => x + zsum l' end.
Fixpoint qsum (l : list Q) : Q := match l with [] => 0 | x :: l' => x + qsum l' end%Q.
Fixpoint qdot (a b : list Q) : Q := match a, b with x :: a', y :: b' => x * y + qdot a' b' | _, _ => 0 end%Q.
Fixpoint zdot (a b : list Z) : Z := match a, b with x :: a', y :: b' => x * y + zdot a' b' | _, _ => 0 end.
Definition partial_sums (l : list Z) : list Z := map (fun k => zsum (firstn k l)) (seq 1 (length l)).
(** The products and partial sums of a dot product. *)
Definition dot_steps (a b : list Z) : list Z :=
  map (fun '(x, y) => x * y) (combine a b) ++ partial_sums (map (fun '(x, y) => x * y) (combine a b)).

(** ** Values *)

Lemma pow_pos_Q N : ~ (inject_Z (2 ^ Z.of_nat N) == 0)%Q.
Proof. pose proof (Z.pow_pos_nonneg 2 (Z.of_nat N) ltac:(lia) ltac:(lia)). unfold inject_Z, Qeq. cbn [Qnum Qden]. lia. Qed.
Lemma fv_plus N x y : (fixed_val N (x + y) == fixed_val N x + fixed_val N y)%Q.
Proof. unfold fixed_val. rewrite inject_Z_plus. field. apply pow_pos_Q. Qed.
Lemma fv_minus N x y : (fixed_val N (x - y) == fixed_val N x - fixed_val N y)%Q.
Proof. unfold fixed_val, Z.sub. rewrite inject_Z_plus, inject_Z_opp. field. apply pow_pos_Q. Qed.
Lemma fv_times N x y : (fixed_val N (x * y) == inject_Z (2 ^ Z.of_nat N) * (fixed_val N x * fixed_val N y))%Q.
Proof. unfold fixed_val. rewrite inject_Z_mult. field. apply pow_pos_Q. Qed.
Lemma fv_zero N : (fixed_val N 0 == 0)%Q.
Proof. unfold fixed_val. unfold Qdiv. ring. Qed.
Lemma fv_sum_q N l : (fixed_val N (zsum l) == qsum (map (fixed_val N) l))%Q.
Proof. induction l as [|x l IH]; cbn [zsum qsum map]; [apply fv_zero|]. rewrite fv_plus, IH. reflexivity. Qed.
Lemma fv_dot_q N a : forall b, (fixed_val N (zdot a b) == inject_Z (2 ^ Z.of_nat N) * qdot (map (fixed_val N) a) (map (fixed_val N) b))%Q.
Proof.
  induction a as [|x a IH]; intros [|y b]; cbn [zdot qdot map]; try (rewrite fv_zero; ring). rewrite fv_plus, fv_times, IH. ring.
Qed.

(** ** Sums *)

Lemma partial_sums_from s l : forall P : Z -> Prop,
  Forall P (map (fun k => s + zsum (firstn k l)) (seq 1 (length l))) <->
  match l with [] => True | x :: l' => P (s + x) /\ Forall P (map (fun k => (s + x) + zsum (firstn k l')) (seq 1 (length l'))) end.
Proof.
  intros P. destruct l as [|x l]; [cbn; split; auto|]. cbn [length seq map]. rewrite Forall_cons_iff. cbn [firstn zsum]. rewrite Z.add_0_r.
  rewrite <- seq_shift, map_map. split; intros [H1 H2]; split; auto; rewrite Forall_forall in *; intros z I; apply H2; apply in_map_iff in I; apply in_map_iff;
    destruct I as (k & <- & I); exists k; split; auto; cbn [firstn zsum]; ring.
Qed.

Lemma sum_fold t : forall l s, returns_if_fit t (map (fun k => s + zsum (firstn k l)) (seq 1 (length l))) (ofold (fq_add true t) l s) (s + zsum l).
Proof.
  induction l as [|x l IH]; intros s; cbn [ofold zsum].
  - rewrite Z.add_0_r. apply rif_nil.
  - destruct (rif_cons t (s + x) _ (ofold (fq_add true t) l) _ (IH (s + x))) as [H1 H2]. unfold returns_if_fit.
    rewrite (partial_sums_from s (x :: l)). rewrite Forall_cons_iff in H1, H2. rewrite Z.add_assoc. split; auto.
Qed.

Lemma sum_value dbg t n a : length a = n -> fv_sum dbg t n a = ofold (fq_add dbg t) a 0.
Proof. intros L. unfold fv_sum, vec_sum, it_sum, fx_new. apply (fold_value _ n _ a). apply into_items. auto. Qed.

Lemma sum_fold_any dbg t : forall l s, Forall (fits t) (map (fun k => s + zsum (firstn k l)) (seq 1 (length l))) ->
  ofold (fq_add dbg t) l s = Ret (s + zsum l).
Proof.
  induction l as [|x l IH]; intros s H; cbn [ofold zsum]; [rewrite Z.add_0_r; auto|].
  apply partial_sums_from in H. destruct H as [H1 H2]. unfold fq_add at 1, fx_add. rewrite checked_in by auto. cbn [obind].
  rewrite IH by auto. rewrite Z.add_assoc. auto.
Qed.

Lemma sum_fold_release t : (0 < ibits t)%nat -> forall l s, exists r, ofold (fq_add false t) l s = Ret r /\
  (r - (s + zsum l)) mod 2 ^ Z.of_nat (ibits t) = 0 /\ (fits t s -> fits t r).
Proof.
  intros Hb. pose proof (two_pow_pos (ibits t)) as Hp. induction l as [|x l IH]; intros s; cbn [ofold zsum].
  - exists s. split; auto. split; auto. replace (s - (s + 0)) with 0 by ring. apply Z.mod_0_l. lia.
  - destruct (released t (s + x) Hb) as (y & E & [F M] & _). unfold fq_add at 1, fx_add. rewrite E. cbn [obind].
    destruct (IH y) as (r & Er & Mr & Fr). exists r. split; auto. split; auto.
    replace (r - (s + (x + zsum l))) with ((r - (y + zsum l)) + (y - (s + x))) by ring. rewrite Z.add_mod, Mr, M by lia. apply Z.mod_0_l. lia.
Qed.

(** [sum]: exact in every build if all partial sums, from the left, fit; otherwise a panic with overflow checks, and without them the sum
    reduced modulo 2^bits. *)
Theorem C162_sum : forall t N n a, (0 < ibits t)%nat -> length a = n -> fits t 0 ->
  (Forall (fits t) (partial_sums a) -> forall dbg, exists r, fv_sum dbg t n a = Ret r /\ (fixed_val N r == qsum (map (fixed_val N) a))%Q) /\
  (~ Forall (fits t) (partial_sums a) -> fv_sum true t n a = Pan) /\
  exists r, fv_sum false t n a = Ret r /\ reduces_to t (zsum a) r.
Proof.
  intros t N n a Hb L F0. rewrite !sum_value by auto. pose proof (sum_fold t a 0) as [H1 H2].
  change (map (fun k => 0 + zsum (firstn k a)) (seq 1 (length a))) with (partial_sums a) in *. split; [|split]; auto.
  - intros H dbg. rewrite sum_value by auto. exists (zsum a). split; [apply (sum_fold_any dbg t a 0); exact H|apply fv_sum_q].
  - destruct (sum_fold_release t Hb a 0) as (r & E & M & F). exists r. split; auto. split; auto.
Qed.
Print Assumptions C162_sum.

(** ** Element by element *)

(** [+] and [-], with the operations on raw values and on the numbers they denote. *)
Definition fixed_ops (dbg : bool) (t : ity) : list ((Z -> Z -> out Z) * (Z -> Z -> Z) * (Q -> Q -> Q)) :=
  [(fq_add dbg t, Z.add, Qplus); (fq_sub dbg t, Z.sub, Qminus)].

Lemma ops_cases dbg t op zop qop : In (op, zop, qop) (fixed_ops dbg t) ->
  (forall x y, op x y = of_res (arith dbg t (zop x y))) /\ (forall N x y, (fixed_val N (zop x y) == qop (fixed_val N x) (fixed_val N y))%Q).
Proof. intros [E|[E|[]]]; injection E as <- <- <-; split; intros; try reflexivity; [apply fv_plus|apply fv_minus]. Qed.

Lemma forall3_build {A B C} (R : A -> B -> C -> Prop) a b : length a = length b ->
  (forall x y, In (x, y) (combine a b) -> exists z, R x y z) -> exists c, Forall3 R a b c.
Proof.
  revert b. induction a as [|x a IH]; intros [|y b] L H; try discriminate; [exists []; constructor|].
  destruct (IH b) as [c F]; [injection L; auto|intros; apply H; right; auto|]. destruct (H x y) as [z Hz]; [left; auto|]. exists (z :: c). constructor; auto.
Qed.
Lemma forall3_impl {A B C} (R S : A -> B -> C -> Prop) a b c : (forall x y z, R x y z -> S x y z) -> Forall3 R a b c -> Forall3 S a b c.
Proof. intros H F. induction F; constructor; auto. Qed.

Lemma of_res_not_ub {A} (r : res A) : of_res r <> UB.
Proof. destruct r; discriminate. Qed.

(** Vectors, and a vector with a scalar. *)
Theorem C162_elementwise : forall dbg t N op zop qop n a b, (0 < ibits t)%nat -> In (op, zop, qop) (fixed_ops dbg t) -> length a = n -> length b = n ->
  ((forall x y, In (x, y) (combine a b) -> fits t (zop x y)) ->
     exists c, fv_op op n a b = Ret c /\ Forall3 (fun x y z => (fixed_val N z == qop (fixed_val N x) (fixed_val N y))%Q) a b c) /\
  (dbg = true -> (exists x y, In (x, y) (combine a b) /\ ~ fits t (zop x y)) -> fv_op op n a b = Pan) /\
  (dbg = false -> exists c, fv_op op n a b = Ret c /\ Forall3 (fun x y z => reduces_to t (zop x y) z) a b c) /\
  (forall s, b = repeat s n -> fv_scalar op a s = fv_op op n a b).
Proof.
  intros dbg t N op zop qop n a b Hb I La Lb. destruct (ops_cases _ _ _ _ _ I) as [Eo Vo]. unfold fv_op, fv_scalar. repeat apply conj.
  - intros F. destruct (forall3_build (fun x y z => op x y = Ret z /\ (fixed_val N z == qop (fixed_val N x) (fixed_val N y))%Q) a b) as [c G]; [congruence| |].
    + intros x y J. exists (zop x y). rewrite Eo, checked_in by auto. auto.
    + exists c. split; [apply vec_op_ret; auto|]; eapply forall3_impl; try exact G; cbn; tauto.
  - intros -> (x & y & J & F). apply In_nth_error in J. destruct J as [i J].
    assert (nth_error a i = Some x /\ nth_error b i = Some y) as [Ja Jb].
    { clear - J. revert b i J. induction a as [|u a IH]; intros [|v b] [|i] J; try discriminate; cbn in *; [injection J as -> ->; auto|apply IH; auto]. }
    apply (vec_op_pan op n a b i x y); auto; [intros; rewrite Eo; apply of_res_not_ub|]. rewrite Eo. apply checked_out. auto.
  - intros ->. destruct (forall3_build (fun x y z => op x y = Ret z /\ reduces_to t (zop x y) z) a b) as [c G]; [congruence| |].
    + intros x y _. rewrite Eo. destruct (released t (zop x y) Hb) as (z & E & R & _). exists z. auto.
    + exists c. split; [apply vec_op_ret; auto|]; eapply forall3_impl; try exact G; cbn; tauto.
  - intros s ->. unfold vec_op_scalar.
    assert (array_map (fun x => op x s) a = Pan \/ exists c, array_map (fun x => op x s) a = Ret c) as [E|[c E]].
    { destruct (array_map_cases True (fun x => op x s) (fun _ => True) (fun _ _ => True)) with (a := a) as [[_ E]|(c & E & _)]; eauto.
      - intros x _. rewrite Eo. destruct (arith dbg t (zop x s)); cbn; eauto.
      - apply Forall_forall. auto. }
    + rewrite E. symmetry. assert (exists i x, nth_error a i = Some x /\ op x s = Pan) as (i & x & Ji & P).
      { clear - E Eo. induction a as [|u a IH]; cbn in E; [discriminate|]. destruct (op u s) as [v| |] eqn:Eu; cbn [obind] in E; [|exists 0%nat, u; auto|discriminate].
        destruct (array_map (fun x => op x s) a) as [w| |] eqn:Ea; try discriminate. destruct (IH eq_refl) as (i & x & J & P). exists (S i), x. auto. }
      apply (vec_op_pan op n a (repeat s n) i x s); auto; [intros; rewrite Eo; apply of_res_not_ub|].
      assert (i < n)%nat by (rewrite <- La; apply nth_error_Some; congruence). rewrite nth_error_nth' with (d := s) by (rewrite repeat_length; auto).
      f_equal. apply nth_repeat.
    + rewrite E. symmetry. apply vec_op_ret; auto. rewrite <- La. clear - E. revert c E. induction a as [|u a IH]; intros c E; cbn in E; [injection E as <-; constructor|].
      destruct (op u s) as [v| |] eqn:Eu; cbn [obind] in E; try discriminate. destruct (array_map (fun x => op x s) a) as [w| |] eqn:Ea; try discriminate.
      injection E as <-. cbn. constructor; auto.
Qed.
Print Assumptions C162_elementwise.

(** Matrices. *)
Theorem C162_matrix_elementwise : forall dbg t N op zop qop row col a b, (0 < ibits t)%nat -> In (op, zop, qop) (fixed_ops dbg t) ->
  shape row col a -> shape row col b ->
  let pairs := flat_map (fun '(r, s) => combine r s) (combine a b) in
  ((forall x y, In (x, y) pairs -> fits t (zop x y)) ->
     exists c, fm_op op row col a b = Ret c /\ Forall3 (Forall3 (fun x y z => (fixed_val N z == qop (fixed_val N x) (fixed_val N y))%Q)) a b c) /\
  (dbg = true -> (exists x y, In (x, y) pairs /\ ~ fits t (zop x y)) -> fm_op op row col a b = Pan) /\
  (dbg = false -> exists c, fm_op op row col a b = Ret c /\ Forall3 (Forall3 (fun x y z => reduces_to t (zop x y) z)) a b c).
Proof.
  intros dbg t N op zop qop row col a b Hb I [La Sa] [Lb Sb] pairs.
  assert (forall r s, In (r, s) (combine a b) -> length r = col /\ length s = col) as Lr.
  { intros r s J. rewrite Forall_forall in Sa, Sb. split; [apply Sa; eapply in_combine_l|apply Sb; eapply in_combine_r]; eauto. }
  change (fm_op op row col a b) with (vec_op (vec_op op col) row a b). repeat apply conj.
  - intros F. destruct (forall3_build (fun r s u => vec_op op col r s = Ret u /\ Forall3 (fun x y z => (fixed_val N z == qop (fixed_val N x) (fixed_val N y))%Q) r s u) a b)
      as [c G]; [congruence| |].
    + intros r s J. destruct (Lr r s J) as [L1 L2]. destruct (C162_elementwise dbg t N op zop qop col r s Hb I L1 L2) as (H & _). apply H.
      intros x y K. apply F. apply in_flat_map. exists (r, s). auto.
    + exists c. split; [apply vec_op_ret; auto|]; eapply forall3_impl; try exact G; cbn; tauto.
  - intros D (x & y & J & F). apply in_flat_map in J. destruct J as ([r s] & J & K). destruct (Lr r s J) as [L1 L2].
    destruct (C162_elementwise dbg t N op zop qop col r s Hb I L1 L2) as (_ & H & _). specialize (H D (ex_intro _ x (ex_intro _ y (conj K F)))).
    apply In_nth_error in J. destruct J as [i J].
    assert (nth_error a i = Some r /\ nth_error b i = Some s) as [Ja Jb].
    { clear - J. revert b i J. induction a as [|u a IH]; intros [|v b] [|i] J; try discriminate; cbn in *; [injection J as -> ->; auto|apply IH; auto]. }
    destruct (vec_op_cases True (vec_op op col) (fun r => length r = col) (fun s => length s = col) (fun r s u => vec_op op col r s = Ret u)) with (n := row) (a := a) (b := b)
      as [(_ & H1 & _)|(c & _ & _ & G)]; auto.
    + intros r' s' L1' L2'. destruct dbg; [|discriminate]. destruct (ops_cases _ _ _ _ _ I) as [Eo _].
      destruct (vec_op_cases True op (fun _ => True) (fun _ => True) (fun _ _ _ => True)) with (n := col) (a := r') (b := s') as [(_ & E & _)|(u & E & _)]; eauto;
        try (apply Forall_forall; auto). intros x' y' _ _. rewrite Eo. destruct (arith true t (zop x' y')); cbn; eauto.
    + exfalso. unfold fv_op in H. clear - G Ja Jb H. revert i Ja Jb. induction G; intros [|i] Ja Jb; try discriminate; cbn in *; [congruence|eauto].
  - intros D. destruct (forall3_build (fun r s u => vec_op op col r s = Ret u /\ Forall3 (fun x y z => reduces_to t (zop x y) z) r s u) a b) as [c G]; [congruence| |].
    + intros r s J. destruct (Lr r s J) as [L1 L2]. destruct (C162_elementwise dbg t N op zop qop col r s Hb I L1 L2) as (_ & _ & H & _). auto.
    + exists c. split; [apply vec_op_ret; auto|]; eapply forall3_impl; try exact G; cbn; tauto.
Qed.
Print Assumptions C162_matrix_elementwise.

(** Complex numbers. *)
Theorem C162_complex : forall t N ar ai br bi s, (0 < ibits t)%nat -> let v := fixed_val N in
  let good (r : bool -> out (complex Z)) raws re im :=
    (Forall (fits t) raws -> forall dbg, exists c, r dbg = Ret c /\ (v (real c) == re)%Q /\ (v (imag c) == im)%Q) /\
    (~ Forall (fits t) raws -> r true = Pan) in
  good (fun dbg => fc_add dbg t (Cx ar ai) (Cx br bi)) [ar + br; ai + bi] (v ar + v br)%Q (v ai + v bi)%Q /\
  good (fun dbg => fc_sub dbg t (Cx ar ai) (Cx br bi)) [ar - br; ai - bi] (v ar - v br)%Q (v ai - v bi)%Q /\
  good (fun dbg => fc_add_scalar dbg t (Cx ar ai) s) [ar + s] (v ar + v s)%Q (v ai) /\
  good (fun dbg => fc_sub_scalar dbg t (Cx ar ai) s) [ar - s] (v ar - v s)%Q (v ai).
Proof.
  intros t N ar ai br bi s Hb v good. destruct (C135_checked t ar ai br bi s) as (H1 & H2 & _ & H4 & H5 & _).
  unfold good, v. repeat apply conj; try apply H1; try apply H2; try apply H4; try apply H5; intros F dbg;
    repeat match goal with H : Forall _ (_ :: _) |- _ => inversion H; clear H; subst end;
    unfold fc_add, fc_sub, fc_add_scalar, fc_sub_scalar, cf_add, cf_sub, cf_add_scalar, cf_sub_scalar, fq_add, fq_sub, fx_add, fx_sub; cbn [real imag];
    rewrite !checked_in by auto; cbn [obind]; eexists; (split; [reflexivity|]); cbn [real imag]; rewrite ?fv_plus, ?fv_minus; split; reflexivity.
Qed.
Print Assumptions C162_complex.

(** 1.5 + 2.25 + 0.25 = 4 with two fraction bits; 31 + 1.5 overflows an i8; [1.5, -1] + [0.25, 2]. *)
Example C162_demo : let i8 := {| ibits := 8; isigned := true |} in
  fv_sum true i8 3 [6; 9; 1] = Ret 16 /\ (fixed_val 2 16 == 4)%Q /\ partial_sums [6; 9; 1] = [6; 15; 16] /\
  fv_sum true i8 2 [124; 6] = Pan /\ fv_sum false i8 2 [124; 6] = Ret (-126) /\ partial_sums [124; 6] = [124; 130] /\
  fv_op (fq_add true i8) 2 [6; -4] [1; 8] = Ret [7; 4] /\ fv_scalar (fq_sub true i8) [6; -4] 2 = Ret [4; -6] /\
  fm_op (fq_sub true i8) 1 2 [[6; -4]] [[1; 8]] = Ret [[5; -12]] /\ shape 1 2 [[6; -4]] /\ fits i8 0 /\
  fc_add true i8 (Cx 6 (-4)) (Cx 1 8) = Ret (Cx 7 4) /\ fc_add true i8 (Cx 127 0) (Cx 1 8) = Pan.
Proof. repeat split; try (vm_compute; reflexivity); try (vm_compute; discriminate); repeat constructor. Qed.
