(** C170: reducing square matrices of floats by rows; C140: determinants through the reduced matrix. *)
From Coq Require Import ZArith Reals List Bool Arith Lia Lra Psatz Sorted.
From Flocq Require Import Core BinarySingleNaN.
From Verif Require Import Base StaticIterModel VectorModel CompoundsSpec MatrixModel MatrixProofs GaussProofs PropVector
  IeeeModel IeeeSpec IeeeProofs IeeeMore PropIeee GaussFloatSpec GaussFloat GaussFloatProofs.
Import ListNotations.
Local Open Scope R_scope.

Section Format.
Context {prec emax : Z} {Hp : Prec_gt_0 prec} {Hm : Prec_lt_emax prec emax}.
Notation float := (binary_float prec emax).
Notation div := (fun x y : float => Ret (f_div x y)).

Lemma weaken n (a r : nat -> nat -> float) sw c L : upto n a r n sw c L ->
  rounded_reduction prec emax n (fun i j => value (a i j)) (fun i j => value (r i j)) sw c L.
Proof. intros U. exact U. Qed.

Lemma origin_lt n : forall sw i, Forall (fun p => fst p <> snd p /\ (fst p < n)%nat /\ (snd p < n)%nat) sw -> (i < n)%nat -> (origin sw i < n)%nat.
Proof.
  induction sw as [|[a b] sw IH]; intros i F Hi; cbn [origin]; auto. apply Forall_inv in F as H. apply Forall_inv_tail in F. cbn in H.
  apply IH; auto. destruct (Nat.eqb i a), (Nat.eqb i b); lia.
Qed.

(** The same cells inside the matrix. *)
Lemma same_cells n (a a' r r' : nat -> nat -> R) sw c L : (forall i j, (i < n)%nat -> (j < n)%nat -> a i j = a' i j) ->
  (forall i j, (i < n)%nat -> (j < n)%nat -> r i j = r' i j) ->
  (length c <= n)%nat -> rounded_reduction prec emax n a r sw c L -> rounded_reduction prec emax n a' r' sw c L.
Proof.
  intros Ha Hr Lc (U1 & U2 & U3 & U4 & U5 & U6 & U7).
  assert (forall k p, nth_error c k = Some p -> (k < n)%nat /\ (p < n)%nat) as Cb.
  { intros k p E. split; [apply Nat.lt_le_trans with (length c); auto; apply nth_error_Some; congruence|].
    rewrite Forall_forall in U3. apply U3. eapply nth_error_In; eauto. }
  split; auto. split; auto. split; auto. split; [|split; [|split]].
  - intros k p E. destruct (Cb k p E). rewrite <- Hr by auto. apply U4. exact E.
  - intros i j Hi Hj. cbv zeta. rewrite <- Ha, <- Hr by (auto; apply origin_lt; auto).
    replace (map (fun k => L i k * r' k j) (used c i j)) with (map (fun k => L i k * r k j) (used c i j)); [apply U5; auto|].
    apply map_ext_in. intros k Hk. unfold used in Hk. apply filter_In in Hk. destruct Hk as [Hk _]. apply in_seq in Hk.
    rewrite Hr by (auto; lia). reflexivity.
  - intros k p i E Hi. destruct (Cb k p E). rewrite <- !Hr by (auto; lia). apply U6; auto.
  - intros i j Hi Hj Ni Ab. rewrite <- Hr by auto. apply U7; auto.
Qed.

Lemma static_gauss_finite n (m r : list (list float)) sg : shape n n m ->
  static_gauss f_one f_sub f_mul f_neg div f_is_zero f_partial_cmp n n m = Ret (r, sg) ->
  shape n n r /\ ((forall i j, (i < n)%nat -> (j < n)%nat -> finite (at_ f_zero r i j)) ->
  (forall i j, (i < n)%nat -> (j < n)%nat -> finite (at_ f_zero m i j)) /\
  exists sw c L, (length c <= n)%nat /\ sg = sign_of sw /\
    rounded_reduction prec emax n (fun i j => value (at_ f_zero m i j)) (fun i j => value (at_ f_zero r i j)) sw c L).
Proof.
  intros S E.
  destruct (gauss_elim_ret f_one f_sub f_mul f_neg f_div f_is_zero f_partial_cmp mat_get mat_set swap_rows n (shape n n) (at_ f_zero)
    (static_get_ok f_zero n) (static_set_ok f_zero n) (static_swap_ok f_zero n) m (invariant n (at_ f_zero m)) r sg S) as (S' & row & Hr & I); auto.
  - apply invariant_start.
  - intros. eapply invariant_zero; eauto.
  - intros. eapply invariant_step; eauto.
  - split; auto. intros F. destruct (I F) as (FA & sw & c & L & Lc & Sg & U). split; auto. exists sw, c, L. split; [lia|]. split; auto.
Qed.

Lemma at_finite n (m : list (list float)) : shape n n m -> (forall i j, (i < n)%nat -> (j < n)%nat -> finite (at_ f_zero m i j)) <-> Forall (Forall finite) m.
Proof.
  intros S. split.
  - intros F. apply Forall_forall. intros l Hl. apply Forall_forall. intros x Hx.
    apply In_nth_error in Hl. destruct Hl as (i & Ei). apply In_nth_error in Hx. destruct Hx as (j & Ej).
    destruct S as [Ls Fs]. assert (i < n)%nat as Hi by (rewrite <- Ls; apply nth_error_Some; congruence).
    rewrite Forall_forall in Fs. assert (length l = n) as Ll by (apply Fs; eapply nth_error_In; eauto).
    assert (j < n)%nat as Hj by (rewrite <- Ll; apply nth_error_Some; congruence).
    specialize (F i j Hi Hj). unfold at_, entry in F. rewrite Ei, Ej in F. exact F.
  - intros F i j Hi Hj. destruct (shape_row _ _ _ i S Hi) as (r & E & L). unfold at_, entry. rewrite E.
    rewrite Forall_forall in F. specialize (F r (nth_error_In _ _ E)). rewrite Forall_forall in F.
    destruct (nth_error r j) as [x|] eqn:Ex; [|reflexivity]. apply F. eapply nth_error_In; eauto.
Qed.

(** The rows of the input, exchanged, are sums of multiples of the rows of the result, up to rounding. *)
Theorem C170_backward_partial : forall n (m r : list (list float)), shape n n m -> f_row_reduce n n m = Ret r -> Forall (Forall finite) r ->
  shape n n r /\ Forall (Forall finite) m /\
  exists swaps pivots mult, rounded_reduction prec emax n (cell m) (cell r) swaps pivots mult.
Proof.
  intros n m r S E F. unfold f_row_reduce, static_row_reduce in E.
  destruct (static_gauss f_one f_sub f_mul f_neg div f_is_zero f_partial_cmp n n m) as [[r' sg]| |] eqn:G; try discriminate.
  cbn [obind fst] in E. injection E as ->. destruct (static_gauss_finite n m r sg S G) as (S' & H).
  destruct (H (proj2 (at_finite n r S') F)) as (Fm & sw & c & L & Lc & _ & U). split; auto. split; [apply (at_finite n m S); exact Fm|].
  exists sw, c, L. eapply same_cells; [| |exact Lc|exact U]; intros i j Hi Hj; apply (cell_at _ n n); auto.
Qed.

(** The same for matrices whose size is not in their type. *)
Theorem C170_dyn_partial : forall dbg n (d r : dyn float), dyn_ok n n d ->
  dyn_row_reduce f_one f_sub f_mul f_neg div f_is_zero f_partial_cmp dbg d = Ret r -> Forall finite (data r) ->
  dyn_ok n n r /\ Forall finite (data d) /\
  exists swaps pivots mult, rounded_reduction prec emax n (fun i j => value (nth (i * n + j) (data d) B754_nan))
    (fun i j => value (nth (i * n + j) (data r) B754_nan)) swaps pivots mult.
Proof.
  intros dbg n d r O E F. unfold dyn_row_reduce, dyn_gauss in E.
  assert (Z.to_nat (rows d) = n /\ Z.to_nat (cols d) = n) as [Hrows Hcols] by (destruct O as (-> & -> & _); rewrite Nat2Z.id; auto).
  rewrite Hrows, Hcols in E.
  match type of E with obind ?g _ = _ => destruct g as [[r' sg]| |] eqn:G end; try discriminate.
  cbn [obind fst] in E. injection E as ->.
  destruct (gauss_elim_ret f_one f_sub f_mul f_neg f_div f_is_zero f_partial_cmp _ _ _ n (dyn_ok n n) (dyn_at f_zero n)
    (dyn_get_ok f_zero dbg n) (dyn_set_ok f_zero dbg n) (dyn_swap_ok f_zero dbg n) d (invariant n (dyn_at f_zero n d)) r sg O) as (O' & row & Hr & I); auto.
  - apply invariant_start.
  - intros. eapply invariant_zero; eauto.
  - intros. eapply invariant_step; eauto.
  - split; auto.
    assert (forall x : dyn float, dyn_ok n n x -> forall i j, (i < n)%nat -> (j < n)%nat -> dyn_at f_zero n x i j = nth (i * n + j) (data x) B754_nan) as At.
    { intros x (_ & _ & Lx & _) i j Hi Hj. pose proof (index_lt n n i j Hi Hj). unfold dyn_at.
      rewrite (nth_error_nth' _ B754_nan) by lia. reflexivity. }
    destruct I as (FA & sw & c & L & Lc & _ & U).
    { intros i j Hi Hj. rewrite At by auto. rewrite Forall_forall in F. apply F. apply nth_In.
      destruct O' as (_ & _ & Lx & _). pose proof (index_lt n n i j Hi Hj). lia. }
    split.
    + apply Forall_forall. intros x Hx. apply (In_nth _ _ B754_nan) in Hx. destruct Hx as (k & Hk & <-).
      destruct O as (O1 & O2 & Lx & O3). rewrite Lx in Hk. assert (n <> 0)%nat as Nn by (intros ->; lia).
      pose proof (Nat.div_mod k n Nn) as D. pose proof (Nat.mod_upper_bound k n Nn).
      assert (k / n < n)%nat by (apply Nat.div_lt_upper_bound; auto).
      rewrite D, (Nat.mul_comm n). rewrite <- (At d) by (auto; repeat split; tauto). apply FA; auto.
    + exists sw, c, L. apply weaken in U. eapply same_cells; [| |rewrite Lc; exact Hr|exact U]; intros i j Hi Hj; cbn beta; rewrite At; auto.
Qed.

Lemma div_minus_one (x : float) : f_div x (f_neg f_one) = f_neg x.
Proof.
  assert (value (f_neg f_one : float) = -1) as V1 by (unfold value, f_neg; rewrite B2R_Bopp; unfold f_one; rewrite Bone_correct; reflexivity).
  assert (finite (f_neg f_one : float)) as F1 by (unfold finite, f_neg; rewrite is_finite_Bopp; apply is_finite_Bone).
  assert (Bsign (f_neg f_one : float) = true) as Sg.
  { unfold f_neg, f_one. pose proof (is_finite_Bone prec emax Hp Hm) as F. pose proof (Bsign_Bone prec emax Hp Hm) as Q.
    destruct (@Bone prec emax Hp Hm) as [s1|s1| |s1 m1 e1 B1]; try discriminate; cbn in *; subst; reflexivity. }
  destruct x as [s|s| |s m e B].
  - unfold f_div. destruct (f_neg f_one) as [s1|s1| |s1 m1 e1 B1] eqn:E; try discriminate; cbn in *; [unfold value in V1; cbn in V1; lra|]. subst s1.
    rewrite xorb_true_r. reflexivity.
  - unfold f_div. destruct (f_neg f_one) as [s1|s1| |s1 m1 e1 B1] eqn:E; try discriminate; cbn in *; [unfold value in V1; cbn in V1; lra|]. subst s1.
    rewrite xorb_true_r. reflexivity.
  - reflexivity.
  - set (x := B754_finite s m e B : float). assert (finite x) as F by reflexivity.
    assert (B2R (f_neg f_one : float) <> 0) as Y by (unfold value in V1; lra).
    pose proof (Bdiv_correct prec emax Hp Hm mode_NE x (f_neg f_one) Y) as C.
    change (B2R (f_neg f_one : float)) with (value (f_neg f_one : float)) in C. rewrite V1 in C.
    replace (B2R x / -1) with (B2R (f_neg x)) in C by (unfold f_neg; rewrite B2R_Bopp; field).
    rewrite round_generic in C by (try apply valid_rnd_N; apply generic_format_B2R). rewrite Rlt_bool_true in C by apply abs_B2R_lt_emax.
    destruct C as (C1 & C2 & C3). apply B2R_Bsign_inj.
    + unfold f_div. rewrite C2. exact F.
    + reflexivity.
    + exact C1.
    + unfold f_div in *. rewrite C3; [|destruct (Bdiv mode_NE x (f_neg f_one)); auto; discriminate C2].
      rewrite Sg, xorb_true_r. reflexivity.
Qed.

(** The determinant is the rounded product of the diagonal of the reduced matrix, negated for each exchange of rows. *)
Theorem C140_reduced_partial : forall n (m r : list (list float)), (3 <= n)%nat -> shape n n m -> f_row_reduce n n m = Ret r -> Forall (Forall finite) r ->
  exists swaps pivots mult, rounded_reduction prec emax n (cell m) (cell r) swaps pivots mult /\
  let p := fold_left f_mul (map (fun i => nth i (nth i r []) B754_nan) (seq 0 n)) f_one in
  f_determinant n m = Ret (if Nat.even (length swaps) then p else f_neg p).
Proof.
  intros n m r Hn S E F. unfold f_row_reduce, static_row_reduce in E.
  destruct (static_gauss f_one f_sub f_mul f_neg div f_is_zero f_partial_cmp n n m) as [[r' sg]| |] eqn:G; try discriminate.
  cbn [obind fst] in E. injection E as ->. destruct (static_gauss_finite n m r sg S G) as (S' & H).
  destruct (H (proj2 (at_finite n r S') F)) as (Fm & sw & c & L & Lc & Sg & U).
  exists sw, c, L. split; [eapply same_cells; [| |exact Lc|exact U]; intros i j Hi Hj; apply (cell_at _ n n); auto|].
  cbv zeta. unfold f_determinant, determinant. destruct n as [|[|[|n]]]; try lia. set (k := Datatypes.S (Datatypes.S (Datatypes.S n))) in *.
  rewrite G. cbn [obind].
  assert (diag k r = Ret (map (fun i => nth i (nth i r []) B754_nan) (seq 0 k))) as ->.
  { unfold diag. apply from_fn_ok. intros i Hi. rewrite (mat_get_at f_zero k k r i i S' Hi Hi). f_equal. apply (nth_at r k); auto. }
  cbn [obind]. rewrite (proj2 (C86_sum_product _ f_zero f_one f_add f_mul k _ ltac:(rewrite map_length, seq_length; reflexivity))).
  cbn [obind]. rewrite Sg. unfold sign_of. destruct (Nat.even (length sw)); [rewrite div_one|rewrite div_minus_one]; reflexivity.
Qed.

(** Determinants of one row are exact; of two rows, two products and a difference rounded. *)
Theorem C140_small_partial : forall (m : list (list float)),
  (shape 1 1 m -> f_determinant 1 m = Ret (nth 0 (nth 0 m []) B754_nan)) /\
  (shape 2 2 m -> exists d, f_determinant 2 m = Ret d /\ (finite d -> Forall (Forall finite) m /\
     Rabs (value d - (cell m 0 0 * cell m 1 1 - cell m 1 0 * cell m 0 1))
       <= error_bound prec emax 2 [cell m 0 0 * cell m 1 1; cell m 1 0 * cell m 0 1])).
Proof.
  intros m. split.
  - intros S. unfold f_determinant, determinant. rewrite (mat_get_at f_zero 1 1 m 0 0 S) by lia. rewrite (nth_at m 1 0 0 S) by lia. reflexivity.
  - intros S. unfold f_determinant, determinant. rewrite !(mat_get_at f_zero 2 2 m _ _ S) by lia. cbn [obind]. eexists. split; [reflexivity|].
    intros F. destruct (two_products_sub _ _ _ _ F) as ((F1 & F2 & F3 & F4) & B). rewrite !(cell_at m 2 2) in B by (auto; lia). split; [|exact B].
    apply (at_finite 2 m S). intros i j Hi Hj.
    destruct i as [|[|i]]; [| |lia]; (destruct j as [|[|j]]; [| |lia]); assumption.
Qed.
End Format.
Print Assumptions C140_small_partial.
Print Assumptions C170_backward_partial.
Print Assumptions C170_dyn_partial.
Print Assumptions C140_reduced_partial.

Definition all_finite (m : list (list f64)) : bool := forallb (forallb is_finite) m.
Lemma all_finite_ok m : all_finite m = true -> Forall (Forall finite) m.
Proof.
  intros H. apply Forall_forall. intros l Hl. apply Forall_forall. intros x Hx. unfold all_finite in H.
  rewrite forallb_forall in H. specialize (H l Hl). rewrite forallb_forall in H. exact (H x Hx).
Qed.

Lemma cell_nonzero (m : list (list f64)) i j : is_finite (nth j (nth i m []) B754_nan) && negb (f_is_zero (nth j (nth i m []) B754_nan)) = true -> cell m i j <> 0.
Proof. intros C V. apply andb_prop in C. destruct C as [F Z]. unfold cell in V. apply is_zero_value in V; [|exact F]. unfold f64 in *. rewrite V in Z. discriminate. Qed.

(** 49 1 / 53 1: the entry below the first pivot does not become zero. *)
Definition leftover_matrix : list (list f64) := [[of_z 49 0; of_z 1 0]; [of_z 53 0; of_z 1 0]].
Theorem C170_refuted : exists r, f_row_reduce 2 2 leftover_matrix = Ret r /\ Forall (Forall finite) r /\ cell r 0 0 <> 0 /\ cell r 1 0 <> 0.
Proof.
  assert (match f_row_reduce 2 2 leftover_matrix with
    | Ret r => all_finite r && (is_finite (nth 0 (nth 0 r []) B754_nan) && negb (f_is_zero (nth 0 (nth 0 r []) B754_nan)))
        && (is_finite (nth 0 (nth 1 r []) B754_nan) && negb (f_is_zero (nth 0 (nth 1 r []) B754_nan)))
    | _ => false end = true) as C by (vm_compute; reflexivity).
  destruct (f_row_reduce 2 2 leftover_matrix) as [r| |]; try discriminate. exists r.
  apply andb_prop in C. destruct C as [C C3]. apply andb_prop in C. destruct C as [C1 C2]. split; auto. split; [apply all_finite_ok; exact C1|].
  split; apply cell_nonzero; assumption.
Qed.

Lemma map_inj {X Y} (f : X -> Y) : (forall x y, f x = f y -> x = y) -> forall l l', map f l = map f l' -> l = l'.
Proof. intros H. induction l as [|x l IH]; intros [|y l'] E; try discriminate; auto. injection E as E1 E2. f_equal; auto. Qed.

(** 2^-60 1 / 1 x: the smallest entry is the pivot, and [x] is lost, whether it is 1 or 0. *)
Definition small_pivot (x : f64) : list (list f64) := [[of_z 1 (-60); of_z 1 0]; [of_z 1 0; x]].
Theorem C170_lost_refuted : exists r, f_row_reduce 2 2 (small_pivot (of_z 1 0)) = Ret r /\ f_row_reduce 2 2 (small_pivot f_zero) = Ret r /\
  Forall (Forall finite) r /\ value (of_z 1 0) = 1 /\ value (f_zero : f64) = 0.
Proof.
  assert (match f_row_reduce 2 2 (small_pivot (of_z 1 0)), f_row_reduce 2 2 (small_pivot f_zero) with
    | Ret r, Ret r' => all_finite r = true /\ map (map B2SF) r = map (map B2SF) r'
    | _, _ => False end) as C by (vm_compute; auto).
  destruct (f_row_reduce 2 2 (small_pivot (of_z 1 0))) as [r| |]; try contradiction.
  destruct (f_row_reduce 2 2 (small_pivot f_zero)) as [r'| |]; try contradiction. destruct C as [C E].
  apply map_inj in E; [|apply map_inj; intros x y; apply B2SF_inj]. subst r'. exists r. split; auto. split; auto. split; [apply all_finite_ok; exact C|].
  split; [|reflexivity]. destruct (of_z_value 1 0) as [_ V]; [lia|lia|]. rewrite V. cbn. lra.
Qed.
Print Assumptions C170_refuted.
Print Assumptions C170_lost_refuted.

(** 3 1 / 6 8: one pivot in each column, no exchange. *)
Example C170_demo : exists r : list (list f64), f_row_reduce 2 2 [[of_z 3 0; of_z 1 0]; [of_z 6 0; of_z 8 0]] = Ret r /\ Forall (Forall finite) r /\
  shape 2 2 [[of_z 3 0; of_z 1 0]; [of_z 6 0; of_z 8 0]] /\ map (map B2SF) r = map (map B2SF) [[of_z 3 0; of_z 1 0]; [f_zero; of_z 6 0]].
Proof.
  assert (match f_row_reduce 2 2 [[of_z 3 0; of_z 1 0]; [of_z 6 0; of_z 8 0]] with
    | Ret r => all_finite r = true /\ map (map B2SF) r = map (map B2SF) [[of_z 3 0; of_z 1 0]; [f_zero; of_z 6 0]]
    | _ => False end) as C by (vm_compute; auto).
  destruct (f_row_reduce 2 2 [[of_z 3 0; of_z 1 0]; [of_z 6 0; of_z 8 0]]) as [r| |]; try contradiction. destruct C as [C E].
  exists r. split; auto. split; [apply all_finite_ok; exact C|]. split; auto. split; auto.
Qed.

(** The same of a matrix whose size is not in its type. *)
Example C170_dyn_demo : exists r, dyn_row_reduce f_one f_sub f_mul f_neg (fun x y : f64 => Ret (f_div x y)) f_is_zero f_partial_cmp true
    (Dyn [of_z 3 0; of_z 1 0; of_z 6 0; of_z 8 0] 2 2) = Ret r /\ Forall finite (data r) /\ dyn_ok 2 2 (Dyn [of_z 3 0; of_z 1 0; of_z 6 0; of_z 8 0] 2 2).
Proof.
  set (d := Dyn _ _ _).
  assert (match dyn_row_reduce f_one f_sub f_mul f_neg (fun x y : f64 => Ret (f_div x y)) f_is_zero f_partial_cmp true d with
    | Ret r => forallb is_finite (data r) = true | _ => False end) as C by (vm_compute; auto).
  match type of C with match ?x with _ => _ end => destruct x as [r| |] end; try contradiction. exists r. split; auto.
  split; [apply Forall_forall; rewrite forallb_forall in C; exact C|]. unfold dyn_ok, d. cbn. repeat split; auto; vm_compute; discriminate.
Qed.

(** 2 1 0 / 0 0 3 / 0 5 1: one exchange, determinant -30. *)
Example C140_reduced_demo : let m := [[of_z 2 0; of_z 1 0; f_zero]; [f_zero; f_zero; of_z 3 0]; [f_zero; of_z 5 0; of_z 1 0]] in
  exists r d, f_row_reduce 3 3 m = Ret r /\ Forall (Forall finite) r /\ shape 3 3 m /\ f_determinant 3 m = Ret d /\ B2SF d = B2SF (of_z (-30) 0).
Proof.
  intros m. assert (match f_row_reduce 3 3 m, f_determinant 3 m with
    | Ret r, Ret d => all_finite r = true /\ B2SF d = B2SF (of_z (-30) 0) | _, _ => False end) as C by (vm_compute; auto).
  destruct (f_row_reduce 3 3 m) as [r| |]; try contradiction. destruct (f_determinant 3 m) as [d| |]; try contradiction. destruct C as [C E].
  exists r, d. split; auto. split; [apply all_finite_ok; exact C|]. split; [repeat constructor|]. auto.
Qed.

(** 3 7 / 2 5. *)
Example C140_small_demo : let m := [[of_z 3 0; of_z 7 0]; [of_z 2 0; of_z 5 0]] in shape 2 2 m /\ exists d, f_determinant 2 m = Ret d /\ finite d /\ B2SF d = B2SF (of_z 1 0).
Proof. intros m. split; [repeat constructor|]. eexists. split; [reflexivity|]. split; vm_compute; reflexivity. Qed.

(** 49 49 / 53 53, whose rows are multiples of each other: the result has two rows that are not zero. *)
Example C170_rank_case : exists r, f_row_reduce 2 2 [[of_z 49 0; of_z 49 0]; [of_z 53 0; of_z 53 0]] = Ret r /\ cell r 0 0 <> 0 /\ cell r 1 1 <> 0.
Proof.
  assert (match f_row_reduce 2 2 [[of_z 49 0; of_z 49 0]; [of_z 53 0; of_z 53 0]] with
    | Ret r => (is_finite (nth 0 (nth 0 r []) B754_nan) && negb (f_is_zero (nth 0 (nth 0 r []) B754_nan)))
        && (is_finite (nth 1 (nth 1 r []) B754_nan) && negb (f_is_zero (nth 1 (nth 1 r []) B754_nan)))
    | _ => false end = true) as C by (vm_compute; reflexivity).
  destruct (f_row_reduce 2 2 _) as [r| |]; try discriminate. exists r. apply andb_prop in C. destruct C as [C1 C2].
  split; auto. split; apply cell_nonzero; assumption.
Qed.
