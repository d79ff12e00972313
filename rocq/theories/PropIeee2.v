(** C138, C140: float sums and products that stay in range; shapes that make row reduction of floats panic. *)
From Coq Require Import ZArith Reals List Bool Lia Lra Psatz.
From Flocq Require Import Core BinarySingleNaN.
From Verif Require Import Base StaticIterModel VectorModel CompoundsSpec MatrixModel MatrixProofs PropVector PropIndex
  IeeeModel IeeeSpec IeeeProofs IeeeMore IeeeMore2 PropIeee.
Import ListNotations.
Local Open Scope R_scope.

Section Format.
Context {prec emax : Z} {Hp : Prec_gt_0 prec} {Hm : Prec_lt_emax prec emax}.
Notation float := (binary_float prec emax).

(** Nothing to add, nothing to multiply: [+0] and [1]. *)
Theorem C138_empty : f_sum 0 [] = Ret (B754_zero false : float) /\ f_dot [] [] = Ret (B754_zero false : float) /\
  exists r : float, f_product 0 [] = Ret r /\ is_whole_number r 1.
Proof.
  split; [reflexivity|]. split; [reflexivity|]. exists f_one. split; [reflexivity|]. apply whole_one.
Qed.

(** [wedge] never panics and has one component for every [i < j], a difference of two products. *)
Theorem C138_wedge : forall dbg (a b : list float), length a = length b ->
  (Z.of_nat (length a) * Z.of_nat (length a) <= usize_max)%Z ->
  exists w, f_wedge dbg (length a) a b = Ret w /\ length w = length (index_pairs (length a)) /\
  forall k i j x, nth_error (index_pairs (length a)) k = Some (i, j) -> nth_error w k = Some x -> finite x ->
    exists ai aj bi bj, nth_error a i = Some ai /\ nth_error a j = Some aj /\ nth_error b i = Some bi /\ nth_error b j = Some bj /\
      Rabs (value x - (value ai * value bj - value aj * value bi))
        <= error_bound prec emax 2 [value ai * value bj; value aj * value bi].
Proof.
  intros dbg a b L B. eexists. split; [apply (C94_wedge f_zero); auto|]. split; [apply map_length|].
  intros k i j x Hk Hx F. rewrite nth_error_map, Hk in Hx. injection Hx as <-. unfold wedge_at in *. cbn [fst snd] in *.
  assert (i < length a /\ j < length a)%nat as [Hi Hj].
  { apply nth_error_In in Hk. unfold index_pairs in Hk. apply in_flat_map in Hk. destruct Hk as (i' & I & J).
    apply in_map_iff in J. destruct J as (j' & E & J). injection E as <- <-. apply in_seq in I, J. lia. }
  exists (nth i a f_zero), (nth j a f_zero), (nth i b f_zero), (nth j b f_zero).
  rewrite !(nth_error_nth' _ f_zero) by lia. repeat (split; [reflexivity|]). apply two_products_sub. exact F.
Qed.

(** Finite numbers have a finite sum or dot product if the magnitudes, with their rounding errors, stay below [2^emax]. *)
Theorem C138_in_range : forall a b : list float, Forall finite a -> Forall finite b ->
  ((1 + unit_roundoff prec) ^ (length a - 1) * total (magnitudes (map value a)) < powerRZ 2 emax ->
   exists r, f_sum (length a) a = Ret r /\ finite r) /\
  (length a = length b ->
   let ps := products (map value a) (map value b) in
   total (magnitudes ps) + error_bound prec emax (length a) ps < powerRZ 2 emax ->
   exists r, f_dot a b = Ret r /\ finite r).
Proof.
  intros a b Fa Fb. split.
  - intros R. exists (fold_left f_add a f_zero). split; [exact (proj1 (C86_sum_product _ f_zero f_one f_add f_mul _ a eq_refl))|].
    apply sum_in_range; auto.
  - intros L ps R. apply dot_in_range; auto.
Qed.

Theorem C138_matrix_in_range : forall row col col2 (a b : list (list float)), shape row col a -> shape col col2 b -> (0 < col)%nat ->
  Forall (Forall finite) a -> Forall (Forall finite) b ->
  (forall i j, (i < row)%nat -> (j < col2)%nat -> let ps := map (fun k => cell a i k * cell b k j) (seq 0 col) in
     total (magnitudes ps) + error_bound prec emax col ps < powerRZ 2 emax) ->
  exists p, f_mat_mul row col col2 a b = Ret p /\ shape row col2 p /\ Forall (Forall finite) p.
Proof.
  intros row col col2 a b Sa Sb Hc Fa Fb R.
  assert (forall m : list (list float), Forall (Forall finite) m -> forall i j, finite (at_ f_zero m i j)) as Fin.
  { intros m F i j. unfold at_, entry. destruct (nth_error m i) as [r|] eqn:E; [|reflexivity].
    rewrite Forall_forall in F. specialize (F r (nth_error_In _ _ E)). rewrite Forall_forall in F.
    destruct (nth_error r j) as [x|] eqn:Ex; [|reflexivity]. apply F. eapply nth_error_In; eauto. }
  pose (L i := map (fun k => at_ f_zero a i k) (seq 1 (col - 1))). pose (R' j := map (fun k => at_ f_zero b k j) (seq 1 (col - 1))).
  pose (g i j := match zip_fold (fun x y => Ret (f_add x y)) (fun x y => Ret (f_mul x y)) (L i) (R' j)
                   (f_mul (at_ f_zero a i 0) (at_ f_zero b 0 j)) with Ret x => x | _ => f_zero end).
  assert (forall i j, (i < row)%nat -> (j < col2)%nat -> zip_fold (fun x y => Ret (f_add x y)) (fun x y => Ret (f_mul x y)) (L i) (R' j)
                   (f_mul (at_ f_zero a i 0) (at_ f_zero b 0 j)) = Ret (g i j) /\ finite (g i j)) as G.
  { intros i j Hi Hj. specialize (R i j Hi Hj). cbv zeta in R.
    assert ([value (at_ f_zero a i 0) * value (at_ f_zero b 0 j)] ++ products (map value (L i)) (map value (R' j))
        = map (fun k => cell a i k * cell b k j) (seq 0 col)) as Q.
    { assert (forall n s, (s + n = col)%nat -> products (map value (map (fun k => at_ f_zero a i k) (seq s n))) (map value (map (fun k => at_ f_zero b k j) (seq s n)))
          = map (fun k => cell a i k * cell b k j) (seq s n)) as W.
        { clear - Sa Sb Hi Hj. induction n; intros s E; [reflexivity|]. cbn [seq map]. unfold products in *. cbn [combine map fst snd].
          rewrite IHn by lia. rewrite (cell_at a row col), (cell_at b col col2) by (auto; lia). reflexivity. }
        unfold L, R'. rewrite W by lia. rewrite (cell_at a row col), (cell_at b col col2) by (auto; lia).
        destruct col as [|c]; [lia|]. cbn [seq map app]. replace (S c - 1)%nat with c by lia. reflexivity. }
    rewrite <- Q in R. set (ps := [value (at_ f_zero a i 0) * value (at_ f_zero b 0 j)]) in *.
    assert (finite (f_mul (at_ f_zero a i 0) (at_ f_zero b 0 j))) as Fm.
    { apply product_in_range; auto. eapply Rle_lt_trans; [apply (reach_mono 1 (col - 1) ps (products (map value (L i)) (map value (R' j))))|].
      replace (1 + (col - 1))%nat with col by lia. exact R. }
    destruct (zip_fold_in_range (L i) (R' j) (f_mul (at_ f_zero a i 0) (at_ f_zero b 0 j)) ps) as (r & E & F); auto.
    - unfold L, R'. rewrite !map_length. reflexivity.
    - discriminate.
    - apply Forall_map, Forall_forall. intros k _. apply Fin. auto.
    - apply Forall_map, Forall_forall. intros k _. apply Fin. auto.
    - apply first_bound. exact Fm.
    - unfold L. rewrite map_length, seq_length. unfold ps at 1. cbn [length]. replace (1 + (col - 1))%nat with col by lia. exact R.
    - unfold g. rewrite E. auto. }
  exists (tabulate row col2 g). split; [|split; [apply tabulate_shape|]].
  - unfold f_mat_mul, mat_mul. apply from_fn_ok. intros i Hi. apply from_fn_ok. intros j Hj.
    rewrite (mat_get_at f_zero row col a i 0 Sa Hi Hc), (mat_get_at f_zero col col2 b 0 j Sb Hc Hj). cbn [obind].
    rewrite (mat_entry row col col2 a b i j Sa Sb Hi Hj (col - 1) 1) by lia. apply G; auto.
  - unfold tabulate. apply Forall_map, Forall_forall. intros i Hi. apply Forall_map, Forall_forall. intros j Hj.
    apply in_seq in Hi, Hj. apply G; lia.
Qed.

Lemma product_of_fold : forall l P, fold_left Rmult l P = P * product_of l.
Proof. induction l as [|x l IH]; intros P; cbn; [ring|]. rewrite IH. ring. Qed.

(** Products: one relative error per factor, as long as the exact products of the first factors stay between the
    smallest normal number and [2^emax], with that error. *)
Theorem C138_product : forall a : list float, Forall finite a ->
  (forall k, (0 < k <= length a)%nat -> let p := product_of (map value (firstn k a)) in
     (p = 0 \/ smallest_normal emax <= (1 - unit_roundoff prec) ^ k * Rabs p) /\ (1 + unit_roundoff prec) ^ k * Rabs p < powerRZ 2 emax) ->
  exists r, f_product (length a) a = Ret r /\ finite r /\
  Rabs (value r - product_of (map value a)) <= ((1 + unit_roundoff prec) ^ length a - 1) * Rabs (product_of (map value a)).
Proof.
  intros a Fa R. exists (fold_left f_mul a f_one). split; [exact (proj2 (C86_sum_product _ f_zero f_one f_add f_mul _ a eq_refl))|].
  destruct (@one_value prec emax Hp Hm) as [F1 V1].
  pose proof (fold_mul_in_range a f_one 1 0 Fa F1) as Q. cbv zeta in Q. rewrite V1, (Rminus_diag_eq 1 1), Rabs_R0, Rabs_R1 in Q by reflexivity.
  rewrite (product_of_fold (map value a) 1), (Rmult_1_l (product_of _)) in Q. apply Q; cbn [pow]; try lra.
  intros j Hj. rewrite product_of_fold, Rmult_1_l. apply R. exact Hj.
Qed.

(** Whole numbers: exact as long as the product of the magnitudes, zeros counted as ones, is at most [2^prec]. *)
Theorem C138_whole_product : forall (a : list float) (m : list Z), Forall2 is_whole_number a m ->
  (fold_right Z.mul 1 (map (fun z => Z.max 1 (Z.abs z)) m) <= 2 ^ prec)%Z ->
  exists r, f_product (length a) a = Ret r /\ is_whole_number r (fold_right Z.mul 1%Z m).
Proof.
  intros a m F H. exists (fold_left f_mul a f_one). split; [exact (proj2 (C86_sum_product _ f_zero f_one f_add f_mul _ a eq_refl))|].
  rewrite <- (Z.mul_1_l (fold_right Z.mul 1%Z m)). apply whole_prod; auto; [apply whole_one|]. change (Z.max 1 (Z.abs 1)) with 1%Z. lia.
Qed.

(** Row reduction of a matrix that is not square: a panic. *)
Theorem C140_shapes_partial : forall row col (m : list (list float)), shape row col m ->
  (1 <= row < col)%nat \/ (2 <= col < row)%nat -> f_row_reduce row col m = Pan.
Proof.
  intros row col m S [H|H]; unfold f_row_reduce.
  - apply C90_wide_panics; auto.
  - apply C90_tall_panics; auto. discriminate.
Qed.
End Format.
Print Assumptions C138_wedge.
Print Assumptions C138_empty.
Print Assumptions C138_in_range.
Print Assumptions C138_matrix_in_range.
Print Assumptions C138_product.
Print Assumptions C138_whole_product.
Print Assumptions C140_shapes_partial.

Example C138_whole_product_demo : Forall2 is_whole_number [of_z 3 0; of_z (-5) 0] [3%Z; (-5)%Z] /\
  exists r, f_product 2 [of_z 3 0; of_z (-5) 0] = Ret r /\ fbits r = fbits (of_z (-15) 0).
Proof. split; [apply C138_whole_demo|]. eexists. split; [reflexivity|]. vm_compute. reflexivity. Qed.

(** A product of two numbers meets the conditions; one more factor that overflows on the way does not come back. *)
Example C138_product_demo : let a := [of_z 1 (-1); of_z 3 0] in
  (Forall finite a /\ forall k, (0 < k <= length a)%nat -> let p := product_of (map value (firstn k a)) in
     (p = 0 \/ smallest_normal 1024 <= (1 - unit_roundoff 53) ^ k * Rabs p) /\ (1 + unit_roundoff 53) ^ k * Rabs p < powerRZ 2 1024) /\
  exists r, f_product 3 [of_z 1 800; of_z 1 800; of_z 1 (-700)] = Ret r /\ r = B754_infinity false.
Proof.
  cbv zeta. destruct (of_z_value 1 (-1)) as [F1 V1], (of_z_value 3 0) as [F2 V2]; try lia. split.
  - split; [repeat constructor; auto|]. intros k Hk. pose proof (@u_half 53 prec_f64) as U. pose proof (@u_pos 53) as U0.
    assert (smallest_normal 1024 <= / 8) as N.
    { rewrite normal_bpow. change (/ 8) with (bpow radix2 (-3)). apply bpow_le. lia. }
    assert (8 <= powerRZ 2 1024) as T.
    { rewrite (@top_bpow 1024). change 8 with (bpow radix2 3). apply bpow_le. lia. }
    remember (unit_roundoff 53) as u eqn:Eu. remember (smallest_normal 1024) as s eqn:Es. remember (powerRZ 2 1024) as t eqn:Et. clear Eu Es Et.
    destruct k as [|[|[|k]]]; cbn in Hk; try lia; cbn [firstn map product_of]; rewrite ?V1, ?V2; cbn [pow].
    + replace (IZR 1 * powerRZ 2 (-1) * 1) with (/ 2) by (change (powerRZ 2 (-1)) with (/ (2 * 1)); field). rewrite (Rabs_pos_eq (/ 2)) by lra. split; [right|]; lra.
    + replace (IZR 1 * powerRZ 2 (-1) * (IZR 3 * powerRZ 2 0 * 1)) with (3 / 2) by (change (powerRZ 2 (-1)) with (/ (2 * 1)); change (powerRZ 2 0) with 1; field). rewrite (Rabs_pos_eq (3 / 2)) by lra. split; [right|]; nra.
  - eexists. split; [reflexivity|]. vm_compute. reflexivity.
Qed.

Example C140_shapes_demo : f_row_reduce 1 2 [[of_z 1 0; of_z 2 0]] = Pan.
Proof. apply C140_shapes_partial; [repeat constructor|lia]. Qed.

Example C138_in_range_demo : let a := [of_z 1 (-1); of_z 3 0] in Forall finite a /\
  (1 + unit_roundoff 53) ^ (length a - 1) * total (magnitudes (map value a)) < powerRZ 2 1024 /\
  total (magnitudes (products (map value a) (map value a))) + error_bound 53 1024 (length a) (products (map value a) (map value a)) < powerRZ 2 1024.
Proof.
  cbv zeta. destruct (of_z_value 1 (-1)) as [F1 V1], (of_z_value 3 0) as [F2 V2]; try lia. split; [repeat constructor; auto|].
  unfold products, magnitudes, error_bound. cbn [map length combine fst snd total Nat.sub pow INR]. rewrite V1, V2.
  pose proof (@u_half 53 prec_f64) as U. pose proof (@u_pos 53) as U0. pose proof (@eta_pos 53 1024) as E0.
  assert (half_smallest 53 1024 <= / 8) as E.
  { rewrite eta_bpow. change (/ 8) with (bpow radix2 (-3)). apply bpow_le. lia. }
  assert (64 <= powerRZ 2 1024) as T.
  { rewrite (@top_bpow 1024). change 64 with (bpow radix2 6). apply bpow_le. lia. }
  replace (IZR 1 * powerRZ 2 (-1)) with (/ 2) by (change (powerRZ 2 (-1)) with (/ (2 * 1)); field).
  replace (IZR 3 * powerRZ 2 0) with 3 by (change (powerRZ 2 0) with 1; ring).
  remember (unit_roundoff 53) as u eqn:Eu. remember (half_smallest 53 1024) as h eqn:Eh. remember (powerRZ 2 1024) as t eqn:Et. clear Eu Eh Et.
  rewrite !Rabs_pos_eq by lra. split; [lra|].
  assert (0 <= (1 + u) * ((1 + u) * 1) <= 9 / 4) as [X0 X1] by nra. revert X0 X1. generalize ((1 + u) * ((1 + u) * 1)). intros X X0 X1.
  assert (X * h <= 9 / 4 * / 8) by (apply Rmult_le_compat; lra). cbn [total magnitudes map]. rewrite !Rabs_pos_eq by lra. lra.
Qed.

(** Three dimensions: (1,2,3) wedged with (4,5,6), in [f64]. *)
Example C138_wedge_case : match f_wedge true 3 [of_z 1 0; of_z 2 0; of_z 3 0] [of_z 4 0; of_z 5 0; of_z 6 0] with
  | Ret w => map B2SF w = map B2SF [of_z (-3) 0; of_z (-6) 0; of_z (-3) 0] | _ => False end.
Proof. vm_compute. reflexivity. Qed.
