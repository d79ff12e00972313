(** Proofs about RealOpsModel.v. *)
From Coq Require Import Reals List ZArith Lra Lia Psatz.
From Verif Require Import Base StaticIterModel VectorModel RealOpsModel.
Import ListNotations.
Local Open Scope R_scope.

Lemma Int_part_IZR n : Int_part (IZR n) = n.
Proof.
  destruct (base_Int_part (IZR n)) as [H1 H2]. apply le_IZR in H1.
  assert (IZR n < IZR (Int_part (IZR n) + 1)) as H3 by (rewrite plus_IZR; lra). apply lt_IZR in H3. lia.
Qed.

Lemma powf_pos x y : 0 < x -> powf x y = Some (Rpower x y).
Proof.
  intros Hx. unfold powf. destruct (Req_EM_T y 0) as [->|]; [rewrite Rpower_O; auto|].
  destruct (Rlt_dec 0 x); [auto|lra].
Qed.

Lemma powf_nat x n : powf x (INR n) = Some (x ^ n).
Proof.
  unfold powf. destruct (Req_EM_T (INR n) 0) as [E|E].
  { apply INR_eq with (m := 0%nat) in E. subst. auto. }
  assert (n <> 0)%nat as Hn by (intros ->; auto).
  destruct (Rlt_dec 0 x); [rewrite Rpower_pow; auto|].
  destruct (Req_EM_T x 0) as [->|].
  - destruct (Rlt_dec 0 (INR n)); [rewrite pow_i by lia; auto|]. exfalso. apply n1. apply lt_0_INR. lia.
  - rewrite INR_IZR_INZ, Int_part_IZR. destruct (Req_EM_T (IZR (Z.of_nat n)) (IZR (Z.of_nat n))); [|congruence].
    rewrite <- pow_powerRZ. auto.
Qed.

Lemma powf_two x : powf x (1 + 1) = Some (x * x).
Proof. replace (1 + 1) with (INR 2) by (cbn; lra). rewrite powf_nat. f_equal. cbn. lra. Qed.

(** A whole number strictly between -1 and 1 is 0. *)
Lemma not_whole y : 0 < y < 1 -> IZR (Int_part y) <> y.
Proof.
  intros H E. destruct (base_Int_part y) as [H1 H2]. rewrite <- E in H.
  destruct H as [A B]. apply lt_IZR in A, B. lia.
Qed.

Lemma powf_frac_neg x y : x < 0 -> 0 < y < 1 -> powf x y = None.
Proof.
  intros Hx Hy. unfold powf. destruct (Req_EM_T y 0); [lra|]. destruct (Rlt_dec 0 x); [lra|].
  destruct (Req_EM_T x 0); [lra|]. destruct (Req_EM_T (IZR (Int_part y)) y) as [E|]; auto.
  exfalso. eapply not_whole; eauto.
Qed.

Lemma powf_zero y : 0 < y -> powf 0 y = Some 0.
Proof.
  intros Hy. unfold powf. destruct (Req_EM_T y 0); [lra|]. destruct (Rlt_dec 0 0); [lra|].
  destruct (Req_EM_T 0 0); [|congruence]. destruct (Rlt_dec 0 y); [auto|lra].
Qed.

Lemma fl_div_some x y : y <> 0 -> fl_div (Some x) (Some y) = Some (x / y).
Proof. intros H. cbn. destruct (Req_EM_T y 0); [contradiction|auto]. Qed.

(** ** Sums of squares *)
Fixpoint rdot (a b : list R) : R :=
  match a, b with x :: a', y :: b' => x * y + rdot a' b' | _, _ => 0 end.
Fixpoint rsub (a b : list R) : list R :=
  match a, b with x :: a', y :: b' => (x - y) :: rsub a' b' | _, _ => [] end.
Fixpoint radd (a b : list R) : list R :=
  match a, b with x :: a', y :: b' => (x + y) :: radd a' b' | _, _ => [] end.
Definition norm2 (a : list R) : R := rdot a a.

Lemma norm2_nonneg a : 0 <= norm2 a.
Proof. induction a as [|x a IH]; cbn; [lra|]. unfold norm2 in IH. nra. Qed.

Lemma norm2_zero a : norm2 a = 0 -> Forall (eq 0) a.
Proof.
  induction a as [|x a IH]; cbn; intros H; constructor; pose proof (norm2_nonneg a) as N; unfold norm2 in *; [|apply IH]; nra.
Qed.

Lemma cauchy a : forall b, length a = length b -> rdot a b * rdot a b <= norm2 a * norm2 b.
Proof.
  induction a as [|x a IH]; intros [|y b] L; try discriminate; unfold norm2; cbn [rdot]; [lra|].
  specialize (IH b ltac:(auto)). pose proof (norm2_nonneg a) as A. pose proof (norm2_nonneg b) as B. unfold norm2 in *.
  set (p := rdot a b) in *. set (s := rdot a a) in *. set (t := rdot b b) in *.
  assert (2 * p * (x * y) <= s * (y * y) + t * (x * x)) as H; [|nra].
  assert (0 <= s * (y * y) + t * (x * x)) as Hn by nra.
  assert ((2 * p * (x * y)) * (2 * p * (x * y)) <= (s * (y * y) + t * (x * x)) * (s * (y * y) + t * (x * x))) as Hs.
  { assert (p * p * ((x * y) * (x * y)) <= s * t * ((x * y) * (x * y))) by (apply Rmult_le_compat_r; [nra|auto]).
    pose proof (Rle_0_sqr (s * (y * y) - t * (x * x))) as Q. unfold Rsqr in Q.
    replace (2 * p * (x * y) * (2 * p * (x * y))) with (4 * (p * p * (x * y * (x * y)))) by ring.
    replace ((s * (y * y) + t * (x * x)) * (s * (y * y) + t * (x * x)))
      with ((s * (y * y) - t * (x * x)) * (s * (y * y) - t * (x * x)) + 4 * (s * t * (x * y * (x * y)))) by ring. lra. }
  destruct (Rle_dec (2 * p * (x * y)) (s * (y * y) + t * (x * x))); auto. exfalso. nra.
Qed.

Lemma norm2_radd a : forall b, length a = length b -> norm2 (radd a b) = norm2 a + 2 * rdot a b + norm2 b.
Proof.
  unfold norm2. induction a as [|x a IH]; intros [|y b] L; try discriminate; cbn; [lra|]. rewrite IH by auto. lra.
Qed.

Lemma minkowski a b : length a = length b -> sqrt (norm2 (radd a b)) <= sqrt (norm2 a) + sqrt (norm2 b).
Proof.
  intros L. pose proof (norm2_nonneg a) as A. pose proof (norm2_nonneg b) as B. pose proof (cauchy a b L) as C.
  apply Rsqr_incr_0_var; [|pose proof (sqrt_pos (norm2 a)); pose proof (sqrt_pos (norm2 b)); lra].
  unfold Rsqr. rewrite sqrt_sqrt by apply norm2_nonneg. rewrite norm2_radd by auto.
  pose proof (sqrt_sqrt _ A). pose proof (sqrt_sqrt _ B). pose proof (sqrt_pos (norm2 a)). pose proof (sqrt_pos (norm2 b)).
  assert (rdot a b <= sqrt (norm2 a) * sqrt (norm2 b)); [|nra].
  rewrite <- sqrt_mult by auto. apply Rsqr_incr_0_var; [|apply sqrt_pos]. unfold Rsqr.
  rewrite sqrt_sqrt by nra. auto.
Qed.

(** ** Distances *)
Lemma zip_fold_some : forall a b acc, length a = length b ->
  zip_fold (fun x y => Ret (fl_add x y)) (fun l r => obind (Ret (fl_sub l r)) (fun d => Ret (fl_pow d (Some (1 + 1)))))
    (map Some a) (map Some b) (Some acc) = Ret (Some (acc + norm2 (rsub a b))).
Proof.
  unfold norm2. induction a as [|x a IH]; intros [|y b] acc L; try discriminate; cbn [map zip_fold rsub rdot].
  - do 2 f_equal. lra.
  - cbn [obind]. unfold fl_sub. cbn [lift2]. unfold fl_pow. cbn [lift2]. rewrite powf_two. cbn [fl_add lift2].
    unfold fl_sub, fl_pow in IH. cbn [obind] in IH. change (fl_add (Some acc) (Some ((x - y) * (x - y)))) with (Some (acc + (x - y) * (x - y))).
    rewrite IH by auto. do 2 f_equal. lra.
Qed.

Lemma fl_distance_some a b : length a = length b ->
  fl_distance_squared (map Some a) (map Some b) = Ret (Some (norm2 (rsub a b))) /\
  fl_distance (map Some a) (map Some b) = Ret (Some (sqrt (norm2 (rsub a b)))).
Proof.
  intros L. assert (fl_distance_squared (map Some a) (map Some b) = Ret (Some (norm2 (rsub a b)))) as E.
  { unfold fl_distance_squared, distance_squared. cbn [obind].
    change (fl_add fl_one fl_one) with (Some (1 + 1)). unfold fl_zero.
    pose proof (zip_fold_some a b 0 L) as Z. cbn [obind] in Z. etransitivity; [exact Z|]. do 2 f_equal. lra. }
  split; auto. unfold fl_distance. rewrite E. cbn [obind fl_sqrt lift1].
  destruct (Rle_dec 0 (norm2 (rsub a b))) as [|N]; auto. exfalso. apply N, norm2_nonneg.
Qed.

Lemma rsub_length a : forall b, length a = length b -> length (rsub a b) = length a.
Proof. induction a; intros [|y b] L; try discriminate; cbn; auto. Qed.
Lemma norm2_sym a : forall b, norm2 (rsub a b) = norm2 (rsub b a).
Proof. unfold norm2. induction a as [|x a IH]; intros [|y b]; cbn; auto. rewrite IH. lra. Qed.
Lemma rsub_zero a : forall b, length a = length b -> Forall (eq 0) (rsub a b) -> a = b.
Proof.
  induction a as [|x a IH]; intros [|y b] L F; try discriminate; auto. cbn in F. inversion F; subst.
  f_equal; [lra|]. apply IH; auto.
Qed.
Lemma rsub_self a : norm2 (rsub a a) = 0.
Proof. unfold norm2. induction a as [|x a IH]; cbn; auto. rewrite IH. lra. Qed.
Lemma rsub_via a : forall b c, length a = length b -> length b = length c -> rsub a c = radd (rsub a b) (rsub b c).
Proof.
  induction a as [|x a IH]; intros [|y b] [|z c] L M; try discriminate; cbn; auto. f_equal; [lra|]. apply IH; auto.
Qed.
