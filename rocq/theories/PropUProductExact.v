(** C33 and C161 continued: exactly which powers and products panic when overflow checks are on. *)
From Coq Require Import ZArith List Bool Lia.
From Verif Require Import Base Words Spec Arith BitSliceModel BitSliceProofs BitwiseProofs ElementModel UModel UProofs PropU PropUExpr
  UCompoundModel PropUCompound PropMulFlag PropUI PropUProduct.
Import ListNotations.
Local Open Scope Z_scope.

(** The multiplication of [p] by [x] in [n] bytes is reported as overflowing: for some byte [i] of [p], what the bytes above
    it contribute and what the byte itself contributes, both modulo 2^(8n), add up to 2^(8n) or more. *)
Definition reported (n : nat) (p x : Z) : Prop := exists i, 0 <= i < Z.of_nat n /\
  let C := 2 ^ (8 * Z.of_nat n) in
  C <= (p / 2 ^ (8 * (i + 1)) * 2 ^ (8 * (i + 1)) * x) mod C + ((p / 2 ^ (8 * i)) mod 256 * 2 ^ (8 * i) * x) mod C.

Lemma cap_bits n : cap 8 n = 2 ^ (8 * Z.of_nat n).
Proof. rewrite cap_two. f_equal. lia. Qed.

Lemma zget_bits a i : wf 8 a -> (i < length a)%nat -> zget a i = (val 8 a / cap 8 i) mod 256.
Proof.
  intros W H. rewrite <- val_skipn by (auto; lia). change 256 with (base 8). rewrite <- zget_0_mod by (apply wf_skipn; auto).
  rewrite zget_skipn. f_equal. lia.
Qed.

Lemma mul_reported n a b : element_of n a -> element_of n b -> (u_mul true a b = Panic <-> reported n (val 8 a) (val 8 b)) /\
  (~ reported n (val 8 a) (val 8 b) -> exists c, u_mul true a b = Ok c /\ element_of n c /\ val 8 c = (val 8 a * val 8 b) mod cap 8 n).
Proof.
  intros [Wa La] [Wb Lb]. destruct (C28_flag_exact_partial a b Wa Wb ltac:(congruence)) as (_ & H & G). rewrite La in *.
  match goal with H : _ <-> ?R |- _ => assert (R <-> reported n (val 8 a) (val 8 b)) as Q end.
  { unfold reported. rewrite <- cap_bits. split.
    - intros (i & Hi & L). exists (Z.of_nat i). split; [clear - Hi; lia|]. cbv zeta.
      replace (8 * (Z.of_nat i + 1)) with (8 * Z.of_nat (S i)) by (clear; lia). rewrite <- !cap_bits, <- zget_bits, <- val_skipn by (auto; clear - Hi La; lia). exact L.
    - intros (i & Hi & L). exists (Z.to_nat i). split; [clear - Hi; lia|]. cbv zeta in L.
      replace (8 * (i + 1)) with (8 * Z.of_nat (S (Z.to_nat i))) in L by (clear - Hi; lia). replace (8 * i) with (8 * Z.of_nat (Z.to_nat i)) in L by (clear - Hi; lia).
      rewrite <- !cap_bits, <- zget_bits, <- val_skipn in L by (auto; clear - Hi La; lia). exact L. }
  rewrite <- Q. split; auto. intros N. destruct (G N) as (c & _ & E & _ & V). exists c. split; auto. split; auto.
  destruct (C27_mul a b Wa Wb ltac:(congruence)) as ((d & Ed & Wd & Ld & Vd) & _).
  assert (c = d) as ->; [|split; congruence].
  unfold u_mul, unwrap, elem_mul_checked, elem_mul_wrapping in E, Ed. destruct (elem_mul_overflowing 8 a b) as [o []]; [discriminate|]. cbn [fst] in Ed. congruence.
Qed.

Lemma foldR_reported n : (0 < n)%nat -> forall l s z, Forall (element_of n) l -> element_of n s -> val 8 s = z mod cap 8 n ->
  (foldR (fun acc b => u_mul true acc b) l s = Panic <->
   exists l1 b l2, l = l1 ++ b :: l2 /\ reported n ((z * zproduct (map (val 8) l1)) mod cap 8 n) (val 8 b)).
Proof.
  intros Hn. induction l as [|x l IH]; intros s z F Os V; cbn [foldR].
  - split; [discriminate|]. intros ([|? ?] & ? & ? & E & _); discriminate.
  - inversion F as [|? ? Ox Fl]; subst. destruct (mul_reported n s x Os Ox) as [P Q].
    assert (forall r, reported n (val 8 s) r <-> reported n ((z * zproduct (map (val 8) [])) mod cap 8 n) r) as R.
    { intros r. rewrite V. cbn [map zproduct fold_right]. rewrite Z.mul_1_r. reflexivity. }
    destruct (u_mul true s x) as [c| |] eqn:M.
    + cbn [bind]. assert (~ reported n (val 8 s) (val 8 x)) as N by (intros H; apply P in H; discriminate).
      destruct (Q N) as (c' & E & Oc & Vc). injection E as <-.
      rewrite (IH c (z * val 8 x)); auto; [|rewrite Vc, V, Zmult_mod_idemp_l; reflexivity]. split.
      * intros (l1 & b & l2 & -> & H). exists (x :: l1), b, l2. split; auto. cbn [map zproduct fold_right]. fold (zproduct (map (val 8) l1)).
        rewrite Z.mul_assoc. auto.
      * intros ([|y l1] & b & l2 & E & H); injection E as -> ->; [apply R in H; contradiction|].
        exists l1, b, l2. split; auto. cbn [map zproduct fold_right] in H. fold (zproduct (map (val 8) l1)) in H. rewrite Z.mul_assoc in H. auto.
    + cbn [bind]. split; auto. intros _. exists [], x, l. split; auto. apply R, P. auto.
    + exfalso. unfold u_mul, unwrap in M. destruct (elem_mul_checked 8 s x); discriminate.
Qed.

(** With overflow checks a product panics exactly when the multiplication by one of the factors, of the product so far modulo
    2^(8N), is reported; in every other case it is the product modulo 2^(8N). *)
Theorem C161_checked_exact : forall n l, (0 < n)%nat -> Forall (element_of n) l ->
  (u_product true n l = Panic <->
   exists l1 b l2, l = l1 ++ b :: l2 /\ reported n (zproduct (map (val 8) l1) mod 2 ^ (8 * Z.of_nat n)) (val 8 b)) /\
  (u_product true n l <> Panic ->
   exists c, u_product true n l = Ok c /\ element_of n c /\ val 8 c = zproduct (map (val 8) l) mod 2 ^ (8 * Z.of_nat n)).
Proof.
  intros n l Hn F. rewrite <- cap_bits. split.
  - unfold u_product. rewrite (foldR_reported n Hn l (u_one n) 1 F (one_element n)).
    + split; intros (l1 & b & l2 & E & H); exists l1, b, l2; rewrite ?Z.mul_1_l in *; auto.
    + rewrite val_u_one by auto. symmetry. apply Z.mod_small. split; [lia|].
      apply Z.lt_le_trans with (cap 8 1); [rewrite cap_1, base8; lia|apply cap_mono; lia].
  - intros N. destruct (C161_wrapping true n l Hn F) as [[_ H]|(c & E & O & V)]; [contradiction|]. exists c. rewrite cap_two. auto.
Qed.
Print Assumptions C161_checked_exact.

Lemma zproduct_repeat x k : zproduct (repeat x k) = x ^ Z.of_nat k.
Proof.
  induction k as [|k IH]; cbn [repeat zproduct fold_right]; [reflexivity|]. fold (zproduct (repeat x k)). rewrite IH.
  rewrite Nat2Z.inj_succ, Z.pow_succ_r by lia. reflexivity.
Qed.

Lemma map_repeated {A B} (f : A -> B) a k : map f (repeat a k) = repeat (f a) k.
Proof. induction k; cbn [repeat map]; congruence. Qed.

Lemma repeat_split {A} (a b : A) k l1 l2 : repeat a k = l1 ++ b :: l2 <-> l1 = repeat a (length l1) /\ b = a /\ l2 = repeat a (length l2) /\ k = (length l1 + S (length l2))%nat.
Proof.
  revert k. induction l1 as [|x l1 IH]; intros [|k]; cbn [repeat app length]; try (split; [discriminate|lia]).
  - split.
    + intros E. injection E as -> <-. rewrite repeat_length. auto.
    + intros (_ & -> & E & K). f_equal. rewrite E. f_equal. lia.
  - split.
    + intros E. injection E as -> E. apply IH in E. destruct E as (-> & -> & -> & ->). rewrite !repeat_length. auto.
    + intros (E & -> & E2 & K). injection E as -> E. f_equal. apply IH. repeat split; auto; lia.
Qed.

(** With overflow checks [a.pow(b)] (for [a] other than 0 and 1, at most 8 bytes wide) panics exactly when for some k < b the
    multiplication of a^k modulo 2^(8N) by a is reported. *)
Theorem C33_checked_exact_partial : forall a b, wf 8 a -> wf 8 b -> (0 < length a <= 8)%nat -> length b = length a -> 1 < val 8 a ->
  let C := 2 ^ (8 * Z.of_nat (length a)) in
  (u_pow true a b = Panic <-> exists k, 0 <= k < val 8 b /\ reported (length a) ((val 8 a ^ k) mod C) (val 8 a)) /\
  (u_pow true a b <> Panic -> exists c, u_pow true a b = Ok c /\ wf 8 c /\ length c = length a /\ val 8 c = (val 8 a ^ val 8 b) mod C).
Proof.
  intros a b Wa Wb Hl Lb H1 C. pose proof (val_nonneg 8 b Wb) as Nb. split.
  - unfold u_pow. rewrite !u_is_zero_spec by auto. rewrite (proj2 (Z.eqb_neq _ _)) by lia. rewrite u_is_one_spec by (auto; lia).
    cbn [bind]. rewrite (proj2 (Z.eqb_neq _ _)) by lia. destruct (Z.eqb_spec (val 8 b) 0) as [E|NE].
    { split; [discriminate|]. intros (k & Hk & _). lia. }
    rewrite prim_from_checked_u_spec by (auto; lia). cbn [bind unwrap].
    assert (Forall (element_of (length a)) (repeat a (Z.to_nat (val 8 b)))) as F.
    { apply Forall_forall. intros x I. apply repeat_spec in I. subst. split; auto. }
    rewrite (proj1 (C161_checked_exact (length a) _ ltac:(lia) F)). fold C. split.
    + intros (l1 & x & l2 & E & R). apply repeat_split in E. destruct E as (E1 & -> & E2 & K). exists (Z.of_nat (length l1)). split; [lia|].
      rewrite E1, map_repeated, zproduct_repeat in R. auto.
    + intros (k & Hk & R). exists (repeat a (Z.to_nat k)), a, (repeat a (Z.to_nat (val 8 b) - S (Z.to_nat k))). split.
      * apply repeat_split. rewrite !repeat_length. repeat split; auto. lia.
      * rewrite map_repeated, zproduct_repeat, Z2Nat.id by lia. auto.
  - intros N. destruct (C33_checked_partial a b Wa Wb Hl Lb ltac:(lia)) as [H|(c & E & W & L & V)]; [contradiction|]. exists c. unfold C. rewrite <- cap_bits. auto.
Qed.
Print Assumptions C33_checked_exact_partial.

(** 456^2 panics in two bytes (207936), at the byte 1 of 456; 16^2 is 256, which does not fit into one byte, but only a product of
    single limbs is lost there, and that goes unnoticed.  So is the overflow of 456 * 2 * 456. *)
Example C33_checked_exact_demo :
  u_pow true [200; 1] [2; 0] = Panic /\ reported 2 (456 ^ 1 mod 2 ^ 16) 456 /\ u_pow true [16] [2] = Ok [0] /\ ~ reported 1 (16 ^ 1 mod 2 ^ 8) 16 /\
  u_product true 2 [[200; 1]; [2; 0]; [200; 1]] = Ok [128; 88].
Proof.
  split; [vm_compute; reflexivity|]. split.
  { exists 0. split; [lia|]. vm_compute. discriminate. }
  split; [vm_compute; reflexivity|]. split.
  { intros (i & Hi & L). assert (i = 0) as -> by lia. vm_compute in L. apply L. reflexivity. }
  vm_compute. reflexivity.
Qed.
