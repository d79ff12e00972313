(** More on C30, C31, C33 and C38: shifts, orders and powers of the byte-array integers. *)
From Coq Require Import ZArith List Bool Lia.
From Verif Require Import Base Words Spec Arith BitSliceModel BitSliceProofs ElementModel BitwiseModel ElemAddSub ElemMul
  ElemShift BitwiseProofs PrimModel PropBits UModel UProofs PropU PropMulFlag IModel IProofs PropI PropI2.
Import ListNotations.
Local Open Scope Z_scope.

(** ** C30: any amount without overflow checks *)

(** The amount is reduced modulo the greatest power of two not above the number of bits. *)
Theorem C30_release_partial : forall a s, wf 8 a -> (0 < length a)%nat -> Z.of_nat (8 * length a) < 2 ^ 64 ->
  let s' := Nat.modulo s (2 ^ Nat.log2 (8 * length a)) in
  (exists c, u_shl false a s = Ok c /\ wf 8 c /\ length c = length a /\
     val 8 c = (val 8 a * 2 ^ Z.of_nat s') mod cap 8 (length a)) /\
  (exists c, u_shr false a s = Ok c /\ wf 8 c /\ length c = length a /\
     val 8 c = val 8 a / 2 ^ Z.of_nat s' + kept_bits 8 a s').
Proof.
  intros a s Ha Hl Hb s'. split.
  - destruct (C10_shl_wrapping_partial false 8 a s ltac:(lia) Ha ltac:(lia) Hb) as (c & E & L & W & V).
    exists c. repeat split; auto. rewrite V. do 2 f_equal. unfold s'.
    rewrite Nat2Z.inj_mod by (apply Nat.pow_nonzero; lia). rewrite Nat2Z.inj_pow, Zlog2_of_nat by lia. reflexivity.
  - destruct (C12_shr_wrapping_partial false 8 a s ltac:(lia) Ha ltac:(lia) Hb) as (c & E & L & W & V).
    exists c. repeat split; auto.
Qed.
Print Assumptions C30_release_partial.

Example C30_release_demo : u_shl false [1; 2; 3] 20 = Ok [16; 32; 48] /\ Nat.modulo 20 (2 ^ Nat.log2 (8 * 3)) = 4%nat /\
  u_shl true [1; 2; 3] 20 = Ok [0; 0; 16].
Proof. vm_compute. repeat split; reflexivity. Qed.

(** ** C31: the order *)

(** Byte [k] of [n], in two's complement when [n] is negative. *)
Definition byte_at (n : Z) (k : nat) : Z := (n / 2 ^ (8 * Z.of_nat k)) mod 2 ^ 8.

(** The lowest byte in which [n] and [m], of [len] bytes, differ is smaller in [n]. *)
Definition low_byte_less (len : nat) (n m : Z) : Prop :=
  exists k, (k < len)%nat /\ byte_at n k < byte_at m k /\ forall j, (j < k)%nat -> byte_at n j = byte_at m j.

Lemma byte_at_val a k : wf 8 a -> (k < length a)%nat -> byte_at (val 8 a) k = zget a k.
Proof.
  intros Ha Hk. unfold byte_at. rewrite <- cap8_pow. rewrite <- val_skipn by (auto; lia).
  destruct (skipn k a) as [|x l] eqn:E.
  - apply (f_equal (@length Z)) in E. rewrite skipn_length in E. cbn in E. lia.
  - assert (wf 8 (x :: l)) as W by (rewrite <- E; apply wf_skipn; auto).
    rewrite val_cons. change (base 8) with (2 ^ 8). rewrite Z.mul_comm, Z.mod_add by lia.
    assert (zget a k = x) as ->.
    { unfold zget. rewrite <- (firstn_skipn k a), E, app_nth2; rewrite firstn_length, Nat.min_l by lia; [|lia].
      rewrite Nat.sub_diag. reflexivity. }
    inversion W; subst. apply Z.mod_small. auto.
Qed.

Lemma byte_at_sval a k : wf 8 a -> (k < length a)%nat -> byte_at (sval a) k = byte_at (val 8 a) k.
Proof.
  intros Ha Hk. rewrite (val_sval_mod a Ha), cap8_pow. unfold byte_at.
  apply Z.bits_inj'. intros n Hn. destruct (Z.ltb_spec n 8).
  - rewrite !Z.mod_pow2_bits_low, !Z.div_pow2_bits, Z.mod_pow2_bits_low by lia. reflexivity.
  - rewrite !Z.mod_pow2_bits_high by lia. reflexivity.
Qed.

Lemma elem_cmp_bytes a b : wf 8 a -> wf 8 b -> length b = length a ->
  (elem_cmp a b = Lt <-> low_byte_less (length a) (val 8 a) (val 8 b)).
Proof.
  intros Ha Hb Hl. rewrite C14_cmp_exact_partial. split.
  - intros (i & L & E). assert (i < length a)%nat as Hi.
    { destruct (Nat.lt_ge_cases i (length a)); auto. rewrite !nth_overflow in L by lia. lia. }
    exists i. split; auto. rewrite !byte_at_val by (auto; lia). split; auto.
    intros j Hj. rewrite !byte_at_val by (auto; lia). apply E; auto.
  - intros (k & Hk & L & E). exists k. rewrite !byte_at_val in L by (auto; lia). split; auto.
    intros j Hj. specialize (E j Hj). rewrite !byte_at_val in E by (auto; lia). auto.
Qed.

(** Numbers are ordered by their lowest differing byte. *)
Theorem C31_exact_partial : forall a b, wf 8 a -> wf 8 b -> length b = length a ->
  (u_cmp a b = Lt <-> low_byte_less (length a) (val 8 a) (val 8 b)) /\
  (u_cmp a b = Gt <-> low_byte_less (length a) (val 8 b) (val 8 a)).
Proof.
  intros a b Ha Hb Hl. unfold u_cmp. split; [apply elem_cmp_bytes; auto|].
  rewrite <- Hl. rewrite <- elem_cmp_bytes by auto. rewrite (elem_cmp_antisym b a). destruct (elem_cmp b a); cbn; split; congruence.
Qed.
Print Assumptions C31_exact_partial.

Example C31_exact_demo : u_cmp [7; 3; 9] [7; 5; 1] = Lt /\ low_byte_less 3 (val 8 [7; 3; 9]) (val 8 [7; 5; 1]).
Proof.
  split; [reflexivity|]. apply (C31_exact_partial [7; 3; 9] [7; 5; 1]); try reflexivity; repeat constructor; lia.
Qed.

(** ** C38: the order *)

(** Of two signs the negative number is less; of one sign, the lowest differing byte decides, for
    negative numbers in two's complement. *)
Theorem C38_exact_partial : forall a b, wf 8 a -> wf 8 b -> length b = length a -> (0 < length a)%nat ->
  (i_cmp a b = Ok Lt <->
   (sval a < 0 /\ 0 <= sval b) \/ ((sval a < 0 <-> sval b < 0) /\ low_byte_less (length a) (sval a) (sval b))).
Proof.
  intros a b Ha Hb Hl Hn. unfold i_cmp.
  rewrite (proj1 (sign_spec a Ha Hn)), (proj1 (sign_spec b Hb ltac:(lia))). cbn [bind].
  rewrite lex_cmp_elem by auto.
  assert (low_byte_less (length a) (sval a) (sval b) <-> elem_cmp a b = Lt) as E.
  { rewrite elem_cmp_bytes by auto. unfold low_byte_less. split; intros (k & Hk & L & E); exists k; split; auto.
    - rewrite !byte_at_sval in L by (auto; lia). split; auto. intros j Hj. specialize (E j Hj).
      rewrite !byte_at_sval in E by (auto; lia). auto.
    - rewrite !byte_at_sval by (auto; lia). split; auto. intros j Hj. rewrite !byte_at_sval by (auto; lia). auto. }
  rewrite E. destruct (Z.ltb_spec (sval a) 0), (Z.ltb_spec (sval b) 0); cbn; destruct (elem_cmp a b); split; intros X;
    try discriminate; try tauto; try (right; split; [lia|reflexivity]); try (left; lia);
    destruct X as [X|[X Y]]; try lia; try discriminate.
Qed.
Print Assumptions C38_exact_partial.

(** A lawful total order all the same. *)
Theorem C38_total_order : forall a b c, wf 8 a -> wf 8 b -> wf 8 c -> length b = length a -> length c = length a ->
  (0 < length a)%nat ->
  exists ab bc ac, i_cmp a b = Ok ab /\ i_cmp b c = Ok bc /\ i_cmp a c = Ok ac /\
    (ab = Eq <-> sval a = sval b) /\ i_cmp b a = Ok (CompOpp ab) /\
    (ab = Lt -> bc = Lt -> ac = Lt) /\ (ab = Gt -> bc = Gt -> ac = Gt).
Proof.
  intros a b c Ha Hb Hc Lb Lc Hn.
  destruct (C15_cmp_total_order 8 a b c Ha Hb Hc) as (_ & A1 & T1 & _).
  destruct (C15_cmp_total_order 8 c b a Hc Hb Ha) as (_ & A2 & T2 & _).
  destruct (C15_cmp_total_order 8 a c b Ha Hc Hb) as (_ & A3 & _ & _).
  pose proof (C38_eq a b Ha Hb Lb Hn) as [_ HE]. revert HE. unfold i_cmp.
  rewrite (proj1 (sign_spec a Ha Hn)), (proj1 (sign_spec b Hb ltac:(lia))), (proj1 (sign_spec c Hc ltac:(lia))). cbn [bind].
  rewrite !lex_cmp_elem by lia. intros HE. do 3 eexists. split; [reflexivity|]. split; [reflexivity|]. split; [reflexivity|].
  split; [rewrite <- HE; split; congruence|].
  assert (elem_cmp a b = Gt -> elem_cmp b c = Gt -> elem_cmp a c = Gt) as T3.
  { intros X Y. rewrite <- (CompOpp_involutive (elem_cmp a c)), <- A3, T2; auto.
    - rewrite A2 in Y. destruct (elem_cmp c b); auto; discriminate.
    - rewrite A1, X. reflexivity. }
  rewrite A1.
  destruct (Z.ltb_spec (sval a) 0), (Z.ltb_spec (sval b) 0), (Z.ltb_spec (sval c) 0); cbn; repeat split; auto; try discriminate.
Qed.
Print Assumptions C38_total_order.

Example C38_exact_demo : i_cmp [1; 255] [2; 254] = Ok Lt /\ sval [2; 254] < sval [1; 255] /\
  low_byte_less 2 (sval [1; 255]) (sval [2; 254]).
Proof.
  split; [reflexivity|]. split; [reflexivity|]. exists 0%nat. split; [lia|]. split; [reflexivity|]. intros j Hj. lia.
Qed.

(** ** C33: powers with overflow checks, and special cases at any width *)

Lemma product_debug a n len : wf 8 a -> length a = len -> (0 < len)%nat ->
  u_product true len (repeat a n) = Panic \/
  exists c, u_product true len (repeat a n) = Ok c /\ wf 8 c /\ length c = len /\ val 8 c = (val 8 a ^ Z.of_nat n) mod cap 8 len.
Proof.
  intros Ha Hl Hpos. unfold u_product.
  assert (forall m acc, wf 8 acc -> length acc = len ->
    foldR (fun acc b => u_mul true acc b) (repeat a m) acc = Panic \/
    exists c, foldR (fun acc b => u_mul true acc b) (repeat a m) acc = Ok c /\ wf 8 c /\
      length c = len /\ val 8 c = (val 8 acc * val 8 a ^ Z.of_nat m) mod cap 8 len) as G.
  { induction m; intros acc Hacc Hlen; cbn [repeat foldR].
    - right. exists acc. repeat split; auto. change (val 8 a ^ Z.of_nat 0) with 1. rewrite Z.mul_1_r.
      symmetry. apply Z.mod_small. rewrite <- Hlen. apply val_bound; auto.
    - unfold u_mul at 1 3. unfold elem_mul_checked.
      pose proof (elem_mul_overflowing_spec 8 acc a ltac:(lia) Hacc Ha) as S.
      destruct (elem_mul_overflowing 8 acc a) as [o []]; cbn [unwrap bind]; auto.
      destruct S as (L & W & V & _). rewrite Hlen in *.
      destruct (IHm o W L) as [E|(c' & E' & W' & L' & V')]; auto. right. exists c'. repeat split; auto.
      rewrite V', V, Nat2Z.inj_succ, Z.pow_succ_r, Z.mul_assoc by lia.
      apply Z.mul_mod_idemp_l. pose proof (cap_pos 8 len). lia. }
  destruct (G n (u_one len) (wf_u_one len) (length_u_one len)) as [E|(c & E & W & L & V)]; auto.
  right. exists c. rewrite E. repeat split; auto. rewrite V, val_u_one by auto. f_equal. ring.
Qed.

(** With overflow checks a power that does not fit panics or is reduced modulo 2^(8N) (which of the
    two is up to the multiplications, see C28_flag_exact_partial). *)
Theorem C33_checked_partial : forall a b, wf 8 a -> wf 8 b -> (0 < length a <= 8)%nat -> length b = length a ->
  val 8 a <> 0 \/ val 8 b <> 0 ->
  u_pow true a b = Panic \/
  exists c, u_pow true a b = Ok c /\ wf 8 c /\ length c = length a /\ val 8 c = (val 8 a ^ val 8 b) mod cap 8 (length a).
Proof.
  intros a b Ha Hb Hl Hlb Hz. pose proof (val_nonneg 8 b Hb) as Nb.
  destruct (Z_lt_ge_dec (val 8 a ^ val 8 b) (cap 8 (length a))) as [Hf|Hf].
  { right. destruct (C33_pow_partial a b Ha Hb Hl Hlb Hz) as [_ H]. destruct (H Hf) as (c & E & W & L & V).
    exists c. repeat split; auto. rewrite V, Z.mod_small; auto. split; [apply Z.pow_nonneg; apply val_nonneg; auto|auto]. }
  assert (val 8 a <> 0 /\ val 8 a <> 1 /\ val 8 b <> 0) as (N0 & N1 & NB).
  { assert (1 < cap 8 (length a)) as Hc.
    { apply Z.lt_le_trans with (cap 8 1); [rewrite cap_1, base8; lia|apply cap_mono; lia]. }
    repeat split; intros E; rewrite E in Hf.
    - rewrite Z.pow_0_l in Hf by lia. lia.
    - rewrite Z.pow_1_l in Hf by lia. lia.
    - rewrite Z.pow_0_r in Hf. lia. }
  unfold u_pow. rewrite !u_is_zero_spec by auto. rewrite (proj2 (Z.eqb_neq _ _)) by lia. rewrite u_is_one_spec by (auto; lia).
  cbn [bind]. rewrite (proj2 (Z.eqb_neq _ _)) by lia. rewrite (proj2 (Z.eqb_neq _ _)) by lia.
  rewrite prim_from_checked_u_spec by (auto; lia). cbn [bind unwrap].
  destruct (product_debug a (Z.to_nat (val 8 b)) (length a) Ha eq_refl ltac:(lia)) as [E|(c & E & W & L & V)]; auto.
  right. exists c. rewrite Z2Nat.id in V by lia. auto.
Qed.
Print Assumptions C33_checked_partial.

(** 0 and 1 to any power are returned as they are, and other numbers to the power 0 give 1, at any width. *)
Theorem C33_special_partial : forall dbg a b, wf 8 a -> wf 8 b -> (0 < length a)%nat -> length b = length a ->
  (val 8 a <= 1 -> u_pow dbg a b = Ok a) /\
  (1 < val 8 a -> val 8 b = 0 -> exists c, u_pow dbg a b = Ok c /\ length c = length a /\ val 8 c = 1).
Proof.
  intros dbg a b Ha Hb Hl Hlb. pose proof (val_nonneg 8 a Ha) as Na. unfold u_pow. rewrite !u_is_zero_spec by auto. split.
  - intros H. destruct (Z.eqb_spec (val 8 a) 0); cbn [bind]; auto. rewrite u_is_one_spec by (auto; lia). cbn [bind].
    rewrite (proj2 (Z.eqb_eq _ _)) by lia. reflexivity.
  - intros H E. rewrite (proj2 (Z.eqb_neq (val 8 a) 0)) by lia. rewrite u_is_one_spec by (auto; lia). cbn [bind].
    rewrite (proj2 (Z.eqb_neq (val 8 a) 1)) by lia. rewrite E. cbn [Z.eqb]. eexists. split; [reflexivity|].
    split; [apply length_u_one|apply val_u_one; lia].
Qed.
Print Assumptions C33_special_partial.

Example C33_checked_demo : u_pow true [200; 1] [2; 0] = Panic /\ u_pow true [7] [3] = Ok [87] /\ u_pow true [16] [2] = Ok [0] /\ u_pow true [0; 1] [2; 0] = Ok [0; 0] /\
  u_pow true (1 :: zeros 8) (5 :: zeros 8) = Ok (1 :: zeros 8).
Proof. vm_compute. repeat split; reflexivity. Qed.
