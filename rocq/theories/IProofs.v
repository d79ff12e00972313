(** Proofs about crates/ints/src/i.rs. *)
From Coq Require Import ZArith List Bool Lia ZifyNat.
From Verif Require Import Base Words Spec Arith BitSliceModel ElementModel BitwiseModel
  BitSliceProofs ElemAddSub ElemMul ElemShift BitwiseProofs UModel UProofs IModel.
Import ListNotations.
Local Open Scope Z_scope.

Lemma sval_swrap a x : wf 8 a -> val 8 a = x mod cap 8 (length a) -> sval a = swrap (length a) x.
Proof. intros Ha E. unfold sval, swrap. rewrite E. reflexivity. Qed.

Lemma val_sval_mod a : wf 8 a -> val 8 a = sval a mod cap 8 (length a).
Proof.
  intros Ha. pose proof (val_bound 8 a Ha). unfold sval. destruct (_ <? _).
  - symmetry. apply Z.mod_small. lia.
  - replace (val 8 a - cap 8 (length a)) with (val 8 a + (-1) * cap 8 (length a)) by ring.
    rewrite Z_mod_plus_full. symmetry. apply Z.mod_small. lia.
Qed.

Lemma sval_nonneg a : wf 8 a -> 0 <= sval a -> sval a = val 8 a.
Proof.
  intros Ha. pose proof (val_bound 8 a Ha). unfold sval.
  destruct (2 * val 8 a <? cap 8 (length a)); lia.
Qed.

Lemma sval_neg a : wf 8 a -> sval a < 0 -> sval a = val 8 a - cap 8 (length a).
Proof.
  intros Ha. pose proof (val_bound 8 a Ha). unfold sval.
  destruct (2 * val 8 a <? cap 8 (length a)); lia.
Qed.

Lemma swrap_congr n x y : x mod cap 8 n = y mod cap 8 n -> swrap n x = swrap n y.
Proof. intros E. unfold swrap. rewrite E. reflexivity. Qed.

Lemma swrap_range n x : (0 < n)%nat -> - cap 8 n <= 2 * swrap n x < cap 8 n.
Proof.
  intros. unfold swrap. pose proof (cap_pos 8 n). pose proof (Z.mod_pos_bound x (cap 8 n) ltac:(lia)).
  destruct (Z.ltb_spec (2 * (x mod cap 8 n)) (cap 8 n)); lia.
Qed.

Lemma swrap_small n x : - cap 8 n <= 2 * x < cap 8 n -> swrap n x = x.
Proof.
  intros H. unfold swrap. destruct (Z.lt_ge_cases x 0).
  - assert (x mod cap 8 n = x + cap 8 n) as ->.
    { symmetry. apply (Z.mod_unique_pos _ _ (-1)); lia. }
    destruct (Z.ltb_spec (2 * (x + cap 8 n)) (cap 8 n)); lia.
  - rewrite Z.mod_small by lia. destruct (Z.ltb_spec (2 * x) (cap 8 n)); lia.
Qed.

Lemma i_add_spec a b : wf 8 a -> wf 8 b -> length b = length a ->
  wf 8 (i_add a b) /\ length (i_add a b) = length a /\
  val 8 (i_add a b) = (val 8 a + val 8 b) mod cap 8 (length a).
Proof.
  intros Ha Hb Hl. unfold i_add, elem_add_wrapping.
  pose proof (elem_add_overflowing_spec 8 a b ltac:(lia) Ha Hb ltac:(lia)) as H.
  destruct (elem_add_overflowing 8 a b). cbn [fst]. tauto.
Qed.

Lemma i_sub_spec a b : wf 8 a -> wf 8 b -> length b = length a ->
  wf 8 (i_sub a b) /\ length (i_sub a b) = length a /\
  val 8 (i_sub a b) = (val 8 a - val 8 b) mod cap 8 (length a).
Proof.
  intros Ha Hb Hl. unfold i_sub, elem_sub_wrapping.
  pose proof (elem_sub_overflowing_spec 8 a b ltac:(lia) Ha Hb ltac:(lia)) as H.
  destruct (elem_sub_overflowing 8 a b). cbn [fst]. tauto.
Qed.

Lemma i_mul_spec a b : wf 8 a -> wf 8 b -> length b = length a ->
  wf 8 (i_mul a b) /\ length (i_mul a b) = length a /\
  val 8 (i_mul a b) = (val 8 a * val 8 b) mod cap 8 (length a).
Proof.
  intros Ha Hb Hl. unfold i_mul, elem_mul_wrapping.
  pose proof (elem_mul_overflowing_spec 8 a b ltac:(lia) Ha Hb) as H.
  destruct (elem_mul_overflowing 8 a b). cbn [fst]. tauto.
Qed.

Lemma i_neg_spec a : wf 8 a -> (0 < length a)%nat ->
  wf 8 (i_neg a) /\ length (i_neg a) = length a /\
  val 8 (i_neg a) = (- val 8 a) mod cap 8 (length a).
Proof.
  intros Ha Hl. unfold i_neg, i_one. change (map (wnot 8) a) with (elem_not 8 a).
  destruct (i_add_spec (elem_not 8 a) (u_one (length a))) as (W & L & V); auto using wf_elem_not, wf_u_one.
  { rewrite length_u_one, length_elem_not. auto. }
  rewrite length_elem_not in *. split; auto. split; auto. rewrite V, val_elem_not, val_u_one by auto.
  replace (cap 8 (length a) - 1 - val 8 a + 1) with (- val 8 a + 1 * cap 8 (length a)) by ring.
  apply Z_mod_plus_full.
Qed.

(** ** Sign *)

Lemma last_split (a : list Z) : a <> [] -> exists h b, a = h ++ [b].
Proof. intros H. destruct (exists_last H) as (h & b & ->). eauto. Qed.

Lemma last_byte_app h b : last_byte (h ++ [b]) = Ok b.
Proof. unfold last_byte. rewrite rev_app_distr. reflexivity. Qed.

Lemma land128 b : 0 <= b < 256 -> (Z.land b 128 =? 0) = (b <? 128).
Proof.
  intros H. change 128 with (2 ^ 7) at 1. rewrite Z.land_comm.
  destruct (Z.ltb_spec b 128).
  - apply Z.eqb_eq. apply Z.bits_inj'. intros n Hn. rewrite Z.land_spec, Z.bits_0.
    rewrite Z.pow2_bits_eqb by lia. destruct (Z.eqb_spec 7 n) as [<-|]; auto. cbn [andb].
    apply (testbit_small b 7 7); lia.
  - apply Z.eqb_neq. intros E. assert (Z.testbit (Z.land (2 ^ 7) b) 7 = false) as F by (rewrite E; apply Z.bits_0).
    rewrite Z.land_spec, Z.pow2_bits_true in F by lia. cbn [andb] in F.
    rewrite (Z.testbit_false b 7) in F by lia. change (2 ^ 7) with 128 in F.
    assert (b / 128 = 1) as E1 by (symmetry; apply (Z.div_unique_pos _ _ _ (b - 128)); lia).
    rewrite E1 in F. discriminate.
Qed.

Lemma land127 b : Z.land b 127 = b mod 128.
Proof. change 127 with (Z.ones 7). apply Z.land_ones. lia. Qed.

Lemma sign_bit h b : wf 8 (h ++ [b]) ->
  (2 * val 8 (h ++ [b]) <? cap 8 (length (h ++ [b]))) = (b <? 128).
Proof.
  intros H. apply wf_app in H. destruct H as [Hh Hb]. apply wf_cons in Hb. destruct Hb as [Hb _].
  rewrite base8 in Hb. pose proof (val_bound 8 h Hh) as HV. rewrite app_length, Nat.add_1_r, cap_S, base8.
  rewrite val_app. cbn [val]. replace (b + 2 ^ Z.of_nat 8 * 0) with b by ring.
  set (c := cap 8 (length h)) in *. destruct (Z.ltb_spec b 128).
  - apply Z.ltb_lt. nia.
  - apply Z.ltb_ge. nia.
Qed.

Lemma sign_spec a : wf 8 a -> (0 < length a)%nat ->
  i_is_negative a = Ok (sval a <? 0) /\ i_is_positive a = Ok (0 <=? sval a).
Proof.
  intros Ha Hl. destruct (last_split a) as (h & b & ->). { destruct a; [cbn in Hl; lia|discriminate]. }
  unfold i_is_negative, i_is_positive. rewrite last_byte_app. cbn [bind].
  assert (0 <= b < 256) as Hb.
  { apply wf_app in Ha. destruct Ha as [_ Ha]. apply wf_cons in Ha. rewrite base8 in Ha. tauto. }
  rewrite land128 by auto. pose proof (sign_bit h b Ha) as E. pose proof (val_bound 8 _ Ha) as HV.
  unfold sval. rewrite E. destruct (b <? 128); cbn [negb]; split; f_equal; symmetry;
    first [apply Z.ltb_ge|apply Z.ltb_lt|apply Z.leb_le|apply Z.leb_gt]; lia.
Qed.

Lemma i_abs_spec a : wf 8 a -> (0 < length a)%nat ->
  exists c, i_abs a = Ok c /\ wf 8 c /\ length c = length a /\ 0 <= val 8 c /\
    2 * val 8 c < cap 8 (length a) /\
    2 * val 8 c = 2 * sval a + (if sval a <? 0 then cap 8 (length a) else 0).
Proof.
  intros Ha Hl. destruct (last_split a) as (h & b & ->). { destruct a; [cbn in Hl; lia|discriminate]. }
  unfold i_abs. rewrite last_byte_app. cbn [bind]. eexists. split; [reflexivity|].
  pose proof Ha as Ha'. apply wf_app in Ha'. destruct Ha' as [Hh Hb]. apply wf_cons in Hb. destruct Hb as [Hb _].
  rewrite base8 in Hb. rewrite land127. pose proof (Z.mod_pos_bound b 128 ltac:(lia)) as HM.
  assert (wf 8 (upd (h ++ [b]) (length (h ++ [b]) - 1) (b mod 128))) as W.
  { apply wf_upd; auto. rewrite base8. lia. }
  split; auto. rewrite length_upd. split; auto. split; [apply val_nonneg; auto|].
  rewrite val_upd by lia.
  assert (length (h ++ [b]) - 1 = length h)%nat as -> by (rewrite app_length; cbn; lia).
  rewrite zget_app2, Nat.sub_diag by lia. change (zget [b] 0) with b.
  pose proof (sign_bit h b Ha) as E. pose proof (val_bound 8 _ Ha) as HV.
  assert (cap 8 (length (h ++ [b])) = 256 * cap 8 (length h)) as EC.
  { rewrite app_length, Nat.add_1_r, cap_S, base8. auto. }
  unfold sval. rewrite E, EC in *. destruct (Z.ltb_spec b 128).
  - rewrite (Z.mod_small b) by lia. apply Z.ltb_lt in E.
    rewrite (proj2 (Z.ltb_ge _ _)) by lia. lia.
  - assert (b mod 128 = b - 128) as -> by (symmetry; apply (Z.mod_unique_pos _ _ 1); lia).
    apply Z.ltb_ge in E. rewrite (proj2 (Z.ltb_lt _ _)) by lia.
    lia.
Qed.

(** ** Order *)

Lemma lex_cmp_elem a : forall b, length a = length b -> lex_cmp a b = elem_cmp a b.
Proof.
  assert (forall a b, length a = length b ->
    match lex_cmp a b with
    | Eq => forall i, zget a i = zget b i | Lt => low_first_lt a b | Gt => low_first_lt b a end) as G.
  { clear. induction a as [|x a IH]; intros [|y b] Hl; try discriminate; cbn [lex_cmp].
    - intros i. reflexivity.
    - injection Hl as Hl. specialize (IH b Hl). destruct (Z.compare_spec x y) as [->|H|H].
      + destruct (lex_cmp a b).
        * intros [|i]; [reflexivity|]. apply (IH i).
        * destruct IH as (i & H1 & H2). exists (S i). split; auto. intros [|j] Hj; [reflexivity|].
          apply H2. lia.
        * destruct IH as (i & H1 & H2). exists (S i). split; auto. intros [|j] Hj; [reflexivity|].
          apply H2. lia.
      + exists 0%nat. split; auto. lia.
      + exists 0%nat. split; auto. lia. }
  intros b Hl. specialize (G a b Hl). destruct (lex_cmp a b).
  - pose proof (elem_cmp_spec a b) as H. destruct (elem_cmp a b); auto; exfalso; apply (low_first_irrefl _ _) in H; auto.
  - symmetry. apply elem_cmp_lt_iff. auto.
  - symmetry. apply elem_cmp_gt_iff. auto.
Qed.

(** ** Division *)

Lemma i_div_rem_nonneg dbg a b : wf 8 a -> wf 8 b -> length b = length a -> (0 < length a)%nat ->
  Z.of_nat (8 * length a) < 2 ^ 64 -> 0 <= sval a -> 0 <= sval b ->
  div_ok 8 (val 8 a) (val 8 b) ->
  exists q r, i_div dbg a b = Ok q /\ i_rem dbg a b = Ok r /\
    wf 8 q /\ length q = length a /\ wf 8 r /\ length r = length a /\
    val 8 q = val 8 a / val 8 b /\ val 8 r = val 8 a mod val 8 b.
Proof.
  intros Ha Hb Hl Hpos H64 Sa Sb Hok. unfold i_div, i_rem.
  rewrite (proj1 (sign_spec a Ha Hpos)), (proj1 (sign_spec b Hb ltac:(lia))).
  rewrite (proj2 (Z.ltb_ge _ _)), (proj2 (Z.ltb_ge _ _)) by lia. cbn [bind xorb].
  destruct (i_abs_spec a Ha Hpos) as (x & Ex & Wx & Lx & _ & _ & Vx).
  destruct (i_abs_spec b Hb ltac:(lia)) as (y & Ey & Wy & Ly & _ & _ & Vy).
  rewrite (proj2 (Z.ltb_ge _ _)) in Vx by lia. rewrite (proj2 (Z.ltb_ge _ _)) in Vy by lia. rewrite Ex, Ey. cbn [bind].
  pose proof (sval_nonneg a Ha Sa) as Esa. pose proof (sval_nonneg b Hb Sb) as Esb.
  assert (x = a) as -> by (apply (val_inj 8); auto; lia).
  assert (y = b) as -> by (apply (val_inj 8); auto; lia).
  unfold bit_div_wrapping, bit_rem_wrapping.
  destruct (bit_div_overflowing_spec dbg 8 a b (zeros (length a))) as (q & s & E & W & L & _ & _ & V & _);
    auto using wf_zeros, val_zeros; rewrite ?length_zeros, ?length_zeros_bitlen; try lia.
  destruct (bit_rem_overflowing_spec dbg 8 a b (zeros (length a))) as (r & E' & W' & L' & V');
    auto using wf_zeros, val_zeros; rewrite ?length_zeros, ?length_zeros_bitlen; try lia.
  rewrite E, E'. cbn [bind fst]. exists q, r. auto 12.
Qed.
