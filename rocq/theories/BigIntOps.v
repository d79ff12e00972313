(** Proofs about the BigInt operators. *)
From Coq Require Import ZArith List Bool Lia Permutation.
From Verif Require Import Base Words Spec Arith BitSliceModel BitSliceProofs ElementModel
  BitwiseModel ElemAddSub ElemMul ElemShift BitwiseProofs InternModel InternProofs BigIntModel BigIntSpec
  BigIntProofs.
Import ListNotations.
Local Open Scope Z_scope.

Lemma info P st hs a x : consistent P st hs -> In a hs -> denotes st a x ->
  exists l, has_slice st a l /\ wf 64 l /\ canonical l /\ (0 < length l)%nat /\ val 64 l = Z.abs x /\
    (Z.odd a = true -> x <= 0) /\ (Z.odd a = false -> 0 <= x) /\
    (a <> neg_zero -> Z.odd a = (x <? 0)).
Proof.
  intros Hc Hin Hd. destruct (con_slice _ _ _ _ Hc Hin) as (l & Hl). exists l. split; auto.
  destruct Hl as (_ & Hw & Hcan & Hden & Hinl & Hbig & Hpos).
  pose proof (val_nonneg 64 l Hw) as Hv. apply Hden in Hd.
  split; auto. split; auto. split; [destruct Hcan as [Hne _]; destruct l; [congruence|cbn; lia]|].
  split; [|split; [|split]].
  - destruct (Z.odd a); lia.
  - intros Ho. rewrite Ho in Hd. lia.
  - intros Ho. rewrite Ho in Hd. lia.
  - intros Hne. destruct (Z.odd a) eqn:Ho.
    + symmetry. apply Z.ltb_lt. destruct (Z.eq_dec (val 64 l) 0) as [E|]; [|lia].
      exfalso. destruct (Z.testbit a 1) eqn:Hb.
      * destruct (Hinl eq_refl) as [-> _]. cbn [val] in E. rewrite Z.mul_0_r, Z.add_0_r in E.
        pose proof (word_split a Hpos) as W. rewrite E in W. apply Hne. unfold neg_zero.
        assert (tag_of a = TInlineNeg) as T.
        { pose proof (is_inline_bit a) as I. pose proof (is_negative_odd a) as N. unfold is_inline, is_negative in *.
          rewrite Hb in I. rewrite Ho in N. destruct (tag_of a); cbn in *; congruence. }
        rewrite T in W. cbn in W. auto.
      * specialize (Hbig eq_refl). lia.
    + symmetry. apply Z.ltb_ge. lia.
Qed.

Lemma denotes_sign P st hs a x l : consistent P st hs -> In a hs -> has_slice st a l -> denotes st a x ->
  x = (if Z.odd a then -1 else 1) * val 64 l.
Proof. intros Hc Hin (_ & _ & _ & D & _) Hd. apply D. auto. Qed.

Lemma canonical_ne l : canonical l -> l <> [].
Proof. intros [H _]. auto. Qed.

Definition signed (neg : bool) (m : Z) : Z := (if neg then -1 else 1) * m.

Lemma new_slice_yields dbg P st hs l neg v : consistent P st hs -> room P hs 0 -> wf 64 l -> canonical l ->
  v = signed neg (val 64 l) -> yields P hs (new_slice dbg l neg) st v.
Proof. intros Hc Hr Hw Hcan ->. apply new_slice_spec; auto. apply canonical_ne. auto. Qed.

(** ** Conversion from primitives *)

Lemma std_ty_bits t : std_ty t -> (8 <= ibits t <= 128)%nat /\ (ibits t = 128%nat \/ ibits t <= 64)%nat.
Proof. unfold std_ty. cbn. intuition lia. Qed.

Lemma arr_size_cap t : std_ty t -> 2 ^ Z.of_nat (ibits t) < cap 64 (arr_size t).
Proof. unfold std_ty, arr_size. cbn [In]. intros [H|[H|[H|[H|[H|[]]]]]]; rewrite <- H; vm_compute; reflexivity. Qed.

Lemma in_range_abs t v : std_ty t -> in_range t v = true -> Z.abs v <= 2 ^ Z.of_nat (ibits t).
Proof.
  intros Hs H. destruct (std_ty_bits t Hs) as [Hb _]. unfold in_range, imin, imax in H. apply andb_true_iff in H.
  rewrite !Z.leb_le in H.
  assert (2 ^ Z.of_nat (ibits t) = 2 * 2 ^ (Z.of_nat (ibits t) - 1)) as E.
  { rewrite <- Z.pow_succ_r by lia. f_equal. lia. }
  assert (0 < 2 ^ (Z.of_nat (ibits t) - 1)) by (apply Z.pow_pos_nonneg; lia).
  destruct (isigned t); lia.
Qed.

Lemma from_spec dbg P st hs t v : consistent P st hs -> room P hs 0 -> std_ty t -> in_range t v = true ->
  yields P hs (bi_from dbg t v) st v.
Proof.
  intros Hc Hr Ht Hv. unfold bi_from.
  destruct (int_to_arr_spec dbg 64 (arr_size t) (Z.abs v)) as (l & E & Hlen & Hw & Hval); [unfold arr_size; lia|lia|].
  pose proof (in_range_abs t v Ht Hv). pose proof (arr_size_cap t Ht).
  rewrite Z.mod_small in Hval by lia.
  eapply yields_ext with (m := new_slice dbg l (isigned t && (v <? 0))).
  { intros st0. rewrite (mbind_ok _ _ _ _ _ (lift_ok _ _ _ E)). auto. }
  replace v with ((if isigned t && (v <? 0) then -1 else 1) * val 64 l) at 2.
  { apply new_slice_spec; auto. intros ->. cbn in Hlen. unfold arr_size in Hlen. lia. }
  rewrite Hval. destruct (Z.ltb_spec v 0).
  - destruct (isigned t) eqn:Es; cbn [andb]; [lia|].
    unfold in_range, imin in Hv. rewrite Es in Hv. apply andb_true_iff in Hv. rewrite !Z.leb_le in Hv. lia.
  - rewrite andb_false_r. lia.
Qed.

(** ** Addition, subtraction, multiplication *)

Definition add_result (na nb : bool) (x y : Z) : Z :=
  if negb (Bool.eqb na nb) && (Z.abs x <? Z.abs y) && Z.even (x + y) then x + y - 2 * Z.sgn y else x + y.

Lemma signed_magnitude_add (na nb : bool) m n : 0 <= m -> 0 <= n -> na <> nb ->
  signed (if na then negb (m <? n) else (m <? n)) (sub_magnitude m n) =
  add_result na nb (signed na m) (signed nb n).
Proof.
  intros Hm Hn Hne. unfold add_result, sub_magnitude, signed.
  assert (Z.abs ((if na then -1 else 1) * m) = m) as -> by (destruct na; lia).
  assert (Z.abs ((if nb then -1 else 1) * n) = n) as -> by (destruct nb; lia).
  rewrite (proj2 (Bool.eqb_false_iff na nb)) by auto. cbn [negb andb].
  rewrite Z.leb_antisym. destruct (Z.ltb_spec m n); cbn [negb andb].
  - assert (Z.even ((if na then -1 else 1) * m + (if nb then -1 else 1) * n) = negb (Z.odd (n - m))) as ->.
    { rewrite <- Z.negb_odd. f_equal. destruct na, nb; try congruence.
      - f_equal. lia.
      - rewrite <- Z.odd_opp. f_equal. lia. }
    destruct (Z.odd (n - m)); cbn [negb]; destruct na, nb; cbn [negb]; try congruence; lia.
  - destruct na, nb; cbn [negb]; try congruence; lia.
Qed.

Lemma add_result_same na x y : add_result na na x y = x + y.
Proof. unfold add_result. rewrite Bool.eqb_reflx. auto. Qed.

Lemma bi_add_spec dbg P st hs a b x y : consistent P st hs -> room P hs 0 -> In a hs -> In b hs ->
  denotes st a x -> denotes st b y ->
  yields P hs (bi_add dbg a b) st (add_result (Z.odd a) (Z.odd b) x y).
Proof.
  intros Hc Hr Ha Hb Hx Hy.
  destruct (info _ _ _ _ _ Hc Ha Hx) as (la & Sa & Wa & Ca & La & Va & _).
  destruct (info _ _ _ _ _ Hc Hb Hy) as (lb & Sb & Wb & Cb & Lb & Vb & _).
  pose proof (denotes_sign _ _ _ _ _ _ Hc Ha Sa Hx) as Ex.
  pose proof (denotes_sign _ _ _ _ _ _ Hc Hb Sb Hy) as Ey.
  pose proof (val_nonneg 64 la Wa). pose proof (val_nonneg 64 lb Wb).
  unfold bi_add, is_positive. fold (is_negative a) (is_negative b). rewrite !is_negative_odd.
  destruct (elem_add_spec 64 la lb ltac:(lia) Wa Wb) as (s & Es & Ws & Cs & Vs).
  destruct (elem_sub_spec 64 la lb ltac:(lia) Wa Wb ltac:(lia)) as (d & Ed & Wd & Cd & Vd).
  pose proof (fun H => signed_magnitude_add (Z.odd a) (Z.odd b) (val 64 la) (val 64 lb) ltac:(lia) ltac:(lia) H) as HA.
  unfold signed in HA. rewrite <- Ex, <- Ey in HA.
  unfold yields.
  destruct (Z.odd a), (Z.odd b); cbn [negb].
  - rewrite (mbind_ok _ _ st (s, true) st).
    + rewrite add_result_same. apply new_slice_yields; auto. unfold signed. lia.
    + rewrite (with_slices_ok _ _ _ _ _ _ Sa Sb). rewrite (mbind_ok _ _ _ _ _ (lift_ok _ _ _ Es)). auto.
  - rewrite (mbind_ok _ _ st (d, negb (val 64 la <? val 64 lb)) st).
    + rewrite <- HA by congruence. apply new_slice_yields; auto. unfold signed. rewrite Vd. auto.
    + rewrite (with_slices_ok _ _ _ _ _ _ Sa Sb). rewrite (mbind_ok _ _ _ _ _ (lift_ok _ _ _ Ed)). auto.
  - rewrite (mbind_ok _ _ st (d, val 64 la <? val 64 lb) st).
    + rewrite <- HA by congruence. apply new_slice_yields; auto. unfold signed. rewrite Vd. auto.
    + rewrite (with_slices_ok _ _ _ _ _ _ Sa Sb). apply lift_ok. auto.
  - rewrite (mbind_ok _ _ st (s, false) st).
    + rewrite add_result_same. apply new_slice_yields; auto. unfold signed. lia.
    + rewrite (with_slices_ok _ _ _ _ _ _ Sa Sb). rewrite (mbind_ok _ _ _ _ _ (lift_ok _ _ _ Es)). auto.
Qed.

Lemma bi_sub_spec dbg P st hs a b x y : consistent P st hs -> room P hs 0 -> In a hs -> In b hs ->
  denotes st a x -> denotes st b y ->
  yields P hs (bi_sub dbg a b) st (add_result (Z.odd a) (negb (Z.odd b)) x (- y)).
Proof.
  intros Hc Hr Ha Hb Hx Hy.
  destruct (info _ _ _ _ _ Hc Ha Hx) as (la & Sa & Wa & Ca & La & Va & _).
  destruct (info _ _ _ _ _ Hc Hb Hy) as (lb & Sb & Wb & Cb & Lb & Vb & _).
  pose proof (denotes_sign _ _ _ _ _ _ Hc Ha Sa Hx) as Ex.
  pose proof (denotes_sign _ _ _ _ _ _ Hc Hb Sb Hy) as Ey.
  pose proof (val_nonneg 64 la Wa). pose proof (val_nonneg 64 lb Wb).
  unfold bi_sub, is_positive. fold (is_negative a) (is_negative b). rewrite !is_negative_odd.
  destruct (elem_add_spec 64 la lb ltac:(lia) Wa Wb) as (s & Es & Ws & Cs & Vs).
  destruct (elem_sub_spec 64 la lb ltac:(lia) Wa Wb ltac:(lia)) as (d & Ed & Wd & Cd & Vd).
  pose proof (fun H => signed_magnitude_add (Z.odd a) (negb (Z.odd b)) (val 64 la) (val 64 lb) ltac:(lia) ltac:(lia) H) as HA.
  unfold signed in HA. rewrite <- Ex in HA.
  assert ((if negb (Z.odd b) then -1 else 1) * val 64 lb = - y) as Ey' by (destruct (Z.odd b); cbn [negb]; lia).
  rewrite Ey' in HA. unfold yields.
  destruct (Z.odd a), (Z.odd b); cbn [negb] in *.
  - rewrite (mbind_ok _ _ st (d, negb (val 64 la <? val 64 lb)) st).
    + rewrite <- HA by congruence. apply new_slice_yields; auto. unfold signed. rewrite Vd. auto.
    + rewrite (with_slices_ok _ _ _ _ _ _ Sa Sb). rewrite (mbind_ok _ _ _ _ _ (lift_ok _ _ _ Ed)). auto.
  - rewrite (mbind_ok _ _ st (s, true) st).
    + rewrite add_result_same. apply new_slice_yields; auto. unfold signed. lia.
    + rewrite (with_slices_ok _ _ _ _ _ _ Sa Sb). rewrite (mbind_ok _ _ _ _ _ (lift_ok _ _ _ Es)). auto.
  - rewrite (mbind_ok _ _ st (s, false) st).
    + rewrite add_result_same. apply new_slice_yields; auto. unfold signed. lia.
    + rewrite (with_slices_ok _ _ _ _ _ _ Sa Sb). rewrite (mbind_ok _ _ _ _ _ (lift_ok _ _ _ Es)). auto.
  - rewrite (mbind_ok _ _ st (d, val 64 la <? val 64 lb) st).
    + rewrite <- HA by congruence. apply new_slice_yields; auto. unfold signed. rewrite Vd. auto.
    + rewrite (with_slices_ok _ _ _ _ _ _ Sa Sb). apply lift_ok. auto.
Qed.

Lemma bi_mul_spec dbg P st hs a b x y : consistent P st hs -> room P hs 0 -> In a hs -> In b hs ->
  denotes st a x -> denotes st b y -> yields P hs (bi_mul dbg a b) st (x * y).
Proof.
  intros Hc Hr Ha Hb Hx Hy.
  destruct (info _ _ _ _ _ Hc Ha Hx) as (la & Sa & Wa & Ca & La & Va & _).
  destruct (info _ _ _ _ _ Hc Hb Hy) as (lb & Sb & Wb & Cb & Lb & Vb & _).
  pose proof (denotes_sign _ _ _ _ _ _ Hc Ha Sa Hx) as Ex.
  pose proof (denotes_sign _ _ _ _ _ _ Hc Hb Sb Hy) as Ey.
  unfold bi_mul. rewrite !is_negative_odd.
  destruct (elem_mul_spec 64 la lb ltac:(lia) Wa Wb ltac:(lia)) as (s & Es & Ws & Cs & Vs).
  unfold yields. rewrite (mbind_ok _ _ st s st).
  - apply new_slice_yields; auto. unfold signed. rewrite Vs, Ex, Ey. destruct (Z.odd a), (Z.odd b); cbn [Bool.eqb negb]; lia.
  - rewrite (with_slices_ok _ _ _ _ _ _ Sa Sb). apply lift_ok. auto.
Qed.

(** ** Number of limbs *)

Lemma canonical_len l : wf 64 l -> canonical l -> Z.of_nat (length l) = Z.log2 (val 64 l) / 64 + 1.
Proof.
  intros Hw Hc. pose proof (val_bound 64 l Hw) as Hb. rewrite cap_bits in Hb.
  assert (0 < length l)%nat as Hl by (destruct Hc; destruct l; [congruence|cbn; lia]).
  cut (Z.log2 (val 64 l) / 64 = Z.of_nat (length l - 1)); [lia|].
  symmetry. apply Z.div_unique with (r := Z.log2 (val 64 l) - 64 * Z.of_nat (length l - 1)); [|lia].
  left. destruct (Z.eq_dec (val 64 l) 0) as [E|E].
  - rewrite E. change (Z.log2 0) with 0.
    destruct (canonical_cap 64 l Hw Hc) as [E1|E1]; [lia|]. pose proof (cap_pos 64 (length l - 1)). lia.
  - assert (Z.log2 (val 64 l) < Z.of_nat (length l * 64)) by (apply Z.log2_lt_pow2; lia).
    pose proof (Z.log2_nonneg (val 64 l)).
    destruct (canonical_cap 64 l Hw Hc) as [E1|E1]; [lia|]. rewrite cap_bits in E1.
    apply Z.log2_le_pow2 in E1; [|lia]. lia.
Qed.

Lemma canonical_one l : wf 64 l -> canonical l -> (length l = 1%nat <-> val 64 l < 2 ^ 64).
Proof.
  intros Hw Hc. split; intros H.
  - pose proof (val_bound 64 l Hw) as Hb. rewrite H, cap_1 in Hb. change (base 64) with (2 ^ 64) in Hb. lia.
  - pose proof (canonical_len l Hw Hc) as E.
    rewrite Z.div_small in E; [lia|]. split; [apply Z.log2_nonneg|].
    pose proof (val_nonneg 64 l Hw). destruct (Z.eq_dec (val 64 l) 0) as [->|]; [cbn; lia|].
    apply Z.log2_lt_pow2; lia.
Qed.

Lemma addressable_len l x : wf 64 l -> canonical l -> val 64 l = Z.abs x -> addressable x ->
  Z.of_nat (bit_len 64 l) < 2 ^ 64.
Proof.
  intros Hw Hc Hv Ha. unfold bit_len. pose proof (canonical_len l Hw Hc) as E. rewrite Hv in E.
  unfold addressable in Ha. pose proof (Z.mul_div_le (Z.log2 (Z.abs x)) 64 ltac:(lia)). lia.
Qed.

(** ** Division *)

Definition div_dom (x y : Z) : Prop :=
  y <> 0 /\ addressable x /\ (Z.abs y <= 2 ^ 63 \/ (Z.abs x < 2 ^ 64 /\ Z.abs y < 2 ^ 64)).

Lemma div_rem_slices dbg la lb x y : wf 64 la -> canonical la -> wf 64 lb -> canonical lb ->
  val 64 la = Z.abs x -> val 64 lb = Z.abs y -> div_dom x y ->
  exists q r, bit_div_long dbg 64 la lb = Ok (q, r) /\ wf 64 q /\ wf 64 r /\ q <> [] /\ r <> [] /\
    val 64 q = Z.abs x / Z.abs y /\ val 64 r = Z.abs x mod Z.abs y.
Proof.
  intros Wa Ca Wb Cb Va Vb (Hy & Hx & Hd).
  assert (0 < length la)%nat as La by (destruct Ca; destruct la; [congruence|cbn; lia]).
  assert (length lb = 1%nat) as Lb by (apply canonical_one; auto; lia).
  destruct (bit_div_long_spec dbg 64 la lb ltac:(lia) Wa Wb La ltac:(lia)) as (q & r & E & Wq & Wr & Lq & Lr & Vq & Vr).
  - eapply addressable_len; eauto.
  - unfold div_ok. change (base 64) with (2 ^ 64). rewrite Va, Vb. split; [lia|]. destruct Hd; [left; lia|right; lia].
  - exists q, r. rewrite Va, Vb in *. repeat split; auto; intros ->; cbn in *; lia.
Qed.

Lemma bi_div_spec dbg P st hs a b x y : consistent P st hs -> room P hs 0 -> In a hs -> In b hs ->
  denotes st a x -> denotes st b y -> div_dom x y -> yields P hs (bi_div dbg a b) st (Z.quot x y).
Proof.
  intros Hc Hr Ha Hb Hx Hy Hd.
  destruct (info _ _ _ _ _ Hc Ha Hx) as (la & Sa & Wa & Ca & La & Va & _).
  destruct (info _ _ _ _ _ Hc Hb Hy) as (lb & Sb & Wb & Cb & Lb & Vb & _).
  pose proof (denotes_sign _ _ _ _ _ _ Hc Ha Sa Hx) as Ex.
  pose proof (denotes_sign _ _ _ _ _ _ Hc Hb Sb Hy) as Ey.
  destruct (div_rem_slices dbg la lb x y Wa Ca Wb Cb Va Vb Hd) as (q & r & E & Wq & Wr & Nq & Nr & Vq & Vr).
  unfold bi_div. rewrite !is_negative_odd. unfold yields. rewrite (mbind_ok _ _ st q st).
  - replace (Z.quot x y) with ((if negb (Bool.eqb (Z.odd a) (Z.odd b)) then -1 else 1) * val 64 q).
    { apply new_slice_spec; auto. }
    rewrite Vq. destruct Hd as [Hy0 _]. rewrite (Z.quot_div x y) by auto.
    destruct (Z.eq_dec x 0) as [E0|E0].
    + rewrite E0. change (Z.abs 0) with 0. rewrite Zdiv_0_l. lia.
    + pose proof (val_nonneg 64 la Wa). pose proof (val_nonneg 64 lb Wb).
      destruct (Z.odd a), (Z.odd b); cbn [Bool.eqb negb].
      all: rewrite ?(Z.sgn_pos x), ?(Z.sgn_neg x), ?(Z.sgn_pos y), ?(Z.sgn_neg y) by lia; lia.
  - rewrite (with_slices_ok _ _ _ _ _ _ Sa Sb). rewrite (mbind_ok _ _ _ _ _ (lift_ok _ _ _ E)). auto.
Qed.

Lemma bi_rem_spec dbg P st hs a b x y : consistent P st hs -> room P hs 0 -> In a hs -> In b hs ->
  denotes st a x -> denotes st b y -> div_dom x y -> yields P hs (bi_rem dbg a b) st (Z.rem x y * Z.sgn y).
Proof.
  intros Hc Hr Ha Hb Hx Hy Hd.
  destruct (info _ _ _ _ _ Hc Ha Hx) as (la & Sa & Wa & Ca & La & Va & _).
  destruct (info _ _ _ _ _ Hc Hb Hy) as (lb & Sb & Wb & Cb & Lb & Vb & _).
  pose proof (denotes_sign _ _ _ _ _ _ Hc Ha Sa Hx) as Ex.
  pose proof (denotes_sign _ _ _ _ _ _ Hc Hb Sb Hy) as Ey.
  destruct (div_rem_slices dbg la lb x y Wa Ca Wb Cb Va Vb Hd) as (q & r & E & Wq & Wr & Nq & Nr & Vq & Vr).
  unfold bi_rem. rewrite !is_negative_odd. unfold yields. rewrite (mbind_ok _ _ st r st).
  - replace (Z.rem x y * Z.sgn y) with ((if negb (Bool.eqb (Z.odd a) (Z.odd b)) then -1 else 1) * val 64 r).
    { apply new_slice_spec; auto. }
    rewrite Vr. destruct Hd as [Hy0 _]. rewrite (Z.rem_mod x y) by auto.
    destruct (Z.eq_dec x 0) as [E0|E0].
    + rewrite E0. change (Z.abs 0) with 0. rewrite Zmod_0_l. lia.
    + pose proof (val_nonneg 64 la Wa). pose proof (val_nonneg 64 lb Wb).
      destruct (Z.odd a), (Z.odd b); cbn [Bool.eqb negb].
      all: rewrite ?(Z.sgn_pos x), ?(Z.sgn_neg x), ?(Z.sgn_pos y), ?(Z.sgn_neg y) by lia; lia.
  - rewrite (with_slices_ok _ _ _ _ _ _ Sa Sb). rewrite (mbind_ok _ _ _ _ _ (lift_ok _ _ _ E)). auto.
Qed.

Lemma bi_div_rem_panic dbg P st hs a b x y : consistent P st hs -> In a hs -> In b hs ->
  denotes st a x -> denotes st b y -> addressable y -> Z.log2 (Z.abs x) / 64 < Z.log2 (Z.abs y) / 64 ->
  bi_div dbg a b st = Panic /\ bi_rem dbg a b st = Panic.
Proof.
  intros Hc Ha Hb Hx Hy Hay Hlt.
  destruct (info _ _ _ _ _ Hc Ha Hx) as (la & Sa & Wa & Ca & La & Va & _).
  destruct (info _ _ _ _ _ Hc Hb Hy) as (lb & Sb & Wb & Cb & Lb & Vb & _).
  pose proof (canonical_len la Wa Ca) as E1. pose proof (canonical_len lb Wb Cb) as E2. rewrite Va in E1. rewrite Vb in E2.
  assert (bit_div_long dbg 64 la lb = Panic) as E.
  { apply bit_div_long_panics; auto; [lia|lia|]. eapply addressable_len; eauto. }
  split; unfold bi_div, bi_rem; apply mbind_panic; rewrite (with_slices_ok _ _ _ _ _ _ Sa Sb);
    apply mbind_panic, lift_panic, E.
Qed.

Lemma bi_div_rem_zero dbg P st hs a b x : consistent P st hs -> room P hs 0 -> In a hs -> In b hs ->
  denotes st a x -> denotes st b 0 -> addressable x ->
  (exists q, q <> 0 /\ yields P hs (bi_div dbg a b) st q) /\
  (exists r, Z.abs r = Z.abs x /\ yields P hs (bi_rem dbg a b) st r).
Proof.
  intros Hc Hr Ha Hb Hx Hy Hax.
  destruct (info _ _ _ _ _ Hc Ha Hx) as (la & Sa & Wa & Ca & La & Va & _).
  destruct (info _ _ _ _ _ Hc Hb Hy) as (lb & Sb & Wb & Cb & Lb & Vb & _).
  assert (length lb = 1%nat) as Lb1 by (apply canonical_one; auto; lia).
  destruct (bit_div_long_zero dbg 64 la lb ltac:(lia) Wa Wb La ltac:(lia)) as (q & r & E & Wq & Wr & Lq & Lr & Vq & Vr).
  { eapply addressable_len; eauto. }
  { auto. }
  split.
  - exists ((if negb (Bool.eqb (is_negative a) (is_negative b)) then -1 else 1) * val 64 q). split.
    + rewrite Vq. pose proof (cap_mono 64 1 (length la) ltac:(lia)) as Hm. rewrite cap_1 in Hm.
      change (base 64) with (2 ^ 64) in Hm. destruct (negb _); lia.
    + unfold yields, bi_div. rewrite (mbind_ok _ _ st q st).
      * apply new_slice_spec; auto. intros ->. cbn in *. lia.
      * rewrite (with_slices_ok _ _ _ _ _ _ Sa Sb). rewrite (mbind_ok _ _ _ _ _ (lift_ok _ _ _ E)). auto.
  - exists ((if negb (Bool.eqb (is_negative a) (is_negative b)) then -1 else 1) * val 64 r). split.
    + rewrite Vr, Va. destruct (negb _); lia.
    + unfold yields, bi_rem. rewrite (mbind_ok _ _ st r st).
      * apply new_slice_spec; auto. intros ->. cbn in *. lia.
      * rewrite (with_slices_ok _ _ _ _ _ _ Sa Sb). rewrite (mbind_ok _ _ _ _ _ (lift_ok _ _ _ E)). auto.
Qed.

(** ** Equality and ordering *)

Lemma has_slice_inline st a l : has_slice st a l -> Z.testbit a 1 = true -> val 64 l = a / 4 /\ val 64 l < 2 ^ 62.
Proof.
  intros (_ & _ & _ & _ & Hi & _) Hb. destruct (Hi Hb) as [-> H]. cbn [val]. lia.
Qed.

Lemma tag_eqb_eq s t : tag_eqb s t = true <-> s = t.
Proof. destruct s, t; cbn; split; intros; congruence. Qed.

Lemma tag_of_bits a : tag_of a = if Z.testbit a 1 then (if Z.odd a then TInlineNeg else TInline) else (if Z.odd a then TNeg else TNone).
Proof.
  rewrite <- is_inline_bit, <- is_negative_odd. unfold is_inline, is_negative. destruct (tag_of a); reflexivity.
Qed.

Lemma bi_eq_spec P st hs a b x y : consistent P st hs -> In a hs -> In b hs -> denotes st a x -> denotes st b y ->
  bi_eq st a b = Ok ((x =? y) && Bool.eqb (a =? neg_zero) (b =? neg_zero)).
Proof.
  intros Hc Ha Hb Hx Hy.
  destruct (info _ _ _ _ _ Hc Ha Hx) as (la & Sa & Wa & Ca & La & Va & _).
  destruct (info _ _ _ _ _ Hc Hb Hy) as (lb & Sb & Wb & Cb & Lb & Vb & _).
  pose proof (denotes_sign _ _ _ _ _ _ Hc Ha Sa Hx) as Ex.
  pose proof (denotes_sign _ _ _ _ _ _ Hc Hb Sb Hy) as Ey.
  assert (0 <= a) as Pa by apply Sa. assert (0 <= b) as Pb by apply Sb.
  unfold bi_eq. destruct (Z.eqb_spec a b) as [->|Hne].
  { assert (x = y) as -> by (eapply denotes_fun; eauto). rewrite Z.eqb_refl, Bool.eqb_reflx. auto. }
  destruct (tag_eqb (tag_of a) (tag_of b) && negb (tag_inline (tag_of a))) eqn:Et.
  - apply andb_true_iff in Et. destruct Et as [Et1 Et2]. apply tag_eqb_eq in Et1.
    apply negb_true_iff in Et2. assert (Z.testbit a 1 = false) as Ia by (rewrite <- is_inline_bit; auto).
    assert (Z.testbit b 1 = false) as Ib by (rewrite <- is_inline_bit; unfold is_inline; rewrite <- Et1; auto).
    assert (Z.odd a = Z.odd b) as Hodd by (rewrite <- !is_negative_odd; unfold is_negative; rewrite Et1; auto).
    destruct Sa as (Sa & _). destruct Sb as (Sb & _). rewrite Sa, Sb. cbn [bind]. f_equal.
    rewrite (proj2 (Z.eqb_neq a neg_zero)) by (intros ->; discriminate Ia).
    rewrite (proj2 (Z.eqb_neq b neg_zero)) by (intros ->; discriminate Ib).
    cbn [Bool.eqb]. rewrite andb_true_r.
    apply eq_true_iff_eq. rewrite list_eqb_ok, Z.eqb_eq. rewrite Ex, Ey, Hodd. split.
    + intros ->. auto.
    + intros Hv. apply (canonical_inj 64); auto. destruct (Z.odd b); lia.
  - f_equal. symmetry. apply andb_false_iff in Et.
    destruct (Z.eqb_spec x y) as [Exy|]; [|auto]. cbn [andb].
    pose proof (word_split a Pa) as Wda. pose proof (word_split b Pb) as Wdb.
    destruct (Z.testbit a 1) eqn:Ia; destruct (Z.testbit b 1) eqn:Ib.
    + destruct (has_slice_inline _ _ _ Sa Ia) as [Ia1 Ia2]. destruct (has_slice_inline _ _ _ Sb Ib) as [Ib1 Ib2].
      assert (Z.odd a <> Z.odd b) as Hod.
      { intros Hod. apply Hne. rewrite Wda, Wdb. rewrite (tag_of_bits a), (tag_of_bits b), Ia, Ib, Hod. f_equal.
        rewrite Ex, Ey, Hod in Exy. destruct (Z.odd b); lia. }
      assert (a / 4 = 0 /\ b / 4 = 0) as [Za Zb] by (destruct (Z.odd a), (Z.odd b); try congruence; lia).
      rewrite Za, tag_of_bits, Ia in Wda. rewrite Zb, tag_of_bits, Ib in Wdb.
      destruct (Z.odd a), (Z.odd b); try congruence; cbn in Wda, Wdb; subst a b; reflexivity.
    + destruct (has_slice_inline _ _ _ Sa Ia) as [Ia1 Ia2]. destruct Sb as (_ & _ & _ & _ & _ & Hbig & _).
      specialize (Hbig Ib). exfalso. destruct (Z.odd a), (Z.odd b); lia.
    + destruct (has_slice_inline _ _ _ Sb Ib) as [Ib1 Ib2]. destruct Sa as (_ & _ & _ & _ & _ & Hbig & _).
      specialize (Hbig Ia). exfalso. destruct (Z.odd a), (Z.odd b); lia.
    + destruct Sa as (_ & _ & _ & _ & _ & HbigA & _). destruct Sb as (_ & _ & _ & _ & _ & HbigB & _).
      specialize (HbigA Ia). specialize (HbigB Ib).
      exfalso. rewrite (tag_of_bits a), (tag_of_bits b), Ia, Ib in Et.
      destruct (Z.odd a), (Z.odd b); cbn in Et; try lia; destruct Et; discriminate.
Qed.

Lemma low_first_refl l : low_first l l = Eq.
Proof. induction l as [|x l IH]; cbn; auto. rewrite Z.compare_refl. auto. Qed.

(** Values for which the limb order does not matter. *)
Definition cmp_dom (x y : Z) : Prop :=
  x = y \/ Z.log2 (Z.abs x) / 64 <> Z.log2 (Z.abs y) / 64 \/ Z.abs x < 2 ^ 64 \/ Z.abs y < 2 ^ 64 \/
  (x < 0 <= y) \/ (y < 0 <= x).

Lemma bi_cmp_spec P st hs a b x y : consistent P st hs -> In a hs -> In b hs -> denotes st a x -> denotes st b y ->
  a <> neg_zero -> b <> neg_zero -> cmp_dom x y -> bi_cmp st a b = Ok (Z.compare x y).
Proof.
  intros Hc Ha Hb Hx Hy Na Nb Hd.
  destruct (info _ _ _ _ _ Hc Ha Hx) as (la & Sa & Wa & Ca & La & Va & Pa & Qa & Oa).
  destruct (info _ _ _ _ _ Hc Hb Hy) as (lb & Sb & Wb & Cb & Lb & Vb & Pb & Qb & Ob).
  specialize (Oa Na). specialize (Ob Nb).
  unfold bi_cmp. destruct (Z.eqb_spec a b) as [->|Hne].
  { assert (x = y) as -> by (eapply denotes_fun; eauto). rewrite Z.compare_refl. auto. }
  rewrite !is_positive_neg, !is_negative_odd, Oa, Ob.
  destruct (Z.ltb_spec x 0) as [Xn|Xn]; destruct (Z.ltb_spec y 0) as [Yn|Yn]; cbn [negb andb].
  2: { symmetry. f_equal. apply Z.compare_lt_iff. lia. }
  2: { symmetry. f_equal. apply Z.compare_gt_iff. lia. }
  all: destruct Sa as (Sa & _); destruct Sb as (Sb & _); rewrite Sa, Sb; cbn [bind]; f_equal.
  all: pose proof (canonical_len la Wa Ca) as E1; pose proof (canonical_len lb Wb Cb) as E2.
  all: pose proof (canonical_one la Wa Ca) as O1; pose proof (canonical_one lb Wb Cb) as O2.
  all: rewrite Va in E1, O1; rewrite Vb in E2, O2.
  all: assert (Z.compare (Z.abs x) (Z.abs y) = if negb (Nat.eqb (length la) (length lb)) then Nat.compare (length la) (length lb) else low_first la lb) as Hcmp.
  1,3: destruct (Nat.eqb_spec (length la) (length lb)) as [El|El]; cbn [negb].
  1,3: destruct (Z.eq_dec x y) as [Exy|Exy];
    [assert (la = lb) as -> by (apply (canonical_inj 64); auto; congruence); rewrite low_first_refl, Exy; apply Z.compare_refl|].
  1,2: assert (length la = 1%nat /\ length lb = 1%nat) as [A1 A2]
    by (destruct Hd as [|[|[|[|[|]]]]]; [contradiction|exfalso; lia|split; [|rewrite <- El]; apply O1; auto
        |split; [rewrite El|]; apply O2; auto|lia|lia]).
  1,2: rewrite <- Va, <- Vb; destruct la as [|u [|? ?]]; try discriminate A1; destruct lb as [|v [|? ?]]; try discriminate A2;
    cbn [val low_first]; rewrite !Z.mul_0_r, !Z.add_0_r; destruct (u ?= v); auto.
  1,2: destruct (Nat.compare_spec (length la) (length lb)) as [E|E|E]; [contradiction| |].
  1,3: apply Z.compare_lt_iff; destruct (Z_lt_ge_dec (Z.abs x) (Z.abs y)) as [|G]; auto; exfalso;
     pose proof (Z.log2_le_mono (Z.abs y) (Z.abs x) ltac:(lia)) as G2; pose proof (Z.div_le_mono _ _ 64 ltac:(lia) G2); lia.
  1,2: apply Z.compare_gt_iff; destruct (Z_lt_ge_dec (Z.abs y) (Z.abs x)) as [|G]; auto; exfalso;
     pose proof (Z.log2_le_mono (Z.abs x) (Z.abs y) ltac:(lia)) as G2; pose proof (Z.div_le_mono _ _ 64 ltac:(lia) G2); lia.
  - rewrite <- Hcmp. rewrite !Z.abs_neq by lia. rewrite <- Z.compare_antisym. rewrite Z.compare_opp. f_equal; lia.
  - rewrite <- Hcmp. rewrite !Z.abs_eq by lia. auto.
Qed.
