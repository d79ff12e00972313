(** Proofs about BigInt conversions, comparisons with primitives, shifts, negation. *)
From Coq Require Import ZArith List Bool Lia Permutation.
From Verif Require Import Base Words Spec Arith BitSliceModel BitSliceProofs ElementModel
  BitwiseModel ElemAddSub ElemMul ElemShift BitwiseProofs InternModel InternProofs BigIntModel BigIntSpec
  BigIntProofs BigIntOps.
Import ListNotations.
Local Open Scope Z_scope.

Lemma yields_after P st st1 hs m m1 v : m st = m1 st1 -> keeps st st1 hs ->
  yields P hs m1 st1 v -> yields P hs m st v.
Proof.
  intros E K (c & st2 & E2 & C2 & K2 & D2 & N2). exists c, st2. rewrite E. split; auto. split; auto.
  split; [|auto]. eapply keeps_trans; eauto.
Qed.

Lemma returns_after {A} P st st1 hs (m m1 : M A) v : m st = m1 st1 -> keeps st st1 hs ->
  returns P hs m1 st1 v -> returns P hs m st v.
Proof.
  intros E K (st2 & E2 & C2 & K2). exists st2. rewrite E. split; auto. split; auto.
  eapply keeps_trans; eauto.
Qed.

Lemma returns_ret {A} P st hs (v : A) : consistent P st hs -> returns P hs (ret v) st v.
Proof. intros H. exists st. split; [reflexivity|]. split; auto. apply keeps_refl. Qed.

(** Compare with a temporary made from a primitive. *)
Lemma cmp_temp dbg t P st hs a x v c : consistent P st hs -> room P hs 0 -> In a hs -> denotes st a x ->
  std_ty t -> in_range t v = true ->
  (forall st1 m, consistent P st1 (m :: hs) -> denotes st1 m v -> m <> neg_zero -> denotes st1 a x ->
     bi_cmp st1 a m = Ok c) ->
  exists m st1 st2, bi_from dbg t v st = Ok (m, st1) /\ bi_cmp st1 a m = Ok c /\ bi_drop m st1 = Ok (tt, st2) /\
    consistent P st2 hs /\ keeps st st2 hs.
Proof.
  intros Hc Hr Ha Hx Ht Hv Hcmp.
  destruct (from_spec dbg P st hs t v Hc Hr Ht Hv) as (m & st1 & E & C & K & D & N).
  destruct (drop_spec P st1 hs m C) as (st2 & E2 & C2 & K2).
  exists m, st1, st2. repeat (split; auto). eapply keeps_trans; eauto.
Qed.

Lemma bi_cmp_int_spec dbg t P st hs a x v : consistent P st hs -> room P hs 0 -> In a hs -> denotes st a x ->
  std_ty t -> in_range t v = true -> a <> neg_zero -> cmp_dom x v ->
  returns P hs (bi_cmp_int dbg t a v) st (Z.compare x v).
Proof.
  intros Hc Hr Ha Hx Ht Hv Na Hd.
  destruct (cmp_temp dbg t P st hs a x v (Z.compare x v) Hc Hr Ha Hx Ht Hv) as (m & st1 & st2 & E1 & E2 & E3 & C & K).
  { intros st1 m C D N Da. eapply bi_cmp_spec; eauto; cbn; auto. }
  exists st2. split; auto. unfold bi_cmp_int. rewrite (mbind_ok _ _ _ _ _ E1).
  rewrite (mbind_ok _ _ _ _ _ (reads_ok (fun st => bi_cmp st a m) _ _ E2)). rewrite (mbind_ok _ _ _ _ _ E3). auto.
Qed.

Lemma in_range_max t : std_ty t -> in_range t (imax t) = true.
Proof.
  intros Ht. destruct (std_ty_bits t Ht) as [Hb _]. unfold in_range. rewrite Z.leb_refl, andb_true_r. apply Z.leb_le.
  unfold imin, imax. destruct (isigned t).
  - assert (0 < 2 ^ (Z.of_nat (ibits t) - 1)) by (apply Z.pow_pos_nonneg; lia). lia.
  - assert (0 < 2 ^ Z.of_nat (ibits t)) by (apply Z.pow_pos_nonneg; lia). lia.
Qed.
Lemma in_range_min t : std_ty t -> in_range t (imin t) = true.
Proof.
  intros Ht. pose proof (in_range_max t Ht) as H. unfold in_range in *. rewrite Z.leb_refl in *.
  rewrite andb_true_r in H. rewrite H. auto.
Qed.

Lemma in_range_iff t v : in_range t v = true <-> imin t <= v <= imax t.
Proof. unfold in_range. rewrite andb_true_iff, !Z.leb_le. tauto. Qed.

(** Two-limb magnitudes against 2^128-1: low limb first still never says "greater". *)
Lemma low_first_max u v : u < 2 ^ 64 -> v < 2 ^ 64 ->
  low_first [u; v] [2 ^ 64 - 1; 2 ^ 64 - 1] <> Gt.
Proof.
  intros Hu Hv. cbn [low_first].
  destruct (Z.compare_spec u (2 ^ 64 - 1)); [|discriminate|lia].
  destruct (Z.compare_spec v (2 ^ 64 - 1)); [discriminate|discriminate|lia].
Qed.

Lemma bi_cmp_u128_max P st hs a m x : consistent P st hs -> In a hs -> In m hs -> denotes st a x ->
  denotes st m (2 ^ 128 - 1) -> a <> neg_zero -> m <> neg_zero ->
  exists c, bi_cmp st a m = Ok c /\ (c = Gt <-> 2 ^ 128 - 1 < x).
Proof.
  intros Hc Ha Hm Hx Hv Na Nm.
  destruct (Z_lt_ge_dec x 0) as [Hn|Hn].
  { exists (Z.compare x (2 ^ 128 - 1)). split; [|rewrite Z.compare_gt_iff; tauto].
    eapply bi_cmp_spec; eauto. unfold cmp_dom. lia. }
  destruct (Z.eq_dec (Z.log2 (Z.abs x) / 64) 1) as [E1|E1].
  2: { exists (Z.compare x (2 ^ 128 - 1)). split; [|rewrite Z.compare_gt_iff; tauto].
       eapply bi_cmp_spec; eauto. unfold cmp_dom. right. left. exact E1. }
  destruct (info _ _ _ _ _ Hc Ha Hx) as (la & Sa & Wa & Ca & La & Va & Pa & Qa & Oa).
  destruct (info _ _ _ _ _ Hc Hm Hv) as (lm & Sm & Wm & Cm & Lm & Vm & Pm & Qm & Om).
  specialize (Oa Na). specialize (Om Nm).
  assert (lm = [2 ^ 64 - 1; 2 ^ 64 - 1]) as ->.
  { apply (canonical_inj 64); auto.
    - repeat constructor; vm_compute; congruence.
    - split; [discriminate|]. left. vm_compute. discriminate. }
  pose proof (canonical_len la Wa Ca) as El. rewrite Va, E1 in El.
  pose proof (val_bound 64 la Wa) as Hb. rewrite cap_bits in Hb.
  assert (length la = 2%nat) as El2 by lia. rewrite El2, Va in Hb. change (2 ^ Z.of_nat (2 * 64)) with (2 ^ 128) in Hb.
  assert (~ 2 ^ 128 - 1 < x) as Hnx by lia.
  unfold bi_cmp. destruct (a =? m); [exists Eq; split; auto; split; [discriminate|tauto]|].
  rewrite !is_positive_neg, !is_negative_odd, Oa, Om.
  rewrite (proj2 (Z.ltb_ge x 0)) by lia. cbn [Z.ltb Z.compare negb andb].
  change (2 ^ 128 - 1 <? 0) with false. cbn [negb andb].
  destruct Sa as (Sa & _). destruct Sm as (Sm & _). rewrite Sa, Sm. cbn [bind]. rewrite El2. cbn [length Nat.eqb negb].
  destruct la as [|u [|v [|? ?]]]; try discriminate El2.
  eexists. split; [reflexivity|].
  inversion Wa as [|? ? Hu Wa' Q1]; subst. inversion Wa' as [|? ? Hv' Wa'' Q2]; subst.
  change (Z.of_nat 64) with 64 in *.
  pose proof (low_first_max u v ltac:(lia) ltac:(lia)). tauto.
Qed.

Lemma std_unsigned t : std_ty t -> isigned t = false -> t = uty (ibits t).
Proof. destruct t as [b s]. cbn. intros _ ->. reflexivity. Qed.

Lemma arr_to_int_unsigned dbg t l x : std_ty t -> isigned t = false -> wf 64 l -> canonical l ->
  val 64 l = x -> x <= imax t -> arr_to_int dbg 64 t l = Ok (Some x).
Proof.
  intros Ht Hu Hw Hc Hv Hx. unfold imax in Hx. rewrite Hu in Hx.
  pose proof (canonical_len l Hw Hc) as El. pose proof (canonical_one l Hw Hc) as Eo.
  rewrite (std_unsigned t Ht Hu).
  assert (ibits t = 64%nat \/ ibits t = 128%nat \/ (0 < ibits t < 64)%nat) as [E|[E|E]].
  { unfold std_ty in Ht. cbn in Ht. lia. }
  - rewrite E in *. rewrite arr_to_int_u; auto; try lia; [|exists 1%nat; lia].
    rewrite (proj2 (Nat.leb_le _ _)); [congruence|]. change (2 ^ Z.of_nat 64) with (2 ^ 64) in Hx.
    rewrite (proj2 Eo) by lia. lia.
  - rewrite E in *. rewrite arr_to_int_u; auto; try lia; [|exists 2%nat; lia].
    rewrite (proj2 (Nat.leb_le _ _)); [congruence|].
    assert (Z.log2 (val 64 l) < 128).
    { pose proof (val_nonneg 64 l Hw). change (2 ^ Z.of_nat 128) with (2 ^ 128) in Hx.
      destruct (Z.eq_dec (val 64 l) 0) as [->|]; [cbn; lia|]. apply Z.log2_lt_pow2; lia. }
    pose proof (Z.log2_nonneg (val 64 l)).
    assert (Z.log2 (val 64 l) / 64 < 2) by (apply Z.div_lt_upper_bound; lia). lia.
  - rewrite arr_to_int_u_narrow; auto; [|lia].
    assert (2 ^ Z.of_nat (ibits t) < 2 ^ 64) by (apply Z.pow_lt_mono_r; lia).
    assert (length l = 1%nat) as L1 by (apply Eo; lia).
    destruct l as [|u [|? ?]]; try discriminate L1. cbn [val] in Hv. rewrite Z.mul_0_r, Z.add_0_r in Hv. subst u.
    unfold base. rewrite (proj2 (Z.ltb_lt _ _)) by lia. auto.
Qed.

Lemma try_from_unsigned dbg t P st hs a x : consistent P st hs -> room P hs 0 -> In a hs -> denotes st a x ->
  std_ty t -> isigned t = false -> a <> neg_zero ->
  returns P hs (bi_try_from dbg t a) st
    (if x <? 0 then inr Below else if imax t <? x then inr Above else inl x).
Proof.
  intros Hc Hr Ha Hx Ht Hu Na.
  assert (forall st1 m, consistent P st1 (m :: hs) -> denotes st1 m (imax t) -> m <> neg_zero -> denotes st1 a x ->
     exists c, bi_cmp st1 a m = Ok c /\ (c = Gt <-> imax t < x)) as H1.
  { intros st1 m C D N Da.
    assert (ibits t = 128%nat \/ (ibits t <= 64)%nat) as [E|E] by (destruct (std_ty_bits t Ht); tauto).
    - unfold imax in *. rewrite Hu, E in *. change (2 ^ Z.of_nat 128 - 1) with (2 ^ 128 - 1) in *.
      eapply bi_cmp_u128_max; eauto; cbn; auto.
    - exists (Z.compare x (imax t)). split; [|rewrite Z.compare_gt_iff; tauto].
      eapply bi_cmp_spec; eauto; cbn; auto. unfold cmp_dom. right. right. right. left.
      unfold imax. rewrite Hu. assert (2 ^ Z.of_nat (ibits t) <= 2 ^ 64) by (apply Z.pow_le_mono_r; lia).
      assert (0 < 2 ^ Z.of_nat (ibits t)) by (apply Z.pow_pos_nonneg; lia). lia. }
  destruct (from_spec dbg P st hs t (imax t) Hc Hr Ht (in_range_max t Ht)) as (m & st1 & E & C & K & D & N).
  destruct (H1 st1 m C D N (K _ _ Ha Hx)) as (c & Ec & Hc1).
  destruct (drop_spec P st1 hs m C) as (st2 & E2 & C2 & K2).
  assert (keeps st st2 hs) as K12 by (eapply keeps_trans; eauto).
  assert (0 <= imax t) as Hmax.
  { pose proof (in_range_max t Ht) as Q. apply in_range_iff in Q. unfold imin in Q. rewrite Hu in Q. lia. }
  apply (returns_after P st st2 hs _ (match c with
    | Gt => ret (inr Above)
    | _ =>
      let! m := bi_from dbg t (imin t) in
      let! c := reads (fun st => bi_cmp st a m) in
      let! _ := bi_drop m in
      match c with
      | Lt => ret (inr Below)
      | _ =>
        let! l := reads (fun st => bi_slice st a) in
        let! o := lift (arr_to_int dbg 64 t l) in
        ret (match o with Some v => inl v | None => inr Above end)
      end
    end) _).
  { unfold bi_try_from. rewrite (mbind_ok _ _ _ _ _ E).
    rewrite (mbind_ok _ _ _ _ _ (reads_ok (fun st => bi_cmp st a m) _ _ Ec)). rewrite (mbind_ok _ _ _ _ _ E2). reflexivity. }
  { auto. }
  assert (c = Gt \/ c <> Gt) as [Eg|Eg] by (destruct c; auto; right; discriminate).
  { rewrite Eg. apply (proj1 Hc1) in Eg. rewrite (proj2 (Z.ltb_ge x 0)), (proj2 (Z.ltb_lt _ _)) by lia.
    apply returns_ret. auto. }
  assert (~ imax t < x) as Hle by tauto.
  rewrite (proj2 (Z.ltb_ge (imax t) x)) by lia.
  assert (imin t = 0) as Emin by (unfold imin; rewrite Hu; auto).
  destruct (cmp_temp dbg t P st2 hs a x (imin t) (Z.compare x 0) C2 Hr Ha (K12 _ _ Ha Hx) Ht (in_range_min t Ht))
    as (m2 & st3 & st4 & E3 & E4 & E5 & C4 & K4).
  { intros st3 m3 C3 D3 N3 Da3. rewrite Emin in D3. eapply bi_cmp_spec; eauto; cbn; auto.
    unfold cmp_dom. right. right. right. left. cbn. lia. }
  apply (returns_after P st2 st4 hs _ (match Z.compare x 0 with
      | Lt => ret (inr Below)
      | _ =>
        let! l := reads (fun st => bi_slice st a) in
        let! o := lift (arr_to_int dbg 64 t l) in
        ret (match o with Some v => inl v | None => inr Above end)
      end) _).
  { assert (forall A (p q : A), match c with Gt => p | _ => q end = q) as -> by (intros; destruct c; congruence).
    rewrite (mbind_ok _ _ _ _ _ E3).
    rewrite (mbind_ok _ _ _ _ _ (reads_ok (fun st => bi_cmp st a m2) _ _ E4)). rewrite (mbind_ok _ _ _ _ _ E5). reflexivity. }
  { auto. }
  destruct (Z.compare_spec x 0) as [E0|E0|E0].
  2: { rewrite (proj2 (Z.ltb_lt x 0)) by lia. apply returns_ret. auto. }
  all: rewrite (proj2 (Z.ltb_ge x 0)) by lia.
  all: destruct (info _ _ _ a x C4 Ha (K4 _ _ Ha (K12 _ _ Ha Hx))) as (l & Sl & Wl & Cl & Ll & Vl & _).
  all: pose proof (arr_to_int_unsigned dbg t l x Ht Hu Wl Cl ltac:(lia) ltac:(lia)) as Earr.
  all: exists st4; split; [|split; [auto|apply keeps_refl]].
  all: rewrite (mbind_ok _ _ _ _ _ (reads_ok (fun st => bi_slice st a) _ _ (proj1 Sl))).
  all: rewrite (mbind_ok _ _ _ _ _ (lift_ok _ _ _ Earr)); reflexivity.
Qed.

(** ** Signed targets *)

Lemma arr_to_int_signed dbg t l x : std_ty t -> isigned t = true -> wf 64 l -> canonical l ->
  val 64 l = x -> x <= imax t -> arr_to_int dbg 64 t l = Ok (Some x).
Proof.
  intros Ht Hu Hw Hc Hv Hx.
  pose proof (canonical_len l Hw Hc) as El. pose proof (canonical_one l Hw Hc) as Eo.
  pose proof (val_nonneg 64 l Hw) as Hx0.
  destruct (std_ty_bits t Ht) as [Hb8 Hb].
  assert (forall v, 0 <= v <= imax t -> in_range t v = true) as Hin.
  { intros v Hv0. apply in_range_iff. unfold imin. rewrite Hu.
    assert (0 < 2 ^ (Z.of_nat (ibits t) - 1)) by (apply Z.pow_pos_nonneg; lia). lia. }
  assert (0 < 2 ^ (Z.of_nat (ibits t) - 1)) as Hp by (apply Z.pow_pos_nonneg; lia).
  assert (2 ^ Z.of_nat (ibits t) = 2 * 2 ^ (Z.of_nat (ibits t) - 1)) as Edbl.
  { rewrite <- Z.pow_succ_r by lia. f_equal. lia. }
  assert (imax t = 2 ^ (Z.of_nat (ibits t) - 1) - 1) as Emax by (unfold imax; rewrite Hu; auto).
  assert (forall v, 0 <= v <= imax t -> wrap t v = v) as Hwrap.
  { intros v Hv0. unfold wrap. rewrite Hu. rewrite Z.mod_small by lia.
    rewrite (proj2 (Z.leb_gt _ _)) by lia. reflexivity. }
  assert (0 < length l)%nat as Hl0 by (destruct Hc; destruct l; [congruence|cbn; lia]).
  unfold arr_to_int. destruct l as [|u l]; [cbn in Hl0; lia|]. pose proof (Forall_inv Hw) as Hu0. pose proof (Forall_inv_tail Hw) as Hw'. cbv beta in Hu0.
  change (Z.of_nat 64) with 64 in *. cbn [val] in Hv. change (base 64) with (2 ^ 64) in *.
  assert (wf 64 l) as Hwl by auto. pose proof (val_nonneg 64 l Hwl) as Hvl.
  cbn [arr_to_int_loop]. unfold from_checked. rewrite Hin by lia.
  unfold checked_shl_usize at 1. change ((0 * Z.of_nat 64) mod 2 ^ 32) with 0.
  rewrite (proj2 (Z.ltb_lt 0 _)) by lia. rewrite Z.shiftl_0_r, Hwrap by lia.
  unfold iadd at 1. rewrite Z.add_0_l, Hin by lia. cbn [bind].
  destruct l as [|v l].
  { cbn [arr_to_int_loop]. f_equal. f_equal. cbn [val] in Hv. lia. }
  assert (ibits t = 128%nat /\ l = []) as [E ->].
  { assert (2 ^ 64 <= val 64 (u :: v :: l)) as Hge.
    { destruct (Z_lt_ge_dec (val 64 (u :: v :: l)) (2 ^ 64)) as [G|]; [|lia]. apply Eo in G. discriminate. }
    cbn [val] in Hge. change (base 64) with (2 ^ 64) in Hge. cbn [val] in Hv. change (base 64) with (2 ^ 64) in Hv.
    assert (ibits t = 128%nat) as E.
    { destruct Hb as [|Hb]; auto. exfalso.
      assert (2 ^ (Z.of_nat (ibits t) - 1) <= 2 ^ 63) by (apply Z.pow_le_mono_r; lia). lia. }
    split; auto. rewrite E in Emax. change (2 ^ (Z.of_nat 128 - 1) - 1) with (2 ^ 127 - 1) in Emax.
    assert (Z.log2 (val 64 (u :: v :: l)) < 127).
    { apply Z.log2_lt_pow2; [|]; cbn [val]; change (base 64) with (2 ^ 64); lia. }
    assert (Z.log2 (val 64 (u :: v :: l)) / 64 < 2) by (apply Z.div_lt_upper_bound; lia).
    destruct l; auto. cbn [length] in El. lia. }
  rewrite E in *. cbn [val] in Hv. change (base 64) with (2 ^ 64) in Hv. rewrite Z.mul_0_r, Z.add_0_r in Hv.
  pose proof (Forall_inv Hwl) as Hv0. cbv beta in Hv0. change (Z.of_nat 64) with 64 in *.
  change (2 ^ (Z.of_nat 128 - 1) - 1) with (2 ^ 127 - 1) in Emax.
  cbn [arr_to_int_loop]. unfold from_checked. rewrite Hin by lia.
  unfold checked_shl_usize. change (((0 + 1) * Z.of_nat 64) mod 2 ^ 32) with 64.
  rewrite E. cbn [Z.of_nat Z.ltb]. change (64 <? Z.pos (Pos.of_succ_nat 127)) with true. cbv iota.
  rewrite Z.shiftl_mul_pow2 by lia. rewrite Hwrap by lia. unfold iadd. rewrite Hin by lia. cbn [bind arr_to_int_loop].
  f_equal. f_equal. lia.
Qed.

Lemma try_from_generic dbg t P st hs a x o : consistent P st hs -> room P hs 0 -> In a hs -> denotes st a x ->
  std_ty t ->
  (forall st1 m, consistent P st1 (m :: hs) -> denotes st1 m (imax t) -> m <> neg_zero -> denotes st1 a x ->
     exists c, bi_cmp st1 a m = Ok c /\ (c = Gt <-> imax t < x)) ->
  (forall st1 m, consistent P st1 (m :: hs) -> denotes st1 m (imin t) -> m <> neg_zero -> denotes st1 a x ->
     x <= imax t -> exists c, bi_cmp st1 a m = Ok c /\ (c = Lt <-> x < imin t)) ->
  (forall l, wf 64 l -> canonical l -> val 64 l = Z.abs x -> imin t <= x <= imax t -> arr_to_int dbg 64 t l = Ok o) ->
  returns P hs (bi_try_from dbg t a) st
    (if imax t <? x then inr Above else if x <? imin t then inr Below
     else match o with Some v => inl v | None => inr Above end).
Proof.
  intros Hc Hr Ha Hx Ht H1 H2 H3.
  destruct (from_spec dbg P st hs t (imax t) Hc Hr Ht (in_range_max t Ht)) as (m & st1 & E & C & K & D & N).
  destruct (H1 st1 m C D N (K _ _ Ha Hx)) as (c & Ec & Hc1).
  destruct (drop_spec P st1 hs m C) as (st2 & E2 & C2 & K2).
  assert (keeps st st2 hs) as K12 by (eapply keeps_trans; eauto).
  apply (returns_after P st st2 hs _ (match c with
    | Gt => ret (inr Above)
    | _ =>
      let! m := bi_from dbg t (imin t) in
      let! c := reads (fun st => bi_cmp st a m) in
      let! _ := bi_drop m in
      match c with
      | Lt => ret (inr Below)
      | _ =>
        let! l := reads (fun st => bi_slice st a) in
        let! o := lift (arr_to_int dbg 64 t l) in
        ret (match o with Some v => inl v | None => inr Above end)
      end
    end) _).
  { unfold bi_try_from. rewrite (mbind_ok _ _ _ _ _ E).
    rewrite (mbind_ok _ _ _ _ _ (reads_ok (fun st => bi_cmp st a m) _ _ Ec)). rewrite (mbind_ok _ _ _ _ _ E2). reflexivity. }
  { auto. }
  assert (c = Gt \/ c <> Gt) as [Eg|Eg] by (destruct c; auto; right; discriminate).
  { rewrite Eg. apply (proj1 Hc1) in Eg. rewrite (proj2 (Z.ltb_lt _ _)) by lia.
    apply returns_ret. auto. }
  assert (~ imax t < x) as Hle by tauto.
  rewrite (proj2 (Z.ltb_ge (imax t) x)) by lia.
  destruct (from_spec dbg P st2 hs t (imin t) C2 Hr Ht (in_range_min t Ht)) as (m2 & st3 & E3 & C3 & K3 & D3 & N3).
  destruct (H2 st3 m2 C3 D3 N3 (K3 _ _ Ha (K12 _ _ Ha Hx)) ltac:(lia)) as (c2 & Ec2 & Hc2).
  destruct (drop_spec P st3 hs m2 C3) as (st4 & E4 & C4 & K4).
  apply (returns_after P st2 st4 hs _ (match c2 with
      | Lt => ret (inr Below)
      | _ =>
        let! l := reads (fun st => bi_slice st a) in
        let! o := lift (arr_to_int dbg 64 t l) in
        ret (match o with Some v => inl v | None => inr Above end)
      end) _).
  { assert (forall A (p q : A), match c with Gt => p | _ => q end = q) as -> by (intros; destruct c; congruence).
    rewrite (mbind_ok _ _ _ _ _ E3).
    rewrite (mbind_ok _ _ _ _ _ (reads_ok (fun st => bi_cmp st a m2) _ _ Ec2)). rewrite (mbind_ok _ _ _ _ _ E4). reflexivity. }
  { eapply keeps_trans; eauto. }
  assert (c2 = Lt \/ c2 <> Lt) as [El|El] by (destruct c2; auto; right; discriminate).
  { rewrite El. apply (proj1 Hc2) in El. rewrite (proj2 (Z.ltb_lt x (imin t))) by lia. apply returns_ret. auto. }
  assert (~ x < imin t) as Hge by tauto.
  rewrite (proj2 (Z.ltb_ge x (imin t))) by lia.
  assert (denotes st4 a x) as Hx4 by auto.
  destruct (info _ _ _ a x C4 Ha Hx4) as (l & Sl & Wl & Cl & Ll & Vl & _).
  pose proof (H3 l Wl Cl Vl ltac:(lia)) as Earr.
  exists st4. split; [|split; [auto|apply keeps_refl]].
  assert (forall A (p q : A), match c2 with Lt => p | _ => q end = q) as -> by (intros; destruct c2; congruence).
  rewrite (mbind_ok _ _ _ _ _ (reads_ok (fun st => bi_slice st a) _ _ (proj1 Sl))).
  rewrite (mbind_ok _ _ _ _ _ (lift_ok _ _ _ Earr)). reflexivity.
Qed.

Lemma signed_bounds t : std_ty t -> isigned t = true ->
  imin t = - (imax t + 1) /\ 0 < imax t /\ ((ibits t <= 64)%nat -> imax t < 2 ^ 63).
Proof.
  intros Ht Hu. destruct (std_ty_bits t Ht) as [Hb8 Hb]. unfold imin, imax. rewrite Hu. split; [lia|]. split.
  - assert (2 ^ 7 <= 2 ^ (Z.of_nat (ibits t) - 1)) by (apply Z.pow_le_mono_r; lia). lia.
  - intros H. assert (2 ^ (Z.of_nat (ibits t) - 1) <= 2 ^ 63) by (apply Z.pow_le_mono_r; lia). lia.
Qed.

(** Signed targets up to 64 bits: what the conversion does for every value. *)
Lemma try_from_signed64 dbg t P st hs a x : consistent P st hs -> room P hs 0 -> In a hs -> denotes st a x ->
  std_ty t -> isigned t = true -> (ibits t <= 64)%nat -> a <> neg_zero ->
  returns P hs (bi_try_from dbg t a) st
    (if imax t <? x then inr Above else if x <? imin t then inr Below
     else if Z.abs x <=? imax t then inl (Z.abs x) else inr Above).
Proof.
  intros Hc Hr Ha Hx Ht Hu Hb Na. destruct (signed_bounds t Ht Hu) as (B1 & B2 & B3). specialize (B3 Hb).
  assert ((if Z.abs x <=? imax t then inl (Z.abs x) else inr Above) =
    match (if Z.abs x <=? imax t then Some (Z.abs x) else None) with Some v => inl v | None => inr Above end) as ->.
  { destruct (Z.abs x <=? imax t); auto. }
  apply try_from_generic; auto.
  - intros st1 m C D N Da. exists (Z.compare x (imax t)). split; [|rewrite Z.compare_gt_iff; tauto].
    eapply bi_cmp_spec; eauto; cbn; auto. unfold cmp_dom. right. right. right. left. lia.
  - intros st1 m C D N Da _. exists (Z.compare x (imin t)). split; [|rewrite Z.compare_lt_iff; tauto].
    eapply bi_cmp_spec; eauto; cbn; auto. unfold cmp_dom. right. right. right. left. lia.
  - intros l Wl Cl Vl Hrange. destruct (Z.leb_spec (Z.abs x) (imax t)).
    + apply arr_to_int_signed; auto.
    + assert (length l = 1%nat) as L1 by (apply canonical_one; auto; lia).
      destruct l as [|u [|? ?]]; try discriminate L1. cbn [val] in Vl. rewrite Z.mul_0_r, Z.add_0_r in Vl. subst u.
      unfold arr_to_int. cbn [arr_to_int_loop]. unfold from_checked.
      replace (in_range t (Z.abs x)) with false; auto. symmetry. apply not_true_iff_false.
      rewrite in_range_iff. lia.
Qed.

Lemma try_from_signed_nonneg dbg t P st hs a x : consistent P st hs -> room P hs 0 -> In a hs -> denotes st a x ->
  std_ty t -> isigned t = true -> a <> neg_zero -> 0 <= x <= imax t ->
  returns P hs (bi_try_from dbg t a) st (inl x).
Proof.
  intros Hc Hr Ha Hx Ht Hu Na Hrange. destruct (signed_bounds t Ht Hu) as (B1 & B2 & B3).
  assert (inl x = (if imax t <? x then inr Above else if x <? imin t then inr Below
     else match Some x with Some v => inl v | None => inr Above end)) as ->.
  { rewrite (proj2 (Z.ltb_ge (imax t) x)) by lia. rewrite (proj2 (Z.ltb_ge x (imin t))) by lia. auto. }
  apply (try_from_generic dbg t P st hs a x (Some x)); auto.
  - intros st1 m C D N Da.
    assert (ibits t = 128%nat \/ (ibits t <= 64)%nat) as [E|E] by (destruct (std_ty_bits t Ht); tauto).
    2: { specialize (B3 E). exists (Z.compare x (imax t)). split; [|rewrite Z.compare_gt_iff; tauto].
         eapply bi_cmp_spec; eauto; cbn; auto. unfold cmp_dom. right. right. right. left. lia. }
    assert (imax t = 2 ^ 127 - 1) as Em by (unfold imax; rewrite Hu, E; reflexivity). rewrite Em in *.
    destruct (Z.eq_dec (Z.log2 (Z.abs x) / 64) 1) as [E1|E1].
    2: { exists (Z.compare x (2 ^ 127 - 1)). split; [|rewrite Z.compare_gt_iff; tauto].
         eapply bi_cmp_spec; eauto; cbn [In]; auto. unfold cmp_dom. right. left. exact E1. }
    destruct (info _ _ _ a x C (or_intror Ha) Da) as (la & Sa & Wa & Ca & La & Va & Pa & Qa & Oa).
    destruct (info _ _ _ m _ C (or_introl eq_refl) D) as (lm & Sm & Wm & Cm & Lm & Vm & Pm & Qm & Om).
    specialize (Oa Na). specialize (Om N).
    assert (lm = [2 ^ 64 - 1; 2 ^ 63 - 1]) as ->.
    { apply (canonical_inj 64); auto.
      - repeat constructor; vm_compute; congruence.
      - split; [discriminate|]. left. vm_compute. discriminate. }
    pose proof (canonical_len la Wa Ca) as El. rewrite Va, E1 in El.
    assert (length la = 2%nat) as El2 by lia.
    unfold bi_cmp. destruct (a =? m); [exists Eq; split; auto; split; [discriminate|lia]|].
    rewrite !is_positive_neg, !is_negative_odd, Oa, Om.
    rewrite (proj2 (Z.ltb_ge x 0)) by lia. cbn [negb andb].
    change (2 ^ 127 - 1 <? 0) with false. cbn [negb andb].
    destruct Sa as (Sa & _). destruct Sm as (Sm & _). rewrite Sa, Sm. cbn [bind]. rewrite El2. cbn [length Nat.eqb negb].
    destruct la as [|u [|v [|? ?]]]; try discriminate El2.
    eexists. split; [reflexivity|].
    pose proof (Forall_inv Wa) as Hu0. pose proof (Forall_inv (Forall_inv_tail Wa)) as Hv0. cbv beta in Hu0, Hv0.
    change (Z.of_nat 64) with 64 in *. cbn [val] in Va. change (base 64) with (2 ^ 64) in Va.
    split; [|lia]. cbn [low_first].
    destruct (Z.compare_spec u (2 ^ 64 - 1)); [|discriminate|change (base 64) with (2 ^ 64) in Hu0; lia].
    destruct (Z.compare_spec v (2 ^ 63 - 1)); [discriminate|discriminate|lia].
  - intros st1 m C D N Da _. exists (Z.compare x (imin t)). split; [|rewrite Z.compare_lt_iff; tauto].
    eapply bi_cmp_spec; eauto; cbn; auto. unfold cmp_dom. lia.
  - intros l Wl Cl Vl _. apply arr_to_int_signed; auto; lia.
Qed.

(** ** Shifts *)

Lemma shift_amount_spec dbg P st hs b y : consistent P st hs -> room P hs 0 -> In b hs -> denotes st b y ->
  b <> neg_zero -> 0 <= y < 2 ^ 64 -> returns P hs (shift_amount dbg b) st (Z.to_nat y).
Proof.
  intros Hc Hr Hb Hy Nb Hrange.
  destruct (try_from_unsigned dbg {| ibits := 64; isigned := false |} P st hs b y Hc Hr Hb Hy) as (st' & E & C & K); auto.
  { unfold std_ty. cbn. auto. }
  exists st'. split; auto. unfold shift_amount. rewrite (mbind_ok _ _ _ _ _ E).
  rewrite (proj2 (Z.ltb_ge y 0)) by lia. change (imax {| ibits := 64; isigned := false |}) with (2 ^ 64 - 1).
  rewrite (proj2 (Z.ltb_ge (2 ^ 64 - 1) y)) by lia. reflexivity.
Qed.

Lemma shift_amount_panic dbg P st hs b y : consistent P st hs -> room P hs 0 -> In b hs -> denotes st b y ->
  b <> neg_zero -> (y < 0 \/ 2 ^ 64 <= y) -> shift_amount dbg b st = Panic.
Proof.
  intros Hc Hr Hb Hy Nb Hrange.
  destruct (try_from_unsigned dbg {| ibits := 64; isigned := false |} P st hs b y Hc Hr Hb Hy) as (st' & E & C & K); auto.
  { unfold std_ty. cbn. auto. }
  unfold shift_amount. rewrite (mbind_ok _ _ _ _ _ E).
  change (imax {| ibits := 64; isigned := false |}) with (2 ^ 64 - 1).
  destruct (Z.ltb_spec y 0); [reflexivity|]. rewrite (proj2 (Z.ltb_lt (2 ^ 64 - 1) y)) by lia. reflexivity.
Qed.

Lemma bi_shl_spec dbg P st hs a b x y : consistent P st hs -> room P hs 0 -> In a hs -> In b hs ->
  denotes st a x -> denotes st b y -> b <> neg_zero -> 0 <= y < 2 ^ 64 ->
  yields P hs (bi_shl dbg a b) st (x * 2 ^ y).
Proof.
  intros Hc Hr Ha Hb Hx Hy Nb Hrange.
  destruct (info _ _ _ _ _ Hc Ha Hx) as (la & Sa & Wa & Ca & La & Va & _).
  destruct (info _ _ _ _ _ Hc Hb Hy) as (lb & Sb & Wb & Cb & Lb & Vb & _).
  pose proof (denotes_sign _ _ _ _ _ _ Hc Ha Sa Hx) as Ex.
  destruct (shift_amount_spec dbg P st hs b y Hc Hr Hb Hy Nb Hrange) as (st1 & E & C & K).
  destruct (elem_shl_spec 64 (Z.to_nat y) ltac:(lia) la Wa) as (out & Eo & Wo & Co & Vo).
  rewrite Z2Nat.id in Vo by lia.
  apply (yields_after P st st1 hs _ (new_slice dbg out (is_negative a))); auto.
  - unfold bi_shl. rewrite (mbind_ok _ _ st out st1); auto.
    rewrite (with_slices_ok _ _ _ _ _ _ Sa Sb). rewrite (mbind_ok _ _ _ _ _ E). apply lift_ok. auto.
  - apply new_slice_yields; auto. unfold signed. rewrite is_negative_odd, Vo, Ex. lia.
Qed.

Lemma bi_shl_panic dbg P st hs a b x y : consistent P st hs -> room P hs 0 -> In a hs -> In b hs ->
  denotes st a x -> denotes st b y -> b <> neg_zero -> (y < 0 \/ 2 ^ 64 <= y) ->
  bi_shl dbg a b st = Panic /\ bi_shr dbg a b st = Panic.
Proof.
  intros Hc Hr Ha Hb Hx Hy Nb Hrange.
  destruct (info _ _ _ _ _ Hc Ha Hx) as (la & Sa & Wa & Ca & La & Va & _).
  destruct (info _ _ _ _ _ Hc Hb Hy) as (lb & Sb & Wb & Cb & Lb & Vb & _).
  pose proof (shift_amount_panic dbg P st hs b y Hc Hr Hb Hy Nb Hrange) as E.
  split; [unfold bi_shl|unfold bi_shr]; apply mbind_panic; rewrite (with_slices_ok _ _ _ _ _ _ Sa Sb);
    apply mbind_panic; auto.
Qed.

Lemma bi_shr_spec dbg P st hs a b x y : consistent P st hs -> room P hs 0 -> In a hs -> In b hs ->
  denotes st a x -> denotes st b y -> b <> neg_zero -> 0 <= y < 2 ^ 64 -> (dbg = false \/ y < 64) ->
  yields P hs (bi_shr dbg a b) st (Z.quot x (2 ^ y)).
Proof.
  intros Hc Hr Ha Hb Hx Hy Nb Hrange Hdbg.
  destruct (info _ _ _ _ _ Hc Ha Hx) as (la & Sa & Wa & Ca & La & Va & _).
  destruct (info _ _ _ _ _ Hc Hb Hy) as (lb & Sb & Wb & Cb & Lb & Vb & _).
  pose proof (denotes_sign _ _ _ _ _ _ Hc Ha Sa Hx) as Ex.
  destruct (shift_amount_spec dbg P st hs b y Hc Hr Hb Hy Nb Hrange) as (st1 & E & C & K).
  destruct (elem_shr_spec 64 (Z.to_nat y) ltac:(lia) dbg la Wa La) as (out & Eo & Wo & Co & Vo).
  { destruct Hdbg as [|Hdbg]; [auto|right]. apply Nat.div_small. lia. }
  rewrite Z2Nat.id in Vo by lia.
  apply (yields_after P st st1 hs _ (new_slice dbg out (is_negative a))); auto.
  - unfold bi_shr. rewrite (mbind_ok _ _ st out st1); auto.
    rewrite (with_slices_ok _ _ _ _ _ _ Sa Sb). rewrite (mbind_ok _ _ _ _ _ E). apply lift_ok. auto.
  - apply new_slice_yields; auto. unfold signed. rewrite is_negative_odd, Vo, Ex.
    assert (0 < 2 ^ y) by (apply Z.pow_pos_nonneg; lia). pose proof (val_nonneg 64 la Wa).
    rewrite <- Z.quot_div_nonneg by lia. destruct (Z.odd a).
    + rewrite !(Z.mul_comm (-1)), <- !Z.opp_eq_mul_m1. rewrite Z.quot_opp_l by lia. auto.
    + rewrite !Z.mul_1_l. auto.
Qed.

Lemma bi_shr_debug P st hs a b x y : consistent P st hs -> room P hs 0 -> In a hs -> In b hs ->
  denotes st a x -> denotes st b y -> b <> neg_zero -> 64 <= y < 2 ^ 64 ->
  bi_shr true a b st = Panic.
Proof.
  intros Hc Hr Ha Hb Hx Hy Nb Hrange.
  destruct (info _ _ _ _ _ Hc Ha Hx) as (la & Sa & Wa & Ca & La & Va & _).
  destruct (info _ _ _ _ _ Hc Hb Hy) as (lb & Sb & Wb & Cb & Lb & Vb & _).
  destruct (shift_amount_spec true P st hs b y Hc Hr Hb Hy Nb ltac:(lia)) as (st1 & E & C & K).
  unfold bi_shr. apply mbind_panic. rewrite (with_slices_ok _ _ _ _ _ _ Sa Sb). rewrite (mbind_ok _ _ _ _ _ E).
  apply lift_panic. apply elem_shr_debug_panic; auto.
  - lia.
  - apply Nat.div_str_pos. lia.
Qed.

(** ** Negation *)

Lemma con_neg P st hs a : consistent P st (a :: hs) -> consistent P st (bi_neg a :: hs) /\
  (forall x, denotes st a x -> denotes st (bi_neg a) (- x)).
Proof.
  intros [Hs Hr Hv Hsz Hsm]. pose proof (Forall_inv Hv) as Ha. pose proof (Forall_inv_tail Hv) as Ht.
  destruct Ha as (Ha & Hd). unfold bi_neg.
  destruct (invert_neg_parts a ltac:(lia)) as (I1 & I2 & I3 & I4). split.
  - constructor; auto.
    + intros k Hk. rewrite Hr by auto. rewrite !uses_cons. unfold refers. rewrite I2, I3. auto.
    + constructor; auto. split.
      * split; auto. apply Z.div_lt_upper_bound in I1 || idtac.
        assert (a / 4 < 2 ^ 62) by (apply Z.div_lt_upper_bound; lia).
        pose proof (Z.div_mod (invert_neg a) 4 ltac:(lia)) as Q. rewrite I2 in Q.
        pose proof (Z.mod_pos_bound (invert_neg a) 4 ltac:(lia)). lia.
      * rewrite I2, I3. auto.
  - intros x. unfold denotes. rewrite I2, I3, I4. destruct (Z.testbit a 1).
    + intros ->. destruct (Z.odd a); cbn [negb]; lia.
    + intros (l & Hg & ->). exists l. split; auto. destruct (Z.odd a); cbn [negb]; lia.
Qed.

Lemma bi_neg_neg_zero a : 0 <= a -> bi_neg a = neg_zero <-> a = 2.
Proof.
  intros H. unfold bi_neg. rewrite invert_neg_spec by auto. unfold neg_zero. destruct (Z.odd a) eqn:E.
  - split; intros Q; [assert (a = 4) as -> by lia; discriminate E|subst a; discriminate E].
  - lia.
Qed.

(** ** Equality with primitives *)

Lemma bi_eq_unsigned dbg t P st hs a x v : consistent P st hs -> In a hs -> denotes st a x ->
  std_ty t -> isigned t = false -> in_range t v = true ->
  bi_eq_int dbg t st a v = Ok (Z.abs x =? v).
Proof.
  intros Hc Ha Hx Ht Hu Hv.
  destruct (info _ _ _ _ _ Hc Ha Hx) as (la & Sa & Wa & Ca & La & Va & _).
  pose proof (in_range_abs t v Ht Hv). pose proof (arr_size_cap t Ht).
  assert (0 <= v) as Hv0. { apply in_range_iff in Hv. unfold imin in Hv. rewrite Hu in Hv. lia. }
  destruct (int_to_arr_spec dbg 64 (arr_size t) v) as (l & E & Hlen & Hw & Hval); [unfold arr_size; lia|lia|].
  rewrite Z.mod_small in Hval by lia.
  destruct (shrink_ok 64 l Hw) as (l' & E' & Hw' & Hc' & Hval'). { rewrite Hlen. unfold arr_size. lia. }
  unfold bi_eq_int. rewrite Hu. destruct Sa as (Sa & _). rewrite Sa. cbn [bind]. rewrite E. cbn [bind]. rewrite E'. cbn [bind].
  f_equal. apply eq_true_iff_eq. rewrite list_eqb_ok, Z.eqb_eq. split.
  - intros ->. lia.
  - intros Q. apply (canonical_inj 64); auto. lia.
Qed.

Lemma bi_eq_signed dbg t P st hs a x v : consistent P st hs -> In a hs -> denotes st a x ->
  std_ty t -> isigned t = true -> in_range t v = true -> a <> neg_zero -> (dbg = false \/ v <> imin t) ->
  bi_eq_int dbg t st a v = Ok (x =? v).
Proof.
  intros Hc Ha Hx Ht Hu Hv Na Hd.
  destruct (info _ _ _ _ _ Hc Ha Hx) as (la & Sa & Wa & Ca & La & Va & Pa & Qa & Oa). specialize (Oa Na).
  pose proof (in_range_abs t v Ht Hv) as Hab. pose proof (arr_size_cap t Ht) as Hcap.
  destruct (signed_bounds t Ht Hu) as (B1 & B2 & B3). apply in_range_iff in Hv.
  assert (2 ^ Z.of_nat (ibits t) = 2 * (imax t + 1)) as Edbl.
  { destruct (std_ty_bits t Ht). unfold imax. rewrite Hu. rewrite Z.sub_add, <- Z.pow_succ_r by lia. f_equal. lia. }
  unfold bi_eq_int. rewrite Hu, is_negative_odd, Oa.
  destruct (Bool.eqb (x <? 0) (v <? 0)) eqn:Es; cbn [negb].
  2: { f_equal. symmetry. apply Z.eqb_neq. intros ->. rewrite Bool.eqb_reflx in Es. discriminate. }
  apply Bool.eqb_prop in Es.
  assert (exists m, (if v =? imin t then if dbg then Panic else Ok v else Ok (Z.abs v)) = Ok m /\ m mod 2 ^ Z.of_nat (ibits t) = Z.abs v) as (m & Em & Hm).
  { destruct (Z.eqb_spec v (imin t)) as [Ev|Ev].
    - destruct Hd as [->|]; [|contradiction]. exists v. split; auto.
      rewrite Ev, B1. symmetry. apply Z.mod_unique with (q := -1); lia.
    - exists (Z.abs v). split; auto. apply Z.mod_small. lia. }
  rewrite Em. cbn [bind]. rewrite Hm.
  destruct (int_to_arr_spec dbg 64 (arr_size t) (Z.abs v)) as (l & E & Hlen & Hw & Hval); [unfold arr_size; lia|lia|].
  rewrite Z.mod_small in Hval by lia.
  destruct (shrink_ok 64 l Hw) as (l' & E' & Hw' & Hc' & Hval'). { rewrite Hlen. unfold arr_size. lia. }
  destruct Sa as (Sa & _). rewrite Sa. cbn [bind]. rewrite E. cbn [bind]. rewrite E'. cbn [bind].
  f_equal. apply eq_true_iff_eq. rewrite list_eqb_ok, Z.eqb_eq. split.
  - intros ->. assert (Z.abs x = Z.abs v) as Q by congruence.
    destruct (Z.ltb_spec x 0), (Z.ltb_spec v 0); try discriminate Es; lia.
  - intros Q. apply (canonical_inj 64); auto. rewrite Va, Hval', Hval. congruence.
Qed.
