(** Proofs: conversions of a BigInt to primitive types for every value, 128-bit targets
    included. *)
From Coq Require Import ZArith List Bool Lia.
From Verif Require Import Base Words Spec Arith BitSliceModel BitSliceProofs ElementModel
  BitwiseModel ElemAddSub ElemMul ElemShift BitwiseProofs InternModel InternProofs BigIntModel BigIntSpec
  BigIntProofs BigIntOps BigIntConv BigIntMore BigIntOrder.
Import ListNotations.
Local Open Scope Z_scope.

(** What [arr_to_int] makes of a magnitude. *)
Definition magnitude_as (t : ity) (m : Z) : option Z :=
  if m <=? imax t then Some m
  else if isigned t && Nat.eqb (ibits t) 128 && (m <? 2 ^ 128) then Some (m - 2 ^ 128)
  else None.

Lemma arr_to_int_exact dbg t l m : std_ty t -> wf 64 l -> canonical l -> val 64 l = m ->
  arr_to_int dbg 64 t l = Ok (magnitude_as t m).
Proof.
  intros Ht Hw Hc Hv. unfold magnitude_as. destruct (Z.leb_spec m (imax t)) as [Hle|Hgt].
  { destruct (isigned t) eqn:Hs; [apply arr_to_int_signed|apply arr_to_int_unsigned]; auto. }
  destruct (std_ty_bits t Ht) as [Hb8 Hb].
  assert (0 < length l)%nat as Hl0 by (destruct Hc; destruct l; [congruence|cbn; lia]).
  destruct l as [|u l]; [cbn in Hl0; lia|]. pose proof (Forall_inv Hw) as Hu0. pose proof (Forall_inv_tail Hw) as Hw'.
  cbv beta in Hu0. change (base 64) with (2 ^ 64) in *.
  pose proof (val_nonneg 64 l Hw') as Hvl. pose proof Hv as Hm. cbn [val] in Hv. change (base 64) with (2 ^ 64) in Hv.
  unfold arr_to_int. cbn [arr_to_int_loop]. unfold from_checked.
  destruct (isigned t) eqn:Hs.
  - (* signed *)
    cbn [andb]. destruct (Nat.eqb_spec (ibits t) 128) as [E|E]; cbn [andb].
    + assert (imax t = 2 ^ 127 - 1) as Em by (unfold imax; rewrite Hs, E; reflexivity).
      assert (imin t = - 2 ^ 127) as En by (unfold imin; rewrite Hs, E; reflexivity).
      assert (forall v, - 2 ^ 127 <= v < 2 ^ 127 -> in_range t v = true) as Hin.
      { intros v Hv0. apply in_range_iff. lia. }
      rewrite (Hin u) by lia. unfold checked_shl_usize at 1. change ((0 * Z.of_nat 64) mod 2 ^ 32) with 0.
      rewrite E. change (0 <? Z.of_nat 128) with true. cbv iota. rewrite Z.shiftl_0_r.
      assert (wrap t u = u) as ->.
      { unfold wrap. rewrite Hs, E. change (Z.of_nat 128) with 128. rewrite Z.mod_small by lia.
        rewrite (proj2 (Z.leb_gt _ _)) by lia. reflexivity. }
      unfold iadd at 1. rewrite Z.add_0_l, Hin by lia. cbn [bind].
      destruct l as [|v l]; [cbn [val] in Hv; lia|].
      pose proof (Forall_inv Hw') as Hv0. cbv beta in Hv0. change (base 64) with (2 ^ 64) in Hv0.
      pose proof (Forall_inv_tail Hw') as Hw2. pose proof (val_nonneg 64 l Hw2) as Hvl2.
      cbn [val] in Hv. change (base 64) with (2 ^ 64) in Hv.
      cbn [arr_to_int_loop]. unfold from_checked. rewrite (Hin v) by lia.
      unfold checked_shl_usize at 1. change (((0 + 1) * Z.of_nat 64) mod 2 ^ 32) with 64.
      rewrite E. change (64 <? Z.of_nat 128) with true. cbv iota. rewrite Z.shiftl_mul_pow2 by lia.
      destruct l as [|v2 l].
      * cbn [val] in Hv. rewrite (proj2 (Z.ltb_lt _ _)) by lia.
        assert (wrap t (v * 2 ^ 64) = v * 2 ^ 64 - 2 ^ 128) as ->.
        { unfold wrap. rewrite Hs, E. change (Z.of_nat 128) with 128. rewrite Z.mod_small by lia.
          rewrite (proj2 (Z.leb_le _ _)) by lia. reflexivity. }
        unfold iadd. rewrite Hin by lia. cbn [bind arr_to_int_loop]. do 2 f_equal. lia.
      * assert (2 ^ 128 <= m) as Hbig.
        { pose proof (canonical_len (u :: v :: v2 :: l) Hw Hc) as El. cbn [length] in El.
          destruct (Z_lt_ge_dec m (2 ^ 128)) as [G|]; [|lia]. exfalso.
          assert (Z.log2 m < 128) as Hlg by (apply Z.log2_lt_pow2; lia).
          rewrite Hm in El. assert (Z.log2 m / 64 < 2) by (apply Z.div_lt_upper_bound; lia). lia. }
        rewrite (proj2 (Z.ltb_ge _ _)) by lia.
        assert (exists r, iadd dbg t u (wrap t (v * 2 ^ 64)) = Ok r) as [r Er].
        { unfold iadd. rewrite Hin; eauto.
          unfold wrap. rewrite Hs, E. change (Z.of_nat 128) with 128. rewrite Z.mod_small by lia. cbn [andb].
          destruct (Z.leb_spec (2 ^ (128 - 1)) (v * 2 ^ 64)); change (2 ^ (128 - 1)) with (2 ^ 127) in *; lia. }
        rewrite Er. cbn [bind arr_to_int_loop]. destruct (from_checked t v2); auto.
        unfold checked_shl_usize. change (((0 + 1 + 1) * Z.of_nat 64) mod 2 ^ 32) with 128. rewrite E. reflexivity.
    + assert ((ibits t <= 64)%nat) as H64 by (destruct Hb; lia).
      destruct (in_range t u) eqn:Ei; auto.
      apply in_range_iff in Ei.
      unfold checked_shl_usize at 1. change ((0 * Z.of_nat 64) mod 2 ^ 32) with 0.
      rewrite (proj2 (Z.ltb_lt 0 (Z.of_nat (ibits t)))) by lia. rewrite Z.shiftl_0_r.
      assert (wrap t u = u) as ->.
      { unfold imin, imax in Ei. rewrite Hs in Ei. unfold wrap. rewrite Hs.
        assert (2 ^ Z.of_nat (ibits t) = 2 * 2 ^ (Z.of_nat (ibits t) - 1)) as E2.
        { rewrite <- Z.pow_succ_r by lia. f_equal. lia. }
        rewrite Z.mod_small by lia. rewrite (proj2 (Z.leb_gt _ _)) by lia. reflexivity. }
      unfold iadd at 1. rewrite Z.add_0_l, (proj2 (in_range_iff t u)) by lia. cbn [bind].
      destruct l as [|v l]; [cbn [val] in Hv; lia|]. cbn [arr_to_int_loop].
      destruct (from_checked t v); auto. unfold checked_shl_usize. change (((0 + 1) * Z.of_nat 64) mod 2 ^ 32) with 64.
      rewrite (proj2 (Z.ltb_ge 64 _)) by lia. auto.
  - (* unsigned *)
    cbn [andb].
    assert (t = uty (ibits t)) as Et by (destruct t as [b s]; cbn in *; subst; auto).
    change (match (if in_range t u then Some u else None) with
      | Some tv => match checked_shl_usize t tv (0 * Z.of_nat 64) with
        | Some sh => do out' <- iadd dbg t 0 sh ;; arr_to_int_loop dbg 64 t l (0 + 1) out'
        | None => Ok None end
      | None => Ok None end) with (arr_to_int dbg 64 t (u :: l)).
    assert (imax t = base (ibits t) - 1) as Em by (unfold imax, base; rewrite Hs; auto).
    destruct Hb as [E|H64]; [|destruct (Nat.eq_dec (ibits t) 64) as [E|E]].
    + rewrite Et, E. rewrite arr_to_int_u; auto; try lia; [|exists 2%nat; lia].
      rewrite (proj2 (Nat.leb_gt _ _)); auto. rewrite Em, E in Hgt.
      pose proof (canonical_len (u :: l) Hw Hc) as El.
      rewrite Hm in El.
      change (base 128) with (2 ^ 128) in Hgt.
      assert (128 <= Z.log2 m) by (apply Z.log2_le_pow2; lia).
      assert (2 <= Z.log2 m / 64) by (apply Z.div_le_lower_bound; lia). lia.
    + rewrite Et, E. rewrite arr_to_int_u; auto; try lia; [|exists 1%nat; lia].
      rewrite (proj2 (Nat.leb_gt _ _)); auto. rewrite Em, E in Hgt. change (base 64) with (2 ^ 64) in Hgt.
      destruct l; [cbn [val] in Hv; lia|]. cbn [length]. lia.
    + rewrite Et. rewrite arr_to_int_u_narrow; auto; [|lia|lia].
      destruct l as [|v l]; auto. rewrite (proj2 (Z.ltb_ge _ _)); auto. cbn [val] in Hv. lia.
Qed.

(** [try_from] in terms of what its two comparisons say. *)
Lemma try_from_run dbg t P st hs a x c1 c2 : consistent P st hs -> room P hs 0 -> In a hs -> denotes st a x ->
  std_ty t ->
  (forall st1 m, consistent P st1 (m :: hs) -> denotes st1 m (imax t) -> m <> neg_zero -> denotes st1 a x ->
     bi_cmp st1 a m = Ok c1) ->
  (forall st1 m, consistent P st1 (m :: hs) -> denotes st1 m (imin t) -> m <> neg_zero -> denotes st1 a x ->
     bi_cmp st1 a m = Ok c2) ->
  returns P hs (bi_try_from dbg t a) st
    (match c1 with
     | Gt => inr Above
     | _ => match c2 with
            | Lt => inr Below
            | _ => match magnitude_as t (Z.abs x) with Some v => inl v | None => inr Above end
            end
     end).
Proof.
  intros Hc Hr Ha Hx Ht H1 H2.
  destruct (from_spec dbg P st hs t (imax t) Hc Hr Ht (in_range_max t Ht)) as (m & st1 & E & C & K & D & N).
  pose proof (H1 st1 m C D N (K _ _ Ha Hx)) as Ec.
  destruct (drop_spec P st1 hs m C) as (st2 & E2 & C2 & K2).
  assert (keeps st st2 hs) as K12 by (eapply keeps_trans; eauto).
  apply (returns_after P st st2 hs _ (match c1 with
    | Gt => ret (inr Above)
    | _ =>
      let! m := bi_from dbg t (imin t) in
      let! c := reads (fun st => bi_cmp st a m) in
      let! _ := bi_drop m in
      match c with
      | Lt => ret (inr Below)
      | _ =>
        let! l := reads (fun st => bi_slice st a) in
        let! o := lift (arr_to_int dbg 64 t l) in
        ret (match o with Some v => inl v | None => inr Above end)
      end
    end) _).
  { unfold bi_try_from. rewrite (mbind_ok _ _ _ _ _ E).
    rewrite (mbind_ok _ _ _ _ _ (reads_ok (fun st => bi_cmp st a m) _ _ Ec)). rewrite (mbind_ok _ _ _ _ _ E2). reflexivity. }
  { auto. }
  assert (c1 = Gt \/ c1 <> Gt) as [Eg|Eg] by (destruct c1; auto; right; discriminate).
  { rewrite Eg. apply returns_ret. auto. }
  assert (forall A (p q : A), match c1 with Gt => p | _ => q end = q) as Q by (intros; destruct c1; congruence).
  rewrite !Q.
  destruct (from_spec dbg P st2 hs t (imin t) C2 Hr Ht (in_range_min t Ht)) as (m2 & st3 & E3 & C3 & K3 & D3 & N3).
  pose proof (H2 st3 m2 C3 D3 N3 (K3 _ _ Ha (K12 _ _ Ha Hx))) as Ec2.
  destruct (drop_spec P st3 hs m2 C3) as (st4 & E4 & C4 & K4).
  apply (returns_after P st2 st4 hs _ (match c2 with
      | Lt => ret (inr Below)
      | _ =>
        let! l := reads (fun st => bi_slice st a) in
        let! o := lift (arr_to_int dbg 64 t l) in
        ret (match o with Some v => inl v | None => inr Above end)
      end) _).
  { rewrite (mbind_ok _ _ _ _ _ E3).
    rewrite (mbind_ok _ _ _ _ _ (reads_ok (fun st => bi_cmp st a m2) _ _ Ec2)). rewrite (mbind_ok _ _ _ _ _ E4). reflexivity. }
  { eapply keeps_trans; eauto. }
  assert (c2 = Lt \/ c2 <> Lt) as [El|El] by (destruct c2; auto; right; discriminate).
  { rewrite El. apply returns_ret. auto. }
  assert (forall A (p q : A), match c2 with Lt => p | _ => q end = q) as Q2 by (intros; destruct c2; congruence).
  rewrite !Q2.
  assert (denotes st4 a x) as Hx4 by auto.
  destruct (info _ _ _ a x C4 Ha Hx4) as (l & Sl & Wl & Cl & Ll & Vl & _).
  pose proof (arr_to_int_exact dbg t l _ Ht Wl Cl Vl) as Earr.
  exists st4. split; [|split; [auto|apply keeps_refl]].
  rewrite (mbind_ok _ _ _ _ _ (reads_ok (fun st => bi_slice st a) _ _ (proj1 Sl))).
  rewrite (mbind_ok _ _ _ _ _ (lift_ok _ _ _ Earr)). reflexivity.
Qed.

(** Magnitude order against a number of two limbs. *)
Lemma mcmp_two l m0 m1 : wf 64 l -> canonical l ->
  mcmp l [m0; m1] = (if val 64 l <? 2 ^ 64 then Lt
    else if 2 ^ 128 <=? val 64 l then Gt
    else match val 64 l mod 2 ^ 64 ?= m0 with Eq => val 64 l / 2 ^ 64 ?= m1 | c => c end).
Proof.
  intros Hw Hc. pose proof (canonical_len l Hw Hc) as El. unfold mcmp. cbn [length].
  pose proof (val_nonneg 64 l Hw) as Hn.
  destruct (Z.ltb_spec (val 64 l) (2 ^ 64)).
  { assert (length l = 1)%nat as E by (apply canonical_one; auto). rewrite E. reflexivity. }
  destruct (Z.leb_spec (2 ^ 128) (val 64 l)).
  { assert (128 <= Z.log2 (val 64 l)) by (apply Z.log2_le_pow2; lia).
    assert (2 <= Z.log2 (val 64 l) / 64) by (apply Z.div_le_lower_bound; lia).
    rewrite (proj2 (Nat.eqb_neq _ _)) by lia. apply Nat.compare_gt_iff. lia. }
  assert (Z.log2 (val 64 l) < 128) by (apply Z.log2_lt_pow2; lia).
  assert (64 <= Z.log2 (val 64 l)) by (apply Z.log2_le_pow2; lia).
  assert (Z.log2 (val 64 l) / 64 = 1) as E1.
  { assert (1 <= Z.log2 (val 64 l) / 64) by (apply Z.div_le_lower_bound; lia).
    assert (Z.log2 (val 64 l) / 64 < 2) by (apply Z.div_lt_upper_bound; lia). lia. }
  rewrite E1 in El. assert (length l = 2)%nat as L2 by lia.
  destruct l as [|u [|v [|? ?]]]; try discriminate L2. cbn [length Nat.eqb negb low_first].
  pose proof (Forall_inv Hw) as Hu0. pose proof (Forall_inv (Forall_inv_tail Hw)) as Hv0. cbv beta in Hu0, Hv0.
  change (base 64) with (2 ^ 64) in *.
  assert (val 64 [u; v] = u + 2 ^ 64 * v) as -> by (cbn [val]; change (base 64) with (2 ^ 64); lia).
  assert ((u + 2 ^ 64 * v) mod 2 ^ 64 = u) as -> by (symmetry; apply (Z.mod_unique_pos _ _ v); lia).
  assert ((u + 2 ^ 64 * v) / 2 ^ 64 = v) as -> by (symmetry; apply (Z.div_unique_pos _ _ v u); lia).
  destruct (u ?= m0); auto. destruct (v ?= m1); auto.
Qed.

Definition I128 : ity := {| ibits := 128; isigned := true |}.

Lemma two_limbs l m0 m1 : wf 64 l -> canonical l -> 0 <= m0 < 2 ^ 64 -> 0 < m1 < 2 ^ 64 ->
  val 64 l = m0 + 2 ^ 64 * m1 -> l = [m0; m1].
Proof.
  intros Hw Hc H0 H1 Hv. apply (canonical_inj 64); auto.
  - repeat constructor; change (base 64) with (2 ^ 64); lia.
  - split; [discriminate|]. left. cbn. lia.
  - rewrite Hv. cbn [val]. change (base 64) with (2 ^ 64). lia.
Qed.

(** What [i128::try_from(&a)] returns for every [x]. *)
Definition i128_try_from (x : Z) : Z + side :=
  if 0 <=? x then
    if x <? 2 ^ 127 then inl x
    else if (x <? 2 ^ 128) && negb (x mod 2 ^ 64 =? 2 ^ 64 - 1) then inl (x - 2 ^ 128)
    else inr Above
  else
    if - x <? 2 ^ 64 then inl (- x)
    else if (- x mod 2 ^ 64 =? 0) && (- x <? 2 ^ 127) then inl (- x)
    else if x =? - 2 ^ 127 then inl x
    else inr Below.

Lemma try_from_i128 dbg P st hs a x : consistent P st hs -> room P hs 0 -> In a hs -> denotes st a x ->
  a <> neg_zero -> returns P hs (bi_try_from dbg I128 a) st (i128_try_from x).
Proof.
  intros Hc Hr Ha Hx Na.
  assert (std_ty I128) as Ht by (vm_compute; auto 10).
  assert (imax I128 = 2 ^ 127 - 1) as Em by reflexivity.
  assert (imin I128 = - 2 ^ 127) as En by reflexivity.
  destruct (info _ _ _ _ _ Hc Ha Hx) as (la & _ & Wa & Ca & _ & Va & _).
  pose proof (try_from_run dbg I128 P st hs a x (gcmp (x <? 0) la false [2 ^ 64 - 1; 2 ^ 63 - 1])
    (gcmp (x <? 0) la true [0; 2 ^ 63]) Hc Hr Ha Hx Ht) as R.
  assert (forall st1 m y l0 l1, consistent P st1 (m :: hs) -> denotes st1 m y -> m <> neg_zero -> denotes st1 a x ->
    0 <= l0 < 2 ^ 64 -> 0 < l1 < 2 ^ 64 -> Z.abs y = l0 + 2 ^ 64 * l1 ->
    bi_cmp st1 a m = Ok (gcmp (x <? 0) la (y <? 0) [l0; l1])) as HC.
  { intros st1 m y l0 l1 C D N Da B0 B1 Ey.
    destruct (bi_cmp_gcmp P st1 (m :: hs) a m x y C (or_intror Ha) (or_introl eq_refl) Da D Na N)
      as (la' & lm & Wa' & Ca' & Va' & Wm & Cm & Vm & ->).
    assert (la' = la) as -> by (apply (canonical_inj 64); auto; congruence).
    rewrite (two_limbs lm l0 l1) by (auto; congruence). reflexivity. }
  lapply R; [clear R; intros R; lapply R; [clear R; intros R|]|].
  - replace (i128_try_from x) with (match gcmp (x <? 0) la false [2 ^ 64 - 1; 2 ^ 63 - 1] with
     | Gt => inr Above
     | _ => match gcmp (x <? 0) la true [0; 2 ^ 63] with
            | Lt => inr Below
            | _ => match magnitude_as I128 (Z.abs x) with Some v => inl v | None => inr Above end
            end
     end); auto.
    clear R HC. unfold i128_try_from, magnitude_as. rewrite Em.
    change (isigned I128 && (ibits I128 =? 128)%nat) with true. cbn [andb].
    unfold gcmp. rewrite !mcmp_two by auto. rewrite Va. clear Va Wa Ca la.
    destruct (Z.leb_spec 0 x) as [H0|H0].
    + rewrite (proj2 (Z.ltb_ge x 0)) by lia. rewrite !Z.abs_eq by lia.
      destruct (Z.ltb_spec x (2 ^ 64)).
      { rewrite (proj2 (Z.ltb_lt x (2 ^ 127))), (proj2 (Z.leb_le x (2 ^ 127 - 1))) by lia. reflexivity. }
      pose proof (Z.mod_pos_bound x (2 ^ 64) ltac:(lia)) as HM. pose proof (Z.div_mod x (2 ^ 64) ltac:(lia)) as HD.
      destruct (Z.leb_spec (2 ^ 128) x).
      { rewrite (proj2 (Z.ltb_ge x (2 ^ 127))), (proj2 (Z.ltb_ge x (2 ^ 128))) by lia. reflexivity. }
      destruct (Z.ltb_spec x (2 ^ 127)); destruct (Z.leb_spec x (2 ^ 127 - 1)); try lia.
      * destruct (Z.compare_spec (x mod 2 ^ 64) (2 ^ 64 - 1)); try lia; auto.
        destruct (Z.compare_spec (x / 2 ^ 64) (2 ^ 63 - 1)); try lia; auto.
      * rewrite (proj2 (Z.ltb_lt x (2 ^ 128))) by lia. cbn [andb].
        destruct (Z.eqb_spec (x mod 2 ^ 64) (2 ^ 64 - 1)) as [E|E]; cbn [negb].
        -- rewrite E, Z.compare_refl. destruct (Z.compare_spec (x / 2 ^ 64) (2 ^ 63 - 1)); try lia; auto.
        -- destruct (Z.compare_spec (x mod 2 ^ 64) (2 ^ 64 - 1)); try lia; auto.
    + rewrite (proj2 (Z.ltb_lt x 0)) by lia. rewrite !Z.abs_neq by lia. remember (- x) as y eqn:Ey.
      assert (x = - y) as Exy by lia. clear Ey. subst x.
      destruct (Z.ltb_spec y (2 ^ 64)).
      { rewrite (proj2 (Z.leb_le y _)) by lia. reflexivity. }
      pose proof (Z.mod_pos_bound y (2 ^ 64) ltac:(lia)) as HM. pose proof (Z.div_mod y (2 ^ 64) ltac:(lia)) as HD.
      destruct (Z.leb_spec (2 ^ 128) y).
      { rewrite (proj2 (Z.ltb_ge y (2 ^ 127))) by lia. rewrite andb_false_r.
        rewrite (proj2 (Z.eqb_neq _ _)) by lia. reflexivity. }
      destruct (Z.eqb_spec (y mod 2 ^ 64) 0) as [E|E]; cbn [andb].
      * rewrite E. change (0 ?= 0) with Eq. cbv iota.
        destruct (Z.ltb_spec y (2 ^ 127)).
        -- rewrite (proj2 (Z.leb_le y _)) by lia.
           destruct (Z.compare_spec (y / 2 ^ 64) (2 ^ 63)); try lia; auto.
        -- rewrite (proj2 (Z.leb_gt y _)) by lia. rewrite (proj2 (Z.ltb_lt y (2 ^ 128))) by lia.
           destruct (Z.eqb_spec (- y) (- 2 ^ 127)).
           ++ assert (y / 2 ^ 64 = 2 ^ 63) as -> by lia. rewrite Z.compare_refl. cbn [CompOpp]. f_equal. lia.
           ++ destruct (Z.compare_spec (y / 2 ^ 64) (2 ^ 63)); try lia; auto.
      * rewrite (proj2 (Z.eqb_neq (- y) _)).
        -- destruct (Z.compare_spec (y mod 2 ^ 64) 0); try lia; auto.
        -- intros Q. assert (y = 2 ^ 127) as -> by lia. apply E. reflexivity.
  - intros st1 m C D N Da. apply (HC st1 m (imin I128)); auto; try (vm_compute; auto; split; congruence).
  - intros st1 m C D N Da. apply (HC st1 m (imax I128)); auto; try (vm_compute; auto; split; congruence).
Qed.

Lemma saturate_i128 dbg P st hs a x : consistent P st (a :: hs) -> room P (a :: hs) 0 -> denotes st a x ->
  a <> neg_zero ->
  returns P hs (bi_saturate dbg I128 a) st
    (match i128_try_from x with inl v => v | inr Above => imax I128 | inr Below => imin I128 end).
Proof.
  intros Hc Hr Hx Na. unfold bi_saturate.
  pose proof (try_from_i128 dbg P st (a :: hs) a x Hc Hr ltac:(cbn; auto) Hx Na) as R.
  apply (try_from_val_of (fun r => match r with inl v => v | inr Above => imax I128 | inr Below => imin I128 end)) in R; auto.
Qed.

(** Truncation for every value. *)
Lemma truncate_exact dbg t P st hs a x : consistent P st (a :: hs) -> denotes st a x -> std_ty t ->
  let v := match magnitude_as t (Z.abs x) with Some v => v | None => imax t end in
  let p := v * (if Z.odd a then -1 else 1) in
  if isigned t && negb (in_range t p) && dbg then bi_truncate dbg t a st = Panic
  else returns P hs (bi_truncate dbg t a) st (if isigned t then (if in_range t p then p else wrap t p) else v).
Proof.
  intros Hc Hx Ht v p.
  destruct (info _ _ _ _ _ Hc ltac:(left; reflexivity) Hx) as (la & Sa & Wa & Ca & La & Va & _).
  destruct (drop_spec P st hs a Hc) as (st2 & E2 & C2 & K2).
  pose proof (arr_to_int_exact dbg t la _ Ht Wa Ca Va) as Ea.
  unfold returns, bi_truncate. rewrite (mbind_ok _ _ st la st) by (apply reads_ok, Sa).
  rewrite (mbind_ok _ _ st _ st (lift_ok _ _ _ Ea)).
  assert (unwrap_or (magnitude_as t (Z.abs x)) (imax t) = v) as -> by (unfold v, unwrap_or; destruct (magnitude_as _ _); auto).
  rewrite is_negative_odd. fold p.
  destruct (isigned t); cbn [andb].
  - destruct (in_range t p); cbn [negb andb].
    + exists st2. split; [|split; auto]. rewrite (mbind_ok _ _ st p st) by (apply lift_ok; auto). rewrite (mbind_ok _ _ _ _ _ E2). reflexivity.
    + destruct dbg.
      * apply mbind_panic. apply lift_panic. auto.
      * exists st2. split; [|split; auto]. rewrite (mbind_ok _ _ st (wrap t p) st) by (apply lift_ok; auto). rewrite (mbind_ok _ _ _ _ _ E2). reflexivity.
  - exists st2. split; [|split; auto]. rewrite (mbind_ok _ _ st v st) by (apply lift_ok; auto). rewrite (mbind_ok _ _ _ _ _ E2). reflexivity.
Qed.
