(** Proofs: limb shifts. *)
From Coq Require Import ZArith List Bool Lia.
From Verif Require Import Base Words Spec Arith BitSliceModel BitSliceProofs ElementModel ElemAddSub.
Import ListNotations.
Local Open Scope Z_scope.

Lemma land_wnot w x m : 0 <= x < base w -> Z.land x (wnot w m) = Z.ldiff x m.
Proof.
  intros Hx. apply Z.bits_inj'. intros n Hn. rewrite Z.land_spec, Z.ldiff_spec.
  destruct (Z.lt_ge_cases n (Z.of_nat w)).
  - rewrite wnot_testbit by lia. reflexivity.
  - rewrite (base_testbit_small w x) by auto. reflexivity.
Qed.

Lemma wnot_wnot w x : 0 <= x < base w -> wnot w (wnot w x) = x.
Proof.
  intros. rewrite wnot_spec by apply wnot_range. rewrite wnot_spec by auto. lia.
Qed.

Lemma pow2_pos n : 0 < 2 ^ Z.of_nat n.
Proof. apply Z.pow_pos_nonneg; lia. Qed.

Lemma ones_range w e : (e <= w)%nat -> 0 <= Z.ones (Z.of_nat e) < base w.
Proof.
  intros. rewrite Z.ones_equiv. pose proof (pow2_pos e).
  assert (2 ^ Z.of_nat e <= base w) by (unfold base; apply Z.pow_le_mono_r; lia). lia.
Qed.

Lemma base_split w e : (e <= w)%nat -> base w = 2 ^ Z.of_nat e * 2 ^ Z.of_nat (w - e).
Proof. intros. unfold base. rewrite <- Z.pow_add_r by lia. f_equal. lia. Qed.

Lemma ldiff_ones_mul x e : Z.ldiff (x * 2 ^ Z.of_nat e) (Z.ones (Z.of_nat e)) = x * 2 ^ Z.of_nat e.
Proof.
  rewrite Z.ldiff_ones_r by lia. rewrite Z.shiftl_mul_pow2, Z.shiftr_div_pow2 by lia.
  pose proof (pow2_pos e). rewrite Z.div_mul by lia. auto.
Qed.

Lemma lor_disjoint x y m : Z.lor (Z.ldiff x m) (Z.land y m) = Z.ldiff x m + Z.land y m.
Proof.
  apply lor_add. apply Z.bits_inj'. intros n Hn.
  rewrite Z.land_spec, Z.ldiff_spec, Z.land_spec, Z.bits_0.
  destruct (Z.testbit x n), (Z.testbit y n), (Z.testbit m n); reflexivity.
Qed.

Section Shift.
  Variable w r : nat.
  Hypothesis Hw : (0 < w)%nat.

  Let e := Nat.modulo r w.
  Let s := Nat.div r w.

  Lemma e_lt : (e < w)%nat.
  Proof. apply Nat.mod_upper_bound. lia. Qed.

  Lemma r_split : r = (w * s + e)%nat.
  Proof. apply Nat.div_mod. lia. Qed.

  Lemma pow_r : 2 ^ Z.of_nat r = cap w s * 2 ^ Z.of_nat e.
  Proof.
    rewrite r_split. rewrite Nat2Z.inj_add, Z.pow_add_r by lia. f_equal.
    unfold cap. f_equal. lia.
  Qed.

  Lemma inv_shift_e : inv_shift w r = if Nat.eqb e 0 then 0%nat else (w - e)%nat.
  Proof.
    unfold inv_shift. fold e. pose proof e_lt. destruct (Nat.eqb_spec e 0) as [E|E].
    - rewrite E, Nat.sub_0_r. apply Nat.mod_same. lia.
    - apply Nat.mod_small. lia.
  Qed.

  Lemma pe_pos : 0 < 2 ^ Z.of_nat e. Proof. apply pow2_pos. Qed.
  Lemma pw_pos : 0 < 2 ^ Z.of_nat (w - e). Proof. apply pow2_pos. Qed.
  Lemma base_e : base w = 2 ^ Z.of_nat e * 2 ^ Z.of_nat (w - e).
  Proof. apply base_split. pose proof e_lt. lia. Qed.

  (** *** Left shift *)

  Definition hiL (v : Z) : Z := if Nat.eqb e 0 then 0 else v / 2 ^ Z.of_nat (w - e).
  Definition loL (v : Z) : Z := (v * 2 ^ Z.of_nat e) mod base w.

  Lemma loL_form v : loL v = (v mod 2 ^ Z.of_nat (w - e)) * 2 ^ Z.of_nat e.
  Proof.
    unfold loL. rewrite base_e, (Z.mul_comm (2 ^ Z.of_nat e) (2 ^ Z.of_nat (w - e))).
    pose proof pe_pos. pose proof pw_pos. apply Z.mul_mod_distr_r; lia.
  Qed.

  Lemma loL_range v : 0 <= loL v < base w.
  Proof. apply Z.mod_pos_bound, base_pos. Qed.

  Lemma hiL_range v : 0 <= v < base w -> 0 <= hiL v < 2 ^ Z.of_nat e.
  Proof.
    intros H. unfold hiL. destruct (Nat.eqb_spec e 0) as [E|E].
    - pose proof pe_pos. lia.
    - pose proof pe_pos. pose proof pw_pos. rewrite base_e in H.
      split; [apply Z.div_pos; lia|]. apply Z.div_lt_upper_bound; lia.
  Qed.

  Lemma lohiL v : 0 <= v < base w -> loL v + base w * hiL v = v * 2 ^ Z.of_nat e.
  Proof.
    intros H. unfold hiL. destruct (Nat.eqb_spec e 0) as [E|E].
    - unfold loL. rewrite E. simpl (2 ^ Z.of_nat 0). rewrite Z.mod_small; lia.
    - rewrite loL_form, base_e. pose proof pw_pos.
      pose proof (Z.div_mod v (2 ^ Z.of_nat (w - e)) ltac:(lia)). nia.
  Qed.

  Lemma shl_mask_ones : shl_mask w r = Z.ones (Z.of_nat e).
  Proof.
    unfold shl_mask, elem_shift. fold e. pose proof e_lt. rewrite wshl_mul.
    assert (0 <= base w - 2 ^ Z.of_nat e < base w) as Hr.
    { rewrite base_e. pose proof pe_pos. pose proof pw_pos. nia. }
    replace ((wmax w * 2 ^ Z.of_nat e) mod base w) with (base w - 2 ^ Z.of_nat e).
    - rewrite wnot_spec by auto. rewrite Z.ones_equiv. lia.
    - unfold wmax. apply (Z.mod_unique_pos _ _ (2 ^ Z.of_nat e - 1)); auto. ring.
  Qed.

  Lemma shl_hi v : 0 <= v < base w -> Z.land (wshr v (inv_shift w r)) (shl_mask w r) = hiL v.
  Proof.
    intros Hv. rewrite shl_mask_ones, Z.land_ones, inv_shift_e by lia.
    unfold hiL. destruct (Nat.eqb_spec e 0) as [E|E].
    - rewrite E. simpl (2 ^ Z.of_nat 0). apply Z.mod_1_r.
    - rewrite wshr_div. apply Z.mod_small. pose proof (hiL_range v Hv) as H. unfold hiL in H.
      destruct (Nat.eqb_spec e 0); [lia|auto].
  Qed.

  Lemma shl_lo v : Z.land (wshl w v e) (wnot w (shl_mask w r)) = loL v.
  Proof.
    rewrite shl_mask_ones, land_wnot by apply wshl_range. rewrite wshl_mul.
    change ((v * 2 ^ Z.of_nat e) mod base w) with (loL v). rewrite loL_form. apply ldiff_ones_mul.
  Qed.

  Lemma shl_merge v' h : Z.lor (Z.land (loL v') (wnot w (shl_mask w r))) (Z.land h (shl_mask w r)) =
    loL v' + Z.land h (shl_mask w r).
  Proof.
    rewrite land_wnot by apply loL_range. rewrite lor_disjoint. f_equal.
    rewrite shl_mask_ones, loL_form. apply ldiff_ones_mul.
  Qed.

  Lemma arr_shift_s : arr_shift w r = S s.
  Proof. unfold arr_shift. fold s. lia. Qed.

  Lemma shl_step_spec out idx v v' : 0 <= v < base w -> zget out (idx + S s) = loL v' ->
    shl_step w r out idx v =
    upd (upd out (idx + S s) (loL v' + hiL v)) (idx + s) (loL v).
  Proof.
    intros Hv Ho. unfold shl_step. rewrite arr_shift_s, Ho, shl_merge, shl_hi by auto.
    unfold elem_shift. fold e. rewrite shl_lo, !set_ignore_upd.
    replace (idx + S s - 1)%nat with (idx + s)%nat by lia. reflexivity.
  Qed.

  Lemma loL_0 : loL 0 = 0.
  Proof. unfold loL. apply Z.mod_0_l. pose proof (base_pos w). lia. Qed.
  Lemma hiL_0 : hiL 0 = 0.
  Proof. unfold hiL. destruct (Nat.eqb e 0); auto. Qed.

  Definition shl_state (l out0 : list Z) (k : nat) (out : list Z) : Prop :=
    length out = length out0 /\
    forall p, (p < length out0)%nat -> zget out p =
      if Nat.ltb p (k + s) then zget out0 p
      else if Nat.eqb p (k + s) then loL (zget l k)
      else loL (zget l (p - s)) + hiL (zget l (p - s - 1)).

  Lemma shl_state_init l out0 : (forall p, (length l + s <= p)%nat -> zget out0 p = 0) ->
    shl_state l out0 (length l) out0.
  Proof.
    intros H. split; auto. intros p Hp. destruct (Nat.ltb_spec p (length l + s)); auto.
    rewrite H by auto. destruct (Nat.eqb_spec p (length l + s)).
    - rewrite zget_oob, loL_0; auto.
    - rewrite !zget_oob, loL_0, hiL_0 by lia. auto.
  Qed.

  Lemma shl_state_step l out0 k out : wf w l -> (k < length l)%nat ->
    shl_state l out0 (S k) out -> shl_state l out0 k (shl_step w r out k (zget l k)).
  Proof.
    intros Hl Hk [Hlen Hget].
    assert (exists v', zget out (k + S s) = loL v' /\
      ((k + S s < length out0)%nat -> v' = zget l (S k))) as (v' & Hv' & Hv'').
    { destruct (Nat.lt_ge_cases (k + S s) (length out0)).
      - exists (zget l (S k)). split; auto. rewrite Hget by auto.
        rewrite (proj2 (Nat.ltb_ge _ _)) by lia. rewrite (proj2 (Nat.eqb_eq _ _)) by lia. auto.
      - exists 0. rewrite loL_0. split; [apply zget_oob; lia|lia]. }
    rewrite (shl_step_spec out k (zget l k) v') by (auto using wf_zget).
    split; [rewrite !length_upd; auto|]. intros p Hp.
    rewrite !zget_upd, !length_upd, Hlen.
    destruct (Nat.eqb_spec (k + s) p) as [<-|H1]; cbn [andb].
    - rewrite (proj2 (Nat.ltb_lt (k + s) (length out0))) by auto.
      rewrite Nat.ltb_irrefl, Nat.eqb_refl. auto.
    - destruct (Nat.eqb_spec (k + S s) p) as [<-|H2]; cbn [andb].
      + rewrite (proj2 (Nat.ltb_lt (k + S s) (length out0))) by auto.
        rewrite (proj2 (Nat.ltb_ge _ _)) by lia. rewrite (proj2 (Nat.eqb_neq _ _)) by lia.
        rewrite Hv'' by auto. do 2 f_equal; f_equal; lia.
      + rewrite Hget by auto.
        destruct (Nat.ltb_spec p (S k + s)), (Nat.ltb_spec p (k + s)); try lia; auto.
        rewrite !(proj2 (Nat.eqb_neq _ _)) by lia. auto.
  Qed.

  (** The digits of the shifted number. *)
  Definition shl_dig (l : nat -> Z) (p : nat) : Z :=
    if Nat.ltb p s then 0
    else if Nat.eqb p s then loL (l 0%nat)
    else loL (l (p - s)%nat) + hiL (l (p - s - 1)%nat).

  Lemma shl_dig_sum l t : (forall i, 0 <= l i < base w) ->
    exists h, 0 <= h /\ sumB (base w) (shl_dig l) (s + t) + h * cap w (s + t) =
      cap w s * 2 ^ Z.of_nat e * sumB (base w) l t.
  Proof.
    intros Hl.
    assert (sumB (base w) (shl_dig l) (s + t) +
      (if Nat.eqb t 0 then 0 else hiL (l (t - 1)%nat)) * cap w (s + t) =
      cap w s * 2 ^ Z.of_nat e * sumB (base w) l t) as H.
    { induction t.
      - rewrite Nat.add_0_r. cbn [Nat.eqb sumB]. rewrite sumB_zero_ext; [ring|].
        intros i Hi. unfold shl_dig. rewrite (proj2 (Nat.ltb_lt _ _)) by auto. auto.
      - rewrite Nat.add_succ_r. cbn [sumB]. rewrite <- !cap_pow. rewrite !cap_S.
        cbn [Nat.eqb]. replace (S t - 1)%nat with t by lia.
        assert (shl_dig l (s + t) = loL (l t) + if Nat.eqb t 0 then 0 else hiL (l (t - 1)%nat)) as ->.
        { unfold shl_dig. rewrite (proj2 (Nat.ltb_ge _ _)) by lia.
          destruct (Nat.eqb_spec t 0) as [->|Ht].
          - rewrite (proj2 (Nat.eqb_eq _ _)) by lia. ring.
          - rewrite (proj2 (Nat.eqb_neq _ _)) by lia. f_equal; do 2 f_equal; lia. }
        pose proof (lohiL (l t) (Hl t)) as HL. rewrite !cap_add in *.
        set (hp := if Nat.eqb t 0 then 0 else hiL (l (t - 1)%nat)) in *.
        replace (cap w s * 2 ^ Z.of_nat e * (sumB (base w) l t + l t * cap w t))
          with (cap w s * 2 ^ Z.of_nat e * sumB (base w) l t +
                (l t * 2 ^ Z.of_nat e) * (cap w s * cap w t)) by ring.
        rewrite <- IHt, <- HL. ring. }
    eexists. split; [|exact H]. destruct (Nat.eqb t 0); [lia|].
    apply (hiL_range (l (t - 1)%nat)); auto.
  Qed.

  Lemma shl_digits_val l out : wf w l -> wf w out -> (s <= length out)%nat ->
    (forall p, (p < length out)%nat -> zget out p = shl_dig (zget l) p) ->
    val w out = (val w l * 2 ^ Z.of_nat r) mod cap w (length out).
  Proof.
    intros Hl Ho Hs Hget. set (t := (length out - s)%nat).
    destruct (shl_dig_sum (zget l) t (fun i => wf_zget w l i Hl)) as (h & Hh & H).
    replace (s + t)%nat with (length out) in H by lia.
    rewrite <- (sumB_ext _ _ _ _ Hget), <- val_sum in H.
    set (m := (length l - t)%nat).
    rewrite (val_sumB w l (t + m)) by lia. rewrite sumB_split by (pose proof (base_pos w); lia).
    rewrite <- cap_pow, pow_r.
    set (hi := sumB (base w) (fun i => zget l (t + i)) m).
    apply (Z.mod_unique_pos _ _ (hi * 2 ^ Z.of_nat e + h)); [apply val_bound; auto|].
    replace (length out) with (s + t)%nat in * by lia. rewrite cap_add in *.
    rewrite Z.mul_add_distr_r.
    replace (sumB (base w) (zget l) t * (cap w s * 2 ^ Z.of_nat e))
      with (cap w s * 2 ^ Z.of_nat e * sumB (base w) (zget l) t) by ring.
    rewrite <- H. ring.
  Qed.

  Lemma shl_dig_range l p : wf w l -> 0 <= shl_dig (zget l) p < base w.
  Proof.
    intros Hl. pose proof (base_pos w). unfold shl_dig. destruct (Nat.ltb p s); [lia|].
    destruct (Nat.eqb p s); [apply loL_range|].
    pose proof (hiL_range _ (wf_zget w l (p - s - 1) Hl)) as H1.
    rewrite loL_form. pose proof pw_pos.
    pose proof (Z.mod_pos_bound (zget l (p - s)) (2 ^ Z.of_nat (w - e)) ltac:(lia)) as H2.
    rewrite base_e. nia.
  Qed.

  Lemma elem_shl_spec l : wf w l ->
    exists out, elem_shl w l r = Ok out /\ wf w out /\ canonical out /\
      val w out = val w l * 2 ^ Z.of_nat r.
  Proof.
    intros Hl. unfold elem_shl. rewrite arr_shift_s.
    match goal with |- context [shrink ?t] =>
      assert (shl_state l (zeros (length l + S s)) 0 t) as [Hlen Hget] end.
    { apply (fold_rev_seq_ind (shl_state l (zeros (length l + S s)))).
      - apply shl_state_init. intros. apply zget_zeros.
      - intros k out Hk. apply shl_state_step; auto. }
    match goal with |- context [shrink ?t] => set (out := t) in * end.
    rewrite length_zeros in *.
    assert (forall p, (p < length l + S s)%nat -> zget out p = shl_dig (zget l) p) as HD.
    { intros p Hp. rewrite Hget by auto. unfold shl_dig. rewrite zget_zeros. cbn [Nat.add]. auto. }
    assert (wf w out) as Hwf.
    { apply wf_zget_iff. rewrite Hlen. intros. rewrite HD by auto. apply shl_dig_range; auto. }
    destruct (shrink_ok w out Hwf ltac:(lia)) as (o & Eo & Wo & Co & Vo).
    exists o. split; auto. split; auto. split; auto.
    rewrite Vo, (shl_digits_val l out) by (auto; rewrite Hlen; auto; lia).
    apply Z.mod_small. rewrite Hlen.
    pose proof (val_bound w l Hl) as HB. pose proof pe_pos.
    replace (length l + S s)%nat with (length l + s + 1)%nat by lia.
    rewrite !cap_add, cap_1, pow_r. split; [pose proof (cap_pos w s); nia|].
    assert (2 ^ Z.of_nat e < base w).
    { unfold base. apply Z.pow_lt_mono_r; pose proof e_lt; lia. }
    pose proof (cap_pos w s). pose proof (cap_pos w (length l)).
    assert (val w l * cap w s < cap w (length l) * cap w s) by nia.
    nia.
  Qed.

  Lemma inner_shl_spec l : wf w l ->
    if Nat.leb s (length l) then
      exists out, inner_shl w l r = Ok out /\ length out = length l /\ wf w out /\
        val w out = (val w l * 2 ^ Z.of_nat r) mod cap w (length l)
    else inner_shl w l r = Panic.
  Proof.
    intros Hl. unfold inner_shl. rewrite arr_shift_s.
    replace (S s - 1)%nat with s by lia.
    match goal with |- context [fill_prefix ?t _] => assert (shl_state l l 0 t) as [Hlen Hget] end.
    { apply (fold_rev_seq_ind (shl_state l l)).
      - apply shl_state_init. intros. apply zget_oob. lia.
      - intros k out Hk HS. replace (zget out k) with (zget l k).
        + apply shl_state_step; auto.
        + destruct HS as [Hlen Hget]. rewrite Hget by auto.
          rewrite (proj2 (Nat.ltb_lt _ _)) by lia. auto. }
    match goal with |- context [fill_prefix ?t _] => set (out := t) in * end.
    unfold fill_prefix. rewrite Hlen. destruct (Nat.leb_spec s (length l)) as [Hs|Hs]; auto.
    assert (length (zeros s ++ skipn s out) = length l) as Hlen'.
    { rewrite app_length, length_zeros, skipn_length. lia. }
    assert (forall p, (p < length l)%nat -> zget (zeros s ++ skipn s out) p = shl_dig (zget l) p) as HD.
    { intros p Hp. unfold shl_dig. destruct (Nat.ltb_spec p s).
      - rewrite zget_app1 by (rewrite length_zeros; auto). apply zget_zeros.
      - rewrite zget_app2 by (rewrite length_zeros; auto). rewrite length_zeros, zget_skipn.
        replace (s + (p - s))%nat with p by lia. rewrite Hget by auto. cbn [Nat.add].
        rewrite (proj2 (Nat.ltb_ge _ _)) by lia. auto. }
    eexists. split; [reflexivity|]. split; auto.
    assert (wf w (zeros s ++ skipn s out)) as Hwf.
    { apply wf_zget_iff. rewrite Hlen'. intros. rewrite HD by auto. apply shl_dig_range; auto. }
    split; auto. rewrite (shl_digits_val l) by (auto; rewrite Hlen'; auto). rewrite Hlen'. auto.
  Qed.

  (** *** Right shift *)

  Definition hR (v : Z) : Z :=
    if Nat.eqb e 0 then 0 else (v mod 2 ^ Z.of_nat e) * 2 ^ Z.of_nat (w - e).
  Definition lR (v : Z) : Z := v / 2 ^ Z.of_nat e.

  Lemma lR_range v : 0 <= v < base w -> 0 <= lR v < 2 ^ Z.of_nat (w - e).
  Proof.
    intros H. rewrite base_e in H. pose proof pe_pos. unfold lR.
    split; [apply Z.div_pos; lia|]. apply Z.div_lt_upper_bound; lia.
  Qed.

  Lemma shr_mask_ones : shr_mask w r = wnot w (Z.ones (Z.of_nat (w - e))).
  Proof.
    unfold shr_mask, elem_shift. fold e. f_equal. rewrite wshr_div, Z.ones_equiv.
    unfold wmax. rewrite base_e. pose proof pe_pos. pose proof pw_pos.
    symmetry. apply (Z.div_unique_pos _ _ _ (2 ^ Z.of_nat e - 1)); lia.
  Qed.

  Lemma shr_nmask : wnot w (shr_mask w r) = Z.ones (Z.of_nat (w - e)).
  Proof. rewrite shr_mask_ones. apply wnot_wnot. apply ones_range. lia. Qed.

  Lemma shr_hi v : 0 <= v < base w ->
    Z.land (wshl w v (inv_shift w r)) (shr_mask w r) = hR v.
  Proof.
    intros Hv. rewrite shr_mask_ones, land_wnot by apply wshl_range.
    rewrite wshl_mul, inv_shift_e. unfold hR. pose proof pe_pos. pose proof pw_pos.
    destruct (Nat.eqb_spec e 0) as [E|E].
    - rewrite E, Nat.sub_0_r. simpl (2 ^ Z.of_nat 0). rewrite Z.mul_1_r, Z.mod_small by auto.
      rewrite Z.ldiff_ones_r by lia. rewrite Z.shiftr_div_pow2 by lia. fold (base w).
      rewrite Z.div_small by auto. apply Z.shiftl_0_l.
    - rewrite base_e. rewrite Z.mul_mod_distr_r by lia. apply ldiff_ones_mul.
  Qed.

  Lemma shr_lo v : 0 <= v < base w -> Z.land (wshr v e) (wnot w (shr_mask w r)) = lR v.
  Proof.
    intros Hv. rewrite shr_nmask, Z.land_ones by lia. rewrite wshr_div.
    apply Z.mod_small. apply (lR_range v Hv).
  Qed.

  (** Bits of an old limb that survive the write of a low part. *)
  Definition keep (o : Z) : Z := Z.land o (shr_mask w r).

  Lemma keep_0 : keep 0 = 0. Proof. apply Z.land_0_l. Qed.

  Lemma keep_form o : 0 <= o < base w ->
    keep o = (o / 2 ^ Z.of_nat (w - e)) * 2 ^ Z.of_nat (w - e).
  Proof.
    intros H. unfold keep. rewrite shr_mask_ones, land_wnot by auto.
    rewrite Z.ldiff_ones_r by lia. rewrite Z.shiftl_mul_pow2, Z.shiftr_div_pow2 by lia. auto.
  Qed.

  Lemma shr_low_merge o v : 0 <= o < base w -> 0 <= v < base w ->
    Z.lor (Z.land o (shr_mask w r)) (Z.land (wshr v e) (wnot w (shr_mask w r))) = keep o + lR v.
  Proof.
    intros Ho Hv. rewrite <- (shr_lo v Hv). unfold keep.
    rewrite shr_nmask, shr_mask_ones, land_wnot by auto. apply lor_disjoint.
  Qed.

  Lemma shr_high_merge o v' v : 0 <= o < base w -> 0 <= v' < base w -> 0 <= v < base w ->
    Z.lor (Z.land (keep o + lR v') (wnot w (shr_mask w r)))
      (Z.land (wshl w v (inv_shift w r)) (shr_mask w r)) = lR v' + hR v.
  Proof.
    intros Ho Hv' Hv. rewrite Z.lor_comm.
    rewrite <- (shr_hi v Hv). rewrite shr_nmask, !shr_mask_ones, land_wnot by apply wshl_range.
    rewrite lor_disjoint. rewrite Z.add_comm. f_equal.
    rewrite Z.land_ones by lia. rewrite keep_form by auto.
    rewrite Z.add_comm, Z_mod_plus_full. apply Z.mod_small. apply lR_range; auto.
  Qed.

  Lemma lR_0 : lR 0 = 0. Proof. reflexivity. Qed.
  Lemma hR_0 : hR 0 = 0. Proof. unfold hR. destruct (Nat.eqb e 0); auto. Qed.

  Definition shr_state (l out0 : list Z) (k : nat) (out : list Z) : Prop :=
    length out = length out0 /\
    forall p, (p < length out0)%nat -> zget out p =
      if Nat.ltb (p + s + 1) k then lR (zget l (p + s)) + hR (zget l (p + s + 1))
      else if Nat.eqb (p + s + 1) k then keep (zget out0 p) + lR (zget l (p + s))
      else zget out0 p.

  Definition csub (a b : nat) : option nat := if Nat.leb b a then Some (a - b)%nat else None.

  (** Effect of one iteration, common to both versions once no check fires. *)
  Definition shr_body (out : list Z) (idx : nat) (v : Z) : list Z :=
    let out := modify out (csub idx (S s))
      (fun o => Z.lor (Z.land o (wnot w (shr_mask w r)))
                      (Z.land (wshl w v (inv_shift w r)) (shr_mask w r))) in
    modify out (csub (idx + 1) (S s))
      (fun o => Z.lor (Z.land o (shr_mask w r)) (Z.land (wshr v e) (wnot w (shr_mask w r)))).

  Lemma shr_state_step l out0 k out : wf w l -> wf w out0 -> length out0 = length l ->
    (k < length l)%nat ->
    shr_state l out0 k out -> shr_state l out0 (S k) (shr_body out k (zget l k)).
  Proof.
    intros Hl Ho Hlo Hk [Hlen Hget]. unfold shr_body, csub, modify.
    assert (forall i, 0 <= zget l i < base w) as Hl' by (intros; apply wf_zget; auto).
    assert (forall i, 0 <= zget out0 i < base w) as Ho' by (intros; apply wf_zget; auto).
    destruct (Nat.leb_spec (S s) k) as [H1|H1].
    - (* both writes in range *)
      rewrite (proj2 (Nat.leb_le (S s) (k + 1))) by lia. rewrite !set_ignore_upd.
      rewrite (Hget (k - S s)%nat) by lia.
      rewrite (proj2 (Nat.ltb_ge _ _)) by lia. rewrite (proj2 (Nat.eqb_eq _ _)) by lia.
      rewrite shr_high_merge by auto.
      rewrite zget_upd_ne by lia. rewrite (Hget (k + 1 - S s)%nat) by lia.
      rewrite (proj2 (Nat.ltb_ge _ _)) by lia. rewrite (proj2 (Nat.eqb_neq _ _)) by lia.
      rewrite shr_low_merge by auto.
      split; [rewrite !length_upd; auto|]. intros p Hp. rewrite !zget_upd, !length_upd, Hlen.
      destruct (Nat.eqb_spec (k + 1 - S s) p) as [<-|N1]; cbn [andb].
      + rewrite (proj2 (Nat.ltb_lt (k + 1 - S s) _)) by lia.
        rewrite (proj2 (Nat.ltb_ge _ _)) by lia. rewrite (proj2 (Nat.eqb_eq _ _)) by lia.
        do 3 f_equal. lia.
      + destruct (Nat.eqb_spec (k - S s) p) as [<-|N2]; cbn [andb].
        * rewrite (proj2 (Nat.ltb_lt (k - S s) _)) by lia.
          rewrite (proj2 (Nat.ltb_lt (k - S s + s + 1) _)) by lia. do 3 f_equal; lia.
        * rewrite Hget by auto.
          destruct (Nat.ltb_spec (p + s + 1) k), (Nat.ltb_spec (p + s + 1) (S k)); try lia; auto.
          rewrite !(proj2 (Nat.eqb_neq _ _)) by lia. auto.
    - destruct (Nat.leb_spec (S s) (k + 1)) as [H2|H2].
      + (* k = s *)
        rewrite set_ignore_upd. rewrite (Hget (k + 1 - S s)%nat) by lia.
        rewrite (proj2 (Nat.ltb_ge _ _)) by lia. rewrite (proj2 (Nat.eqb_neq _ _)) by lia.
        rewrite shr_low_merge by auto.
        split; [rewrite !length_upd; auto|]. intros p Hp. rewrite !zget_upd, Hlen.
        destruct (Nat.eqb_spec (k + 1 - S s) p) as [<-|N1]; cbn [andb].
        * rewrite (proj2 (Nat.ltb_lt (k + 1 - S s) _)) by lia.
          rewrite (proj2 (Nat.ltb_ge _ _)) by lia. rewrite (proj2 (Nat.eqb_eq _ _)) by lia.
          do 3 f_equal. lia.
        * rewrite Hget by auto.
          destruct (Nat.ltb_spec (p + s + 1) k), (Nat.ltb_spec (p + s + 1) (S k)); try lia; auto.
          rewrite !(proj2 (Nat.eqb_neq _ _)) by lia. auto.
      + split; auto. intros p Hp. rewrite Hget by auto.
        destruct (Nat.ltb_spec (p + s + 1) k), (Nat.ltb_spec (p + s + 1) (S k)); try lia; auto.
        rewrite !(proj2 (Nat.eqb_neq _ _)) by lia. auto.
  Qed.

  Lemma shr_state_init l out0 : shr_state l out0 0 out0.
  Proof.
    split; auto. intros p Hp. rewrite (proj2 (Nat.ltb_ge _ _)) by lia.
    rewrite (proj2 (Nat.eqb_neq _ _)) by lia. auto.
  Qed.

  Definition shr_dig (l : nat -> Z) (p : nat) : Z := lR (l (p + s)%nat) + hR (l (p + s + 1)%nat).

  Lemma hR_scale v : 2 ^ Z.of_nat e * hR v = base w * (v mod 2 ^ Z.of_nat e).
  Proof.
    unfold hR. destruct (Nat.eqb_spec e 0) as [E|E].
    - rewrite E. simpl (2 ^ Z.of_nat 0). rewrite Z.mod_1_r. ring.
    - rewrite base_e. ring.
  Qed.

  Lemma shr_dig_sum l t :
    2 ^ Z.of_nat e * sumB (base w) (shr_dig l) t + l s mod 2 ^ Z.of_nat e =
    sumB (base w) (fun i => l (i + s)%nat) t + (l (t + s)%nat mod 2 ^ Z.of_nat e) * cap w t.
  Proof.
    induction t; cbn [sumB].
    - rewrite cap_0. cbn [Nat.add]. ring.
    - rewrite <- cap_pow, cap_S. unfold shr_dig at 2.
      replace (t + s + 1)%nat with (S t + s)%nat by lia.
      pose proof (hR_scale (l (S t + s)%nat)) as H1.
      pose proof (Z.div_mod (l (t + s)%nat) (2 ^ Z.of_nat e) ltac:(pose proof pe_pos; lia)) as H2.
      fold (lR (l (t + s)%nat)) in H2.
      rewrite Z.mul_add_distr_l.
      transitivity ((2 ^ Z.of_nat e * sumB (base w) (shr_dig l) t + l s mod 2 ^ Z.of_nat e) +
        (2 ^ Z.of_nat e * lR (l (t + s)%nat) + 2 ^ Z.of_nat e * hR (l (S t + s)%nat)) * cap w t); [ring|].
      rewrite IHt, H1. revert H2. generalize (lR (l (t + s)%nat)) (l (t + s)%nat mod 2 ^ Z.of_nat e).
      intros q m H2. rewrite H2. ring.
  Qed.

  Lemma shr_digits_val l : wf w l ->
    sumB (base w) (shr_dig (zget l)) (length l) = val w l / 2 ^ Z.of_nat r.
  Proof.
    intros Hl. pose proof (shr_dig_sum (zget l) (length l)) as H.
    rewrite (zget_oob l (length l + s)) in H by lia.
    pose proof pe_pos as Hpe. rewrite Z.mod_0_l, Z.mul_0_l, Z.add_0_r in H by lia.
    rewrite pow_r, <- Z.div_div by (pose proof (cap_pos w s); lia).
    assert (sumB (base w) (fun i => zget l (i + s)) (length l) = val w l / cap w s) as E.
    { destruct (Nat.le_gt_cases s (length l)).
      - rewrite <- val_skipn by auto. rewrite (val_sumB w (skipn s l) (length l)).
        + apply sumB_ext. intros. rewrite zget_skipn. f_equal. lia.
        + rewrite skipn_length. lia.
      - rewrite sumB_zero_ext by (intros; apply zget_oob; lia). symmetry. apply Z.div_small.
        pose proof (val_bound w l Hl). pose proof (cap_mono w (length l) s ltac:(lia)). lia. }
    rewrite <- E. apply (Z.div_unique_pos _ _ _ (zget l s mod 2 ^ Z.of_nat e)).
    - apply Z.mod_pos_bound; auto.
    - lia.
  Qed.

  Lemma shr_dig_range l p : wf w l -> 0 <= shr_dig (zget l) p < base w.
  Proof.
    intros Hl. unfold shr_dig.
    pose proof (lR_range _ (wf_zget w l (p + s) Hl)) as H1. rewrite base_e.
    pose proof pe_pos. pose proof pw_pos.
    unfold hR. destruct (Nat.eqb_spec e 0) as [E|E]; [nia|].
    pose proof (Z.mod_pos_bound (zget l (p + s + 1)) (2 ^ Z.of_nat e) ltac:(lia)). nia.
  Qed.

  Lemma shr_step_ok dbg out idx v : (dbg = false \/ s = 0%nat) ->
    shr_step dbg w r out idx v = Ok (shr_body out idx v).
  Proof.
    intros H. unfold shr_step, shr_body. rewrite arr_shift_s. unfold idx_sub, csub, elem_shift.
    fold e. destruct (Nat.eqb_spec idx 0) as [->|Hne]; cbn [bind].
    - change (Nat.leb (S s) 0) with false. cbv beta iota zeta.
      destruct (Nat.leb_spec (S s) (0 + 1)).
      + reflexivity.
      + destruct H as [->|H]; [reflexivity|lia].
    - destruct (Nat.leb_spec (S s) idx); cbn [bind].
      + rewrite (proj2 (Nat.leb_le (S s) (idx + 1))) by lia. reflexivity.
      + destruct H as [->|H]; [|lia]. cbn [bind]. destruct (Nat.leb (S s) (idx + 1)); reflexivity.
  Qed.

  Lemma elem_shr_spec dbg l : wf w l -> (0 < length l)%nat -> (dbg = false \/ s = 0%nat) ->
    exists out, elem_shr dbg w l r = Ok out /\ wf w out /\ canonical out /\
      val w out = val w l / 2 ^ Z.of_nat r.
  Proof.
    intros Hl Hne Hd. unfold elem_shr.
    destruct (foldR_seq0_ind (shr_state l (zeros (length l)))
      (fun out idx => shr_step dbg w r out idx (zget l idx)) (length l) (zeros (length l)))
      as (out & Eo & [Hlen Hget]).
    - apply shr_state_init.
    - intros k out Hk HS. eexists. split; [apply shr_step_ok; auto|].
      apply shr_state_step; auto using wf_zeros, length_zeros.
    - rewrite Eo. cbn [bind]. rewrite length_zeros in *.
      assert (forall p, (p < length l)%nat -> zget out p = shr_dig (zget l) p) as HD.
      { intros p Hp. rewrite Hget by auto. unfold shr_dig. rewrite zget_zeros, keep_0.
        destruct (Nat.ltb_spec (p + s + 1) (length l)); auto.
        rewrite (zget_oob l (p + s + 1)), hR_0 by lia.
        destruct (Nat.eqb_spec (p + s + 1) (length l)); [lia|].
        rewrite (zget_oob l (p + s)), lR_0 by lia. auto. }
      assert (wf w out) as Hwf.
      { apply wf_zget_iff. rewrite Hlen. intros. rewrite HD by auto. apply shr_dig_range; auto. }
      destruct (shrink_ok w out Hwf ltac:(lia)) as (o & E & Wo & Co & Vo).
      exists o. split; auto. split; auto. split; auto.
      rewrite Vo, val_sum, Hlen, (sumB_ext _ _ _ _ HD). apply shr_digits_val; auto.
  Qed.

  Lemma elem_shr_debug_panic l : (0 < length l)%nat -> (0 < s)%nat -> elem_shr true w l r = Panic.
  Proof.
    intros Hl Hs. unfold elem_shr. destruct (length l) as [|n] eqn:E; [lia|].
    cbn [seq foldR]. unfold shr_step at 1. rewrite arr_shift_s. cbn [Nat.eqb bind].
    unfold idx_sub. rewrite (proj2 (Nat.leb_gt (S s) (0 + 1))) by lia. reflexivity.
  Qed.

  (** In-place right shift: the top limb of the result keeps its old high bits. *)
  Definition shr_junk (l : list Z) : Z :=
    if Nat.ltb s (length l) then
      let t := (length l - 1 - s)%nat in keep (zget l t) * cap w t
    else 0.

  Lemma inner_shr_spec dbg l : wf w l ->
    if Nat.leb s (length l) && negb (dbg && Nat.eqb s (length l)) then
      exists out, inner_shr dbg w l r = Ok out /\ length out = length l /\ wf w out /\
        val w out = val w l / 2 ^ Z.of_nat r + shr_junk l
    else inner_shr dbg w l r = Panic.
  Proof.
    intros Hl. unfold inner_shr. rewrite arr_shift_s.
    match goal with |- context [fill_suffix ?t _] =>
      assert (shr_state l l (length l) t) as [Hlen Hget] end.
    { apply (fold_seq0_ind (shr_state l l)).
      - apply shr_state_init.
      - intros k out Hk HS. pose proof HS as [Hlen Hget].
        replace (shri_step w r out k) with (shr_body out k (zget l k)).
        + apply shr_state_step; auto.
        + unfold shri_step, shr_body. rewrite arr_shift_s. unfold elem_shift. fold e.
          replace (zget out k) with (zget l k); [reflexivity|].
          rewrite Hget by auto. rewrite (proj2 (Nat.ltb_ge _ _)) by lia.
          rewrite (proj2 (Nat.eqb_neq _ _)) by lia. auto. }
    match goal with |- context [fill_suffix ?t _] => set (out := t) in * end.
    rewrite Hlen. destruct (Nat.leb_spec s (length l)) as [Hs|Hs]; cbn [andb].
    - destruct (Nat.ltb_spec (length l) (S s)) as [H1|H1]; cbn [andb].
      + assert (s = length l) as Es by lia. rewrite Es, Nat.eqb_refl, andb_true_r.
        destruct dbg; cbn [negb]; auto.
        rewrite (proj2 (Nat.ltb_ge (length l + 1) _)) by lia.
        replace (length l + 1 - S (length l))%nat with 0%nat by lia.
        unfold fill_suffix. cbn [Nat.leb firstn app]. rewrite Nat.sub_0_r, Hlen.
        eexists. split; [reflexivity|]. rewrite length_zeros. split; auto.
        split; [apply wf_zeros|]. rewrite val_zeros. unfold shr_junk.
        rewrite (proj2 (Nat.ltb_ge _ _)) by lia. rewrite Z.add_0_r. symmetry. apply Z.div_small.
        rewrite pow_r, Es. pose proof (val_bound w l Hl). pose proof pe_pos.
        pose proof (cap_pos w (length l)). nia.
      + rewrite (proj2 (Nat.eqb_neq s (length l))) by lia. rewrite andb_false_r. cbn [negb].
        rewrite (proj2 (Nat.ltb_ge (length l + 1) _)) by lia.
        replace (length l + 1 - S s)%nat with (length l - s)%nat by lia.
        unfold fill_suffix. rewrite (proj2 (Nat.leb_le _ _)) by lia. rewrite Hlen.
        eexists. split; [reflexivity|].
        set (t := (length l - 1 - s)%nat).
        assert (length (firstn (length l - s) out ++ zeros (length l - (length l - s))) = length l) as Hlen'.
        { rewrite app_length, firstn_length, length_zeros. lia. }
        split; auto.
        assert (forall p, (p < length l)%nat ->
          zget (firstn (length l - s) out ++ zeros (length l - (length l - s))) p =
          shr_dig (zget l) p + if Nat.eqb p t then keep (zget l p) else 0) as HD.
        { intros p Hp. unfold shr_dig.
          destruct (Nat.lt_ge_cases p (length l - s)).
          - rewrite zget_app1 by (rewrite firstn_length; lia). rewrite zget_firstn by auto.
            rewrite Hget by auto. destruct (Nat.ltb_spec (p + s + 1) (length l)).
            + rewrite (proj2 (Nat.eqb_neq p t)) by lia. ring.
            + rewrite (proj2 (Nat.eqb_eq (p + s + 1) _)) by lia.
              rewrite (proj2 (Nat.eqb_eq p t)) by lia.
              rewrite (zget_oob l (p + s + 1)), hR_0 by lia. ring.
          - rewrite zget_app2 by (rewrite firstn_length; lia). rewrite zget_zeros.
            rewrite (proj2 (Nat.eqb_neq p t)) by lia.
            rewrite (zget_oob l (p + s + 1)), (zget_oob l (p + s)), hR_0, lR_0 by lia. auto. }
        split.
        * apply wf_zget_iff. rewrite Hlen'. intros p Hp. rewrite HD by auto.
          destruct (Nat.eqb_spec p t) as [->|Hne].
          -- (* keep + lR *)
             pose proof (wf_zget w l t Hl) as Hlt. unfold shr_dig.
             rewrite (zget_oob l (t + s + 1)), hR_0 by lia.
             pose proof (lR_range _ (wf_zget w l (t + s) Hl)) as H2.
             rewrite keep_form by auto. rewrite base_e in *.
             pose proof pe_pos. pose proof pw_pos.
             assert (zget l t / 2 ^ Z.of_nat (w - e) < 2 ^ Z.of_nat e).
             { apply Z.div_lt_upper_bound; lia. }
             assert (0 <= zget l t / 2 ^ Z.of_nat (w - e)) by (apply Z.div_pos; lia). nia.
          -- rewrite Z.add_0_r. apply shr_dig_range; auto.
        * rewrite val_sum, Hlen', (sumB_ext _ _ _ _ HD), sumB_add, shr_digits_val by auto.
          f_equal. unfold shr_junk. rewrite (proj2 (Nat.ltb_lt _ _)) by lia.
          fold t. cbv zeta.
          assert (t < length l)%nat as Ht by lia. revert Ht. generalize (length l) as n.
          induction n; intros Ht; [lia|]. cbn [sumB].
          destruct (Nat.eq_dec t n) as [<-|Hne].
          -- rewrite Nat.eqb_refl, sumB_zero_ext, cap_pow; [ring|].
             intros i Hi. rewrite (proj2 (Nat.eqb_neq i t)) by lia. auto.
          -- rewrite IHn by lia. rewrite (proj2 (Nat.eqb_neq n t)) by lia. ring.
    - rewrite (proj2 (Nat.ltb_lt (length l) (S s))) by lia.
      destruct dbg; cbn [andb]; auto. rewrite (proj2 (Nat.ltb_lt _ _)) by lia. auto.
  Qed.
End Shift.
