(** The order [BigInt::cmp] really computes: by sign, then number of limbs, then limbs from the low
    end.  Proofs for C47 and C126. *)
From Coq Require Import ZArith List Bool Lia.
From Verif Require Import Base Words Spec Arith BitSliceModel BitSliceProofs ElementModel
  BitwiseModel ElemAddSub ElemMul ElemShift BitwiseProofs InternModel InternProofs BigIntModel BigIntSpec
  BigIntProofs BigIntOps.
Import ListNotations.
Local Open Scope Z_scope.

Definition mcmp (l m : list Z) : comparison :=
  if negb (Nat.eqb (length l) (length m)) then Nat.compare (length l) (length m) else low_first l m.
Definition gcmp (s : bool) (l : list Z) (t : bool) (m : list Z) : comparison :=
  match s, t with
  | true, false => Lt
  | false, true => Gt
  | _, _ => if s then CompOpp (mcmp l m) else mcmp l m
  end.

Lemma mcmp_refl l : mcmp l l = Eq.
Proof. unfold mcmp. rewrite Nat.eqb_refl. apply low_first_refl. Qed.

Lemma bi_cmp_gcmp P st hs a b x y : consistent P st hs -> In a hs -> In b hs -> denotes st a x -> denotes st b y ->
  a <> neg_zero -> b <> neg_zero ->
  exists la lb, wf 64 la /\ canonical la /\ val 64 la = Z.abs x /\ wf 64 lb /\ canonical lb /\ val 64 lb = Z.abs y /\
    bi_cmp st a b = Ok (gcmp (x <? 0) la (y <? 0) lb).
Proof.
  intros Hc Ha Hb Hx Hy Na Nb.
  destruct (info _ _ _ _ _ Hc Ha Hx) as (la & Sa & Wa & Ca & La & Va & Pa & Qa & Oa).
  destruct (info _ _ _ _ _ Hc Hb Hy) as (lb & Sb & Wb & Cb & Lb & Vb & Pb & Qb & Ob).
  specialize (Oa Na). specialize (Ob Nb). exists la, lb.
  do 6 (split; [assumption|]).
  unfold bi_cmp. destruct (Z.eqb_spec a b) as [->|Hne].
  { assert (x = y) as -> by (eapply denotes_fun; eauto).
    assert (la = lb) as -> by (apply (canonical_inj 64); auto; congruence).
    unfold gcmp. rewrite mcmp_refl. destruct (y <? 0); auto. }
  rewrite !is_positive_neg, !is_negative_odd, Oa, Ob.
  destruct (x <? 0), (y <? 0); cbn [negb andb gcmp]; auto;
    destruct Sa as (Sa & _); destruct Sb as (Sb & _); rewrite Sa, Sb; reflexivity.
Qed.

Lemma low_first_antisym : forall l m, low_first m l = CompOpp (low_first l m).
Proof.
  induction l as [|x l IH]; intros [|y m]; cbn [low_first CompOpp]; auto.
  rewrite (Z.compare_antisym x y). destruct (x ?= y); cbn; auto.
Qed.

Lemma low_first_eq : forall l m, length l = length m -> low_first l m = Eq -> l = m.
Proof.
  induction l as [|x l IH]; intros [|y m] H E; try discriminate; auto.
  cbn [low_first] in E. destruct (Z.compare_spec x y); try discriminate. subst. f_equal. apply IH; auto.
Qed.

Lemma low_first_trans : forall l m n, length l = length m -> length m = length n ->
  low_first l m = Lt -> low_first m n = Lt -> low_first l n = Lt.
Proof.
  induction l as [|x l IH]; intros [|y m] [|z n] H1 H2 A B; try discriminate.
  cbn [low_first] in *. destruct (Z.compare_spec x y), (Z.compare_spec y z); try discriminate; subst.
  - rewrite Z.compare_refl. apply (IH m); auto.
  - rewrite (proj2 (Z.compare_lt_iff y z)); auto.
  - rewrite (proj2 (Z.compare_lt_iff x z)); auto.
  - rewrite (proj2 (Z.compare_lt_iff x z)); auto; lia.
Qed.

Lemma mcmp_antisym l m : mcmp m l = CompOpp (mcmp l m).
Proof.
  unfold mcmp. rewrite (Nat.eqb_sym (length m)). destruct (Nat.eqb (length l) (length m)); cbn [negb].
  - apply low_first_antisym.
  - apply Nat.compare_antisym.
Qed.

Lemma mcmp_eq l m : mcmp l m = Eq -> l = m.
Proof.
  unfold mcmp. destruct (Nat.eqb_spec (length l) (length m)); cbn [negb].
  - apply low_first_eq; auto.
  - intros H. apply Nat.compare_eq in H. contradiction.
Qed.

Lemma mcmp_trans l m n : mcmp l m = Lt -> mcmp m n = Lt -> mcmp l n = Lt.
Proof.
  unfold mcmp. destruct (Nat.eqb_spec (length l) (length m)), (Nat.eqb_spec (length m) (length n)); cbn [negb]; intros A B.
  - rewrite (proj2 (Nat.eqb_eq _ _)) by congruence. cbn. eapply low_first_trans; eauto.
  - rewrite e, (proj2 (Nat.eqb_neq _ _)) by auto. auto.
  - rewrite <- e, (proj2 (Nat.eqb_neq _ _)) by auto. auto.
  - apply Nat.compare_lt_iff in A, B. rewrite (proj2 (Nat.eqb_neq _ _)) by lia. apply Nat.compare_lt_iff. lia.
Qed.

Lemma gcmp_antisym s l t m : gcmp t m s l = CompOpp (gcmp s l t m).
Proof. unfold gcmp. rewrite (mcmp_antisym l m). destruct s, t; cbn; auto. Qed.
Lemma gcmp_eq s l t m : gcmp s l t m = Eq <-> s = t /\ l = m.
Proof.
  split.
  - unfold gcmp. destruct s, t; intros H; try discriminate; split; auto; apply mcmp_eq; auto.
    destruct (mcmp l m); auto; discriminate.
  - intros [<- <-]. unfold gcmp. rewrite mcmp_refl. destruct s; auto.
Qed.
Lemma gcmp_trans s l t m u n : gcmp s l t m = Lt -> gcmp t m u n = Lt -> gcmp s l u n = Lt.
Proof.
  unfold gcmp. destruct s, t, u; intros A B; try discriminate; auto.
  - rewrite <- mcmp_antisym in *. eapply mcmp_trans; eauto.
  - eapply mcmp_trans; eauto.
Qed.

(** Limb [k] of [n] is [n / 2^(64 k) mod 2^64]. *)
Lemma low_first_lt : forall l m, wf 64 l -> wf 64 m -> length l = length m ->
  (low_first l m = Lt <-> exists k, 0 <= k /\ val 64 l mod 2 ^ (64 * k) = val 64 m mod 2 ^ (64 * k) /\
    (val 64 l / 2 ^ (64 * k)) mod 2 ^ 64 < (val 64 m / 2 ^ (64 * k)) mod 2 ^ 64).
Proof.
  induction l as [|x l IH]; intros [|y m] Hl Hm H; try discriminate.
  - split; [discriminate|]. intros (k & _ & _ & Hk). lia.
  - inversion Hl; subst. inversion Hm; subst. rename H2 into Wx, H3 into Wl, H4 into Wy, H5 into Wm.
    injection H as Hlen. specialize (IH m Wl Wm Hlen). cbn [low_first]. rewrite !val_cons.
    change (base 64) with (2 ^ 64) in *.
    assert (forall a v, 0 <= a < 2 ^ 64 -> (a + 2 ^ 64 * v) mod 2 ^ 64 = a) as Hlow.
    { intros a v Ha. rewrite Z.mul_comm, Z.mod_add by lia. apply Z.mod_small. auto. }
    assert (forall a v k, 0 <= a < 2 ^ 64 -> 0 <= k -> (a + 2 ^ 64 * v) / 2 ^ (64 * (k + 1)) = v / 2 ^ (64 * k)) as Hdiv.
    { intros a v k Ha Hk. replace (64 * (k + 1)) with (64 + 64 * k) by ring. rewrite Z.pow_add_r by lia.
      rewrite <- Z.div_div by (try apply Z.pow_pos_nonneg; lia).
      rewrite (Z.mul_comm (2 ^ 64) v), Z.div_add by lia. rewrite (Z.div_small a) by auto. auto. }
    assert (forall a v k, 0 <= a < 2 ^ 64 -> 0 <= k -> (a + 2 ^ 64 * v) mod 2 ^ (64 * (k + 1)) = a + 2 ^ 64 * (v mod 2 ^ (64 * k))) as Hmod.
    { intros a v k Ha Hk. rewrite Z.mod_eq by (apply Z.pow_nonzero; lia). rewrite Hdiv by auto.
      rewrite (Z.mod_eq v) by (apply Z.pow_nonzero; lia).
      replace (64 * (k + 1)) with (64 + 64 * k) by ring. rewrite Z.pow_add_r by lia. ring. }
    destruct (Z.compare_spec x y) as [E|E|E].
    + subst y. rewrite IH. split.
      * intros (k & Hk & A & B). exists (k + 1). split; [lia|]. rewrite !Hmod, !Hdiv by auto. rewrite A. auto.
      * intros (k & Hk & A & B). destruct (Z.eq_dec k 0) as [->|Nk].
        { rewrite Z.mul_0_r, Z.pow_0_r, !Z.div_1_r in B. rewrite !Hlow in B by auto. lia. }
        replace k with ((k - 1) + 1) in A, B by ring. rewrite !Hmod in A by (auto; lia). rewrite !Hdiv in B by (auto; lia).
        exists (k - 1). split; [lia|]. split; [nia|auto].
    + split; auto. intros _. exists 0. split; [lia|]. rewrite Z.mul_0_r, Z.pow_0_r, !Z.mod_1_r, !Z.div_1_r.
      rewrite !Hlow by auto. auto.
    + split; [discriminate|]. intros (k & Hk & A & B). exfalso. destruct (Z.eq_dec k 0) as [->|Nk].
      { rewrite Z.mul_0_r, Z.pow_0_r, !Z.div_1_r in B. rewrite !Hlow in B by auto. lia. }
      replace k with ((k - 1) + 1) in A by ring. rewrite !Hmod in A by (auto; lia). 
      assert ((x + 2 ^ 64 * (val 64 l mod 2 ^ (64 * (k - 1)))) mod 2 ^ 64 = (y + 2 ^ 64 * (val 64 m mod 2 ^ (64 * (k - 1)))) mod 2 ^ 64) as Q by congruence.
      rewrite !Hlow in Q by auto. lia.
Qed.
