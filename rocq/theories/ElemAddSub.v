(** Proofs: widening multiplication, limb addition, subtraction, comparison, bit operators. *)
From Coq Require Import ZArith List Bool Lia.
From Verif Require Import Base Words Spec Arith BitSliceModel BitSliceProofs ElementModel.
Import ListNotations.
Local Open Scope Z_scope.

(** ** widening_mul *)

Lemma base_double w : base (2 * w) = base w * base w.
Proof.
  unfold base. replace (Z.of_nat (2 * w)) with (Z.of_nat w + Z.of_nat w) by lia.
  apply Z.pow_add_r; lia.
Qed.

Lemma wide_bound b l r a : 0 <= l < b -> 0 <= r < b -> 0 <= a < b -> 0 <= l * r + a < b * b.
Proof. nia. Qed.

Lemma widening_wide_spec w l r a : 0 <= l < base w -> 0 <= r < base w -> 0 <= a < base w ->
  forall lo hi, widening_wide w l r a = (lo, hi) ->
  lo + base w * hi = l * r + a /\ 0 <= lo < base w /\ 0 <= hi < base w.
Proof.
  intros Hl Hr Ha lo hi E. unfold widening_wide in E. cbv zeta in E. rewrite base_double in E.
  apply pair_equal_spec in E. destruct E as [<- <-].
  pose proof (base_pos w). set (b := base w) in *.
  pose proof (wide_bound b l r a Hl Hr Ha).
  rewrite (Z.mod_small (l * r)) by nia. rewrite (Z.mod_small (l * r + a)) by lia.
  rewrite Z.shiftr_div_pow2 by lia. fold (base w). fold b.
  assert (0 <= (l * r + a) / b < b) as Hh.
  { split; [apply Z.div_pos; lia|]. apply Z.div_lt_upper_bound; lia. }
  rewrite (Z.mod_small ((l * r + a) / b)) by auto.
  pose proof (Z.mod_pos_bound (l * r + a) b ltac:(lia)).
  pose proof (Z.div_mod (l * r + a) b ltac:(lia)). lia.
Qed.

Lemma mul_pow_split H t : 0 < H -> 0 <= t ->
  t * H = (t * H) mod (H * H) + H * H * (t / H).
Proof.
  intros. rewrite Z.mul_mod_distr_r by lia. pose proof (Z.div_mod t H ltac:(lia)). nia.
Qed.

Lemma widening_split_spec h l r a : let w := (2 * h)%nat in
  0 <= l < base w -> 0 <= r < base w -> 0 <= a < base w ->
  forall lo hi, widening_split h l r a = (lo, hi) ->
  lo + base w * hi = l * r + a /\ 0 <= lo < base w /\ 0 <= hi < base w.
Proof.
  intros w Hl Hr Ha lo hi E. unfold widening_split in E. fold w in E.
  assert (base w = base h * base h) as HB by apply base_double.
  pose proof (base_pos h) as Hh. set (H := base h) in *.
  assert (wshr (wmax w) h = H - 1) as Em.
  { rewrite wshr_div. fold (base h). fold H. unfold wmax. rewrite HB.
    symmetry. apply (Z.div_unique_pos _ _ _ (H - 1)); lia. }
  rewrite Em in E.
  assert (forall x, Z.land x (H - 1) = x mod H) as Eland.
  { intros. unfold H, base. replace (2 ^ Z.of_nat h - 1) with (Z.ones (Z.of_nat h)).
    - apply Z.land_ones. lia. - rewrite Z.ones_equiv. lia. }
  rewrite !Eland, !wshr_div in E. fold (base h) in E. fold H in E.
  pose proof (Z.mod_pos_bound l H Hh) as Hll. pose proof (Z.mod_pos_bound r H Hh) as Hrl.
  pose proof (Z.div_mod l H ltac:(lia)) as Dl. pose proof (Z.div_mod r H ltac:(lia)) as Dr.
  assert (0 <= l / H < H) as Hlh.
  { split; [apply Z.div_pos; lia|apply Z.div_lt_upper_bound; lia]. }
  assert (0 <= r / H < H) as Hrh.
  { split; [apply Z.div_pos; lia|apply Z.div_lt_upper_bound; lia]. }
  set (ll := l mod H) in *. set (rl := r mod H) in *.
  set (lh := l / H) in *. set (rh := r / H) in *.
  assert (forall x y, 0 <= x < H -> 0 <= y < H -> 0 <= x * y < H * H) as Hprod by (intros; nia).
  rewrite !(Z.mod_small (_ * _) (base w)) in E by (rewrite HB; apply Hprod; auto).
  rewrite !wshl_mul in E. fold (base h) in E. fold H in E. rewrite HB in E.
  pose proof (Hprod ll rl Hll Hrl) as B0. pose proof (Hprod ll rh Hll Hrh) as B1.
  pose proof (Hprod lh rl Hlh Hrl) as B2. pose proof (Hprod lh rh Hlh Hrh) as B3.
  set (t0 := ll * rl) in *. set (t1 := ll * rh) in *. set (t2 := lh * rl) in *.
  set (t3 := lh * rh) in *.
  pose proof (mul_pow_split H t1 Hh ltac:(lia)) as S1.
  pose proof (mul_pow_split H t2 Hh ltac:(lia)) as S2.
  pose proof (Z.mod_pos_bound (t1 * H) (H * H) ltac:(lia)) as M1.
  pose proof (Z.mod_pos_bound (t2 * H) (H * H) ltac:(lia)) as M2.
  set (m1 := (t1 * H) mod (H * H)) in *. set (m2 := (t2 * H) mod (H * H)) in *.
  assert (0 <= t1 / H) as D1 by (apply Z.div_pos; lia).
  assert (0 <= t2 / H) as D2 by (apply Z.div_pos; lia).
  set (d1 := t1 / H) in *. set (d2 := t2 / H) in *.
  rewrite <- HB in M1, M2.
  destruct (wadd_ov w t0 m1) as [s0 c0] eqn:E0.
  apply wadd_ov_spec in E0; [|lia|lia]. destruct E0 as [E0 R0].
  destruct (wadd_ov w s0 m2) as [s1 c1] eqn:E1.
  apply wadd_ov_spec in E1; [|lia|lia]. destruct E1 as [E1 R1].
  destruct (wadd_ov w s1 a) as [s2 c2] eqn:E2.
  apply wadd_ov_spec in E2; [|lia|lia]. destruct E2 as [E2 R2].
  pose proof (wide_bound (base w) l r a Hl Hr Ha) as Htot.
  assert (l * r = t0 + H * (t1 + t2) + H * H * t3) as Elr.
  { unfold t0, t1, t2, t3. rewrite Dl, Dr at 1. ring. }
  set (hi' := t3 + d1 + d2 + Z.b2z c0 + Z.b2z c1 + Z.b2z c2).
  assert (s2 + base w * hi' = l * r + a) as Etot.
  { unfold hi'. rewrite Elr. rewrite HB in *. nia. }
  assert (0 <= Z.b2z c0) by (destruct c0; simpl; lia).
  assert (0 <= Z.b2z c1) by (destruct c1; simpl; lia).
  assert (0 <= Z.b2z c2) by (destruct c2; simpl; lia).
  assert (hi' < base w) as Hhi.
  { apply (Z.mul_lt_mono_pos_l (base w)); [apply base_pos|]. lia. }
  unfold hi' in Hhi.
  rewrite <- HB in E.
  rewrite (Z.mod_small (t3 + d1)) in E by lia.
  rewrite (Z.mod_small (t3 + d1 + d2)) in E by lia.
  rewrite (Z.mod_small (t3 + d1 + d2 + Z.b2z c0)) in E by lia.
  rewrite (Z.mod_small (t3 + d1 + d2 + Z.b2z c0 + Z.b2z c1)) in E by lia.
  rewrite (Z.mod_small (t3 + d1 + d2 + Z.b2z c0 + Z.b2z c1 + Z.b2z c2)) in E by lia.
  apply pair_equal_spec in E. destruct E as [<- <-]. fold hi'. split; [exact Etot|]. split; [lia|]. unfold hi'. lia.
Qed.

Lemma widening_mul_spec w l r a : 0 <= l < base w -> 0 <= r < base w -> 0 <= a < base w ->
  forall lo hi, widening_mul w l r a = (lo, hi) ->
  lo + base w * hi = l * r + a /\ 0 <= lo < base w /\ 0 <= hi < base w.
Proof.
  intros Hl Hr Ha lo hi. unfold widening_mul. destruct (Nat.eqb_spec w 128) as [E|].
  - change 128%nat with (2 * 64)%nat in E. subst w. apply widening_split_spec; auto.
  - apply widening_wide_spec; auto.
Qed.

(** ** Carry chains *)

Lemma b2z_range b : 0 <= Z.b2z b <= 1.
Proof. destruct b; simpl; lia. Qed.

Lemma add_step_spec w l r c : (0 < w)%nat -> 0 <= l < base w -> 0 <= r < base w ->
  let '(x, c') := add_step w l r c in
  x + base w * Z.b2z c' = l + r + Z.b2z c /\ 0 <= x < base w.
Proof.
  intros Hw Hl Hr. pose proof (base_ge2 w Hw). unfold add_step.
  assert (0 <= (if c then 1 else 0) < base w) as Hc by (destruct c; lia).
  destruct (wadd_ov w l (if c then 1 else 0)) as [r1 c1] eqn:E1.
  apply wadd_ov_spec in E1; [|lia|lia]. destruct E1 as [E1 R1].
  destruct (wadd_ov w r1 r) as [r2 c2] eqn:E2.
  apply wadd_ov_spec in E2; [|lia|lia]. destruct E2 as [E2 R2].
  split; [|lia]. replace (Z.b2z c) with (if c then 1 else 0) by (destruct c; reflexivity).
  destruct c1, c2; simpl Z.b2z in *; try lia.
  (* both carries cannot occur *) destruct c; lia.
Qed.

Lemma sub_step_spec w l r c : (0 < w)%nat -> 0 <= l < base w -> 0 <= r < base w ->
  let '(x, c') := sub_step w l r c in
  x - base w * Z.b2z c' = l - r - Z.b2z c /\ 0 <= x < base w.
Proof.
  intros Hw Hl Hr. pose proof (base_ge2 w Hw). unfold sub_step.
  assert (0 <= (if c then 1 else 0) < base w) as Hc by (destruct c; lia).
  destruct (wsub_ov w l r) as [r1 c1] eqn:E1.
  apply wsub_ov_spec in E1; [|lia|lia]. destruct E1 as [E1 R1].
  destruct (wsub_ov w r1 (if c then 1 else 0)) as [r2 c2] eqn:E2.
  apply wsub_ov_spec in E2; [|lia|lia]. destruct E2 as [E2 R2].
  split; [|lia]. replace (Z.b2z c) with (if c then 1 else 0) by (destruct c; reflexivity).
  destruct c1, c2; simpl Z.b2z in *; try lia.
  destruct c; lia.
Qed.

Section Chain.
  Variable step : Z -> nat -> bool -> Z * bool.
  Variable o0 : list Z.

  Fixpoint car (n : nat) : bool :=
    match n with O => false | S n' => snd (step (zget o0 n') n' (car n')) end.
  Definition dig (n : nat) : Z := fst (step (zget o0 n) n (car n)).

  Lemma chain_loop n :
    let st := fold_left (fun '(o, c) idx =>
        let '(x, c') := step (zget o idx) idx c in (set_ignore o idx x, c'))
      (seq 0 n) (o0, false) in
    snd st = car n /\ length (fst st) = length o0 /\
    forall i, zget (fst st) i = if Nat.ltb i n && Nat.ltb i (length o0) then dig i else zget o0 i.
  Proof.
    cbv zeta.
    apply (fold_seq0_ind (fun k st => snd st = car k /\ length (fst st) = length o0 /\
      forall i, zget (fst st) i =
        if Nat.ltb i k && Nat.ltb i (length o0) then dig i else zget o0 i)).
    - cbn [fst snd car]. split; auto.
    - intros k [o c] Hk (Hc & Hlen & Hget). cbn [fst snd] in *.
      assert (zget o k = zget o0 k) as Ek.
      { rewrite Hget, Nat.ltb_irrefl. auto. }
      rewrite Ek, Hc. destruct (step (zget o0 k) k (car k)) as [x c'] eqn:Es.
      cbn [fst snd car]. rewrite Es. split; auto.
      rewrite set_ignore_upd, length_upd. split; auto.
      intros i. rewrite zget_upd, Hlen.
      destruct (Nat.eqb_spec k i) as [<-|Hne].
      + cbn [andb]. rewrite (proj2 (Nat.ltb_lt k (S k))) by lia. cbn [andb].
        destruct (Nat.ltb_spec k (length o0)).
        * unfold dig. rewrite Es. reflexivity.
        * rewrite Ek. reflexivity.
      + cbn [andb]. rewrite Hget.
        destruct (Nat.ltb_spec i k), (Nat.ltb_spec i (S k)); try lia; auto.
  Qed.
End Chain.

Lemma chain_add w (Hw : (0 < w)%nat) (l r : nat -> Z) step o0 :
  (forall i, 0 <= l i < base w) -> (forall i, 0 <= r i < base w) ->
  (forall i c, step (zget o0 i) i c = add_step w (l i) (r i) c) ->
  forall n, sumB (base w) (dig step o0) n + Z.b2z (car step o0 n) * base w ^ Z.of_nat n =
            sumB (base w) l n + sumB (base w) r n.
Proof.
  intros Hl Hr Hs. induction n; cbn [sumB].
  - reflexivity.
  - unfold dig at 2. cbn [car]. rewrite Hs.
    pose proof (add_step_spec w (l n) (r n) (car step o0 n) Hw (Hl n) (Hr n)) as H.
    destruct (add_step w (l n) (r n) (car step o0 n)) as [x c']. cbn [fst snd].
    destruct H as [H _]. rewrite Nat2Z.inj_succ, Z.pow_succ_r by lia. nia.
Qed.

Lemma chain_add_dig w (Hw : (0 < w)%nat) (l r : nat -> Z) step o0 :
  (forall i, 0 <= l i < base w) -> (forall i, 0 <= r i < base w) ->
  (forall i c, step (zget o0 i) i c = add_step w (l i) (r i) c) ->
  forall n, 0 <= dig step o0 n < base w.
Proof.
  intros Hl Hr Hs n. unfold dig. rewrite Hs.
  pose proof (add_step_spec w (l n) (r n) (car step o0 n) Hw (Hl n) (Hr n)) as H.
  destruct (add_step _ _ _ _). tauto.
Qed.

Lemma chain_sub w (Hw : (0 < w)%nat) (l r : nat -> Z) step o0 :
  (forall i, 0 <= l i < base w) -> (forall i, 0 <= r i < base w) ->
  (forall i c, step (zget o0 i) i c = sub_step w (l i) (r i) c) ->
  forall n, sumB (base w) (dig step o0) n - Z.b2z (car step o0 n) * base w ^ Z.of_nat n =
            sumB (base w) l n - sumB (base w) r n.
Proof.
  intros Hl Hr Hs. induction n; cbn [sumB].
  - reflexivity.
  - unfold dig at 2. cbn [car]. rewrite Hs.
    pose proof (sub_step_spec w (l n) (r n) (car step o0 n) Hw (Hl n) (Hr n)) as H.
    destruct (sub_step w (l n) (r n) (car step o0 n)) as [x c']. cbn [fst snd].
    destruct H as [H _]. rewrite Nat2Z.inj_succ, Z.pow_succ_r by lia. nia.
Qed.

Lemma chain_sub_dig w (Hw : (0 < w)%nat) (l r : nat -> Z) step o0 :
  (forall i, 0 <= l i < base w) -> (forall i, 0 <= r i < base w) ->
  (forall i c, step (zget o0 i) i c = sub_step w (l i) (r i) c) ->
  forall n, 0 <= dig step o0 n < base w.
Proof.
  intros Hl Hr Hs n. unfold dig. rewrite Hs.
  pose proof (sub_step_spec w (l n) (r n) (car step o0 n) Hw (Hl n) (Hr n)) as H.
  destruct (sub_step _ _ _ _). tauto.
Qed.

(** ** Addition *)

Lemma elem_add_loop_spec w l r n : (0 < w)%nat -> wf w l -> wf w r ->
  let '(out, c) := elem_add_loop w l r n (zeros n) in
  length out = n /\ wf w out /\
  val w out + Z.b2z c * cap w n = sumB (base w) (zget l) n + sumB (base w) (zget r) n.
Proof.
  intros Hw Hl Hr. unfold elem_add_loop.
  set (step := fun (_ : Z) idx c => add_step w (zget l idx) (zget r idx) c).
  pose proof (chain_loop step (zeros n) n) as H. cbv zeta in H. unfold step at 1 2 3 in H.
  destruct (fold_left _ (seq 0 n) (zeros n, false)) as [out c].
  cbn [fst snd] in H. destruct H as (Hc & Hlen & Hget).
  rewrite length_zeros in *.
  assert (Hdig : forall i, 0 <= dig step (zeros n) i < base w).
  { apply (chain_add_dig w Hw (zget l) (zget r)); auto using wf_zget. }
  assert (Hout : forall i, (i < n)%nat -> zget out i = dig step (zeros n) i).
  { intros. rewrite Hget. rewrite (proj2 (Nat.ltb_lt _ _)) by auto. reflexivity. }
  split; auto. split.
  - apply wf_zget_iff. rewrite Hlen. intros. rewrite Hout by auto. auto.
  - rewrite val_sum, Hlen. rewrite (sumB_ext _ _ _ n Hout), Hc, cap_pow.
    apply chain_add; auto using wf_zget.
Qed.

Lemma sumB_max w l r : sumB (base w) (zget l) (Nat.max (length l) (length r)) = val w l /\
  sumB (base w) (zget r) (Nat.max (length l) (length r)) = val w r.
Proof. split; symmetry; apply val_sumB; lia. Qed.

Lemma elem_add_spec w l r : (0 < w)%nat -> wf w l -> wf w r ->
  exists out, elem_add w l r = Ok out /\ wf w out /\ canonical out /\
    val w out = val w l + val w r.
Proof.
  intros Hw Hl Hr. unfold elem_add. set (len := Nat.max (length l) (length r)).
  pose proof (elem_add_loop_spec w l r (len + 1) Hw Hl Hr) as H.
  destruct (elem_add_loop w l r (len + 1) (zeros (len + 1))) as [out c].
  destruct H as (Hlen & Hwf & Hval). cbn [fst].
  rewrite <- !val_sumB in Hval by lia.
  pose proof (val_bound w l Hl). pose proof (val_bound w r Hr).
  pose proof (cap_mono w (length l) len ltac:(lia)). pose proof (cap_mono w (length r) len ltac:(lia)).
  assert (c = false) as ->.
  { destruct c; auto. exfalso. simpl Z.b2z in Hval. rewrite Nat.add_1_r, cap_S in Hval.
    pose proof (base_ge2 w Hw). pose proof (val_nonneg w out Hwf). nia. }
  destruct (shrink_ok w out Hwf ltac:(lia)) as (o & Eo & Wo & Co & Vo).
  exists o. split; auto. split; auto. split; auto. rewrite Vo. simpl Z.b2z in Hval. lia.
Qed.

Lemma elem_add_overflowing_digits w l r : (0 < w)%nat -> wf w l -> wf w r ->
  let '(out, c) := elem_add_overflowing w l r in
  length out = length l /\ wf w out /\
  exists full, length full = Nat.max (length l) (length r) /\ wf w full /\
    out = firstn (length l) full /\
    val w full + Z.b2z c * cap w (Nat.max (length l) (length r)) = val w l + val w r.
Proof.
  intros Hw Hl Hr. unfold elem_add_overflowing. set (len := Nat.max (length l) (length r)).
  set (step := fun (x : Z) idx c => add_step w x (zget r idx) c).
  pose proof (chain_loop step l len) as H. cbv zeta in H. unfold step at 1 2 3 in H.
  destruct (fold_left _ (seq 0 len) (l, false)) as [out c].
  cbn [fst snd] in H. destruct H as (Hc & Hlen & Hget).
  assert (Hdig : forall i, 0 <= dig step l i < base w).
  { apply (chain_add_dig w Hw (zget l) (zget r)); auto using wf_zget. }
  assert (Hout : forall i, (i < length l)%nat -> zget out i = dig step l i).
  { intros. rewrite Hget. rewrite !(proj2 (Nat.ltb_lt _ _)) by lia. reflexivity. }
  assert (Hwf : wf w out).
  { apply wf_zget_iff. rewrite Hlen. intros. rewrite Hout by auto. auto. }
  split; auto. split; auto.
  exists (map (dig step l) (seq 0 len)). rewrite map_length, seq_length. split; auto.
  assert (wf w (map (dig step l) (seq 0 len))) as Hwf2.
  { apply wf_zget_iff. rewrite map_length, seq_length. intros.
    rewrite zget_map_seq by auto. auto. }
  split; auto. split.
  - apply zget_ext.
    + rewrite firstn_length, map_length, seq_length. lia.
    + rewrite Hlen. intros. rewrite zget_firstn by auto. rewrite zget_map_seq by lia. auto.
  - destruct (sumB_max w l r) as [E1 E2]. fold len in E1, E2. rewrite <- E1, <- E2.
    rewrite <- (chain_add w Hw (zget l) (zget r) step l); auto using wf_zget.
    rewrite val_sum, map_length, seq_length, Hc, cap_pow. f_equal.
    apply sumB_ext. intros. apply zget_map_seq. auto.
Qed.

Lemma elem_add_overflowing_spec w l r : (0 < w)%nat -> wf w l -> wf w r ->
  (length r <= length l)%nat ->
  let '(out, c) := elem_add_overflowing w l r in
  length out = length l /\ wf w out /\
  val w out = (val w l + val w r) mod cap w (length l) /\
  (c = true <-> cap w (length l) <= val w l + val w r).
Proof.
  intros Hw Hl Hr Hlen. pose proof (elem_add_overflowing_digits w l r Hw Hl Hr) as H.
  destruct (elem_add_overflowing w l r) as [out c].
  destruct H as (H1 & H2 & full & Hf1 & Hf2 & -> & Hv).
  rewrite Nat.max_l in * by lia. rewrite firstn_all2 in * by lia.
  split; auto. split; auto.
  pose proof (val_bound w full Hf2). rewrite Hf1 in H. split.
  - rewrite <- Hv. rewrite Z_mod_plus_full, Z.mod_small; auto.
  - destruct c; simpl Z.b2z in Hv; split; intros; try lia; congruence.
Qed.

(** ** Not *)

Lemma length_elem_not w l : length (elem_not w l) = length l.
Proof. apply map_length. Qed.

Lemma wf_elem_not w l : wf w (elem_not w l).
Proof. induction l; constructor; auto. apply wnot_range. Qed.

Lemma val_elem_not w l : wf w l -> val w (elem_not w l) = cap w (length l) - 1 - val w l.
Proof.
  induction l; intros H; cbn [elem_not map length].
  - rewrite cap_0. reflexivity.
  - apply wf_cons in H. destruct H as [Ha Hl].
    fold (elem_not w l). rewrite !val_cons, IHl, wnot_spec, cap_S by auto. ring.
Qed.

(** ** Subtraction *)

Lemma elem_sub_loop_spec w l r n : (0 < w)%nat -> wf w l -> wf w r ->
  let '(out, c) := elem_sub_loop w l r n (zeros n) in
  length out = n /\ wf w out /\
  val w out - Z.b2z c * cap w n = sumB (base w) (zget l) n - sumB (base w) (zget r) n.
Proof.
  intros Hw Hl Hr. unfold elem_sub_loop.
  set (step := fun (_ : Z) idx c => sub_step w (zget l idx) (zget r idx) c).
  pose proof (chain_loop step (zeros n) n) as H. cbv zeta in H. unfold step at 1 2 3 in H.
  destruct (fold_left _ (seq 0 n) (zeros n, false)) as [out c].
  cbn [fst snd] in H. destruct H as (Hc & Hlen & Hget).
  rewrite length_zeros in *.
  assert (Hdig : forall i, 0 <= dig step (zeros n) i < base w).
  { apply (chain_sub_dig w Hw (zget l) (zget r)); auto using wf_zget. }
  assert (Hout : forall i, (i < n)%nat -> zget out i = dig step (zeros n) i).
  { intros. rewrite Hget. rewrite (proj2 (Nat.ltb_lt _ _)) by auto. reflexivity. }
  split; auto. split.
  - apply wf_zget_iff. rewrite Hlen. intros. rewrite Hout by auto. auto.
  - rewrite val_sum, Hlen. rewrite (sumB_ext _ _ _ n Hout), Hc, cap_pow.
    apply chain_sub; auto using wf_zget.
Qed.

Lemma cap_even w n : (0 < w)%nat -> (0 < n)%nat -> Z.even (cap w n) = true.
Proof.
  intros. unfold cap. rewrite Z.even_pow; auto. nia.
Qed.

(** What the "negate" step of both subtraction routines really computes. *)
Lemma flip_not w x : (0 < w)%nat -> wf w x -> (0 < length x)%nat ->
  exists x', (do b <- get_bit w x 0 ;; do o <- set_bit w x 0 (negb b) ;; Ok (elem_not w o)) = Ok x' /\
    wf w x' /\ length x' = length x /\
    val w x' = let d := cap w (length x) - val w x in if Z.odd d then d else d - 2.
Proof.
  intros Hw Hx Hlen.
  assert (0 < bit_len w x)%nat as Hbl by (unfold bit_len; nia).
  rewrite get_bit_in by auto. cbn [bind]. rewrite set_bit_in by auto. cbn [bind].
  eexists. split; [reflexivity|]. split; [apply wf_elem_not|].
  rewrite length_elem_not, length_bset. split; auto.
  rewrite val_elem_not by (apply wf_bset; auto). rewrite length_bset, val_bset by auto.
  cbv zeta. rewrite Z.odd_sub, <- (Z.negb_even (cap w (length x))), cap_even by auto.
  cbn [negb]. rewrite xorb_false_l. simpl Z.of_nat. rewrite Z.bit0_odd. simpl (2 ^ 0).
  destruct (Z.odd (val w x)); simpl Z.b2z; lia.
Qed.

Definition sub_magnitude (a b : Z) : Z :=
  if b <=? a then a - b else if Z.odd (b - a) then b - a else b - a - 2.

Lemma elem_sub_spec w l r : (0 < w)%nat -> wf w l -> wf w r ->
  (0 < Nat.max (length l) (length r))%nat ->
  exists out, elem_sub w l r = Ok (out, val w l <? val w r) /\ wf w out /\ canonical out /\
    val w out = sub_magnitude (val w l) (val w r).
Proof.
  intros Hw Hl Hr Hpos. unfold elem_sub. set (len := Nat.max (length l) (length r)) in *.
  pose proof (elem_sub_loop_spec w l r len Hw Hl Hr) as H.
  destruct (elem_sub_loop w l r len (zeros len)) as [out c].
  destruct H as (Hlen & Hwf & Hval).
  rewrite <- !val_sumB in Hval by lia.
  pose proof (val_bound w out Hwf) as Hb. rewrite Hlen in Hb.
  unfold sub_magnitude.
  destruct c; simpl Z.b2z in Hval.
  - assert (val w l < val w r) as Hlt by lia.
    destruct (flip_not w out Hw Hwf ltac:(lia)) as (x' & Ex & Wx & Lx & Vx).
    rewrite Hlen in Vx.
    destruct (shrink_ok w x' Wx ltac:(lia)) as (o & Eo & Wo & Co & Vo).
    exists o. rewrite Ex. cbn [bind]. rewrite Eo. cbn [bind].
    rewrite (proj2 (Z.ltb_lt _ _)) by auto. rewrite (proj2 (Z.leb_gt _ _)) by auto.
    split; auto. split; auto. split; auto. rewrite Vo, Vx. cbv zeta.
    replace (cap w len - val w out) with (val w r - val w l) by lia. auto.
  - assert (val w r <= val w l) as Hle by lia.
    destruct (shrink_ok w out Hwf ltac:(lia)) as (o & Eo & Wo & Co & Vo).
    exists o. cbn [bind]. rewrite Eo. cbn [bind].
    rewrite (proj2 (Z.ltb_ge _ _)) by auto. rewrite (proj2 (Z.leb_le _ _)) by auto.
    split; auto. split; auto. split; auto. rewrite Vo. lia.
Qed.

Lemma elem_sub_overflowing_digits w l r : (0 < w)%nat -> wf w l -> wf w r ->
  let '(out, c) := elem_sub_overflowing w l r in
  length out = length l /\ wf w out /\
  exists full, length full = Nat.max (length l) (length r) /\ wf w full /\
    out = firstn (length l) full /\
    val w full - Z.b2z c * cap w (Nat.max (length l) (length r)) = val w l - val w r.
Proof.
  intros Hw Hl Hr. unfold elem_sub_overflowing. set (len := Nat.max (length l) (length r)).
  set (step := fun (x : Z) idx c => sub_step w x (zget r idx) c).
  pose proof (chain_loop step l len) as H. cbv zeta in H. unfold step at 1 2 3 in H.
  destruct (fold_left _ (seq 0 len) (l, false)) as [out c].
  cbn [fst snd] in H. destruct H as (Hc & Hlen & Hget).
  assert (Hdig : forall i, 0 <= dig step l i < base w).
  { apply (chain_sub_dig w Hw (zget l) (zget r)); auto using wf_zget. }
  assert (Hout : forall i, (i < length l)%nat -> zget out i = dig step l i).
  { intros. rewrite Hget. rewrite !(proj2 (Nat.ltb_lt _ _)) by lia. reflexivity. }
  assert (Hwf : wf w out).
  { apply wf_zget_iff. rewrite Hlen. intros. rewrite Hout by auto. auto. }
  split; auto. split; auto.
  exists (map (dig step l) (seq 0 len)). rewrite map_length, seq_length. split; auto.
  assert (wf w (map (dig step l) (seq 0 len))) as Hwf2.
  { apply wf_zget_iff. rewrite map_length, seq_length. intros.
    rewrite zget_map_seq by auto. auto. }
  split; auto. split.
  - apply zget_ext.
    + rewrite firstn_length, map_length, seq_length. lia.
    + rewrite Hlen. intros. rewrite zget_firstn by auto. rewrite zget_map_seq by lia. auto.
  - destruct (sumB_max w l r) as [E1 E2]. fold len in E1, E2. rewrite <- E1, <- E2.
    rewrite <- (chain_sub w Hw (zget l) (zget r) step l); auto using wf_zget.
    rewrite val_sum, map_length, seq_length, Hc, cap_pow. f_equal.
    apply sumB_ext. intros. apply zget_map_seq. auto.
Qed.

Lemma elem_sub_overflowing_spec w l r : (0 < w)%nat -> wf w l -> wf w r ->
  (length r <= length l)%nat ->
  let '(out, c) := elem_sub_overflowing w l r in
  length out = length l /\ wf w out /\
  val w out = (val w l - val w r) mod cap w (length l) /\
  (c = true <-> val w l < val w r).
Proof.
  intros Hw Hl Hr Hlen. pose proof (elem_sub_overflowing_digits w l r Hw Hl Hr) as H.
  destruct (elem_sub_overflowing w l r) as [out c].
  destruct H as (H1 & H2 & full & Hf1 & Hf2 & -> & Hv).
  rewrite Nat.max_l in * by lia. rewrite firstn_all2 in * by lia.
  split; auto. split; auto.
  pose proof (val_bound w full Hf2). rewrite Hf1 in H. split.
  - replace (val w l - val w r) with (val w full + (- Z.b2z c) * cap w (length l)) by lia.
    rewrite Z_mod_plus_full, Z.mod_small; auto.
  - destruct c; simpl Z.b2z in Hv; split; intros; try lia; congruence.
Qed.

(** ** Comparison *)

Lemma elem_cmp_loop_spec l r n : forall a,
  match elem_cmp_loop l r (seq a n) with
  | Eq => forall i, (a <= i < a + n)%nat -> zget l i = zget r i
  | Lt => exists i, (a <= i < a + n)%nat /\ zget l i < zget r i /\
            forall j, (a <= j < i)%nat -> zget l j = zget r j
  | Gt => exists i, (a <= i < a + n)%nat /\ zget r i < zget l i /\
            forall j, (a <= j < i)%nat -> zget l j = zget r j
  end.
Proof.
  induction n; intros a; cbn [seq elem_cmp_loop].
  - intros. lia.
  - destruct (Z.compare_spec (zget l a) (zget r a)) as [E|E|E].
    + specialize (IHn (S a)). destruct (elem_cmp_loop l r (seq (S a) n)).
      * intros i Hi. destruct (Nat.eq_dec i a); [subst; auto|apply IHn; lia].
      * destruct IHn as (i & Hi & H1 & H2). exists i. split; [lia|]. split; auto.
        intros j Hj. destruct (Nat.eq_dec j a); [subst; auto|apply H2; lia].
      * destruct IHn as (i & Hi & H1 & H2). exists i. split; [lia|]. split; auto.
        intros j Hj. destruct (Nat.eq_dec j a); [subst; auto|apply H2; lia].
    + exists a. split; [lia|]. split; auto. intros. lia.
    + exists a. split; [lia|]. split; auto. intros. lia.
Qed.

(** The order really implemented: lexicographic from the least significant limb. *)
Definition low_first_lt (l r : list Z) : Prop :=
  exists i, zget l i < zget r i /\ forall j, (j < i)%nat -> zget l j = zget r j.

Lemma elem_cmp_spec l r :
  match elem_cmp l r with
  | Eq => forall i, zget l i = zget r i
  | Lt => low_first_lt l r
  | Gt => low_first_lt r l
  end.
Proof.
  unfold elem_cmp. pose proof (elem_cmp_loop_spec l r (Nat.max (length l) (length r)) 0) as H.
  destruct (elem_cmp_loop l r _).
  - intros i. destruct (Nat.lt_ge_cases i (Nat.max (length l) (length r))).
    + apply H. lia.
    + rewrite !zget_oob by lia. auto.
  - destruct H as (i & _ & H1 & H2). exists i. split; auto. intros. apply H2. lia.
  - destruct H as (i & _ & H1 & H2). exists i. split; auto. intros. symmetry. apply H2. lia.
Qed.

Lemma low_first_irrefl l r : (forall i, zget l i = zget r i) -> ~ low_first_lt l r.
Proof. intros H (i & Hi & _). rewrite H in Hi. lia. Qed.

Lemma low_first_asym l r : low_first_lt l r -> ~ low_first_lt r l.
Proof.
  intros (i & H1 & H2) (j & H3 & H4).
  destruct (Nat.lt_trichotomy i j) as [H|[->|H]].
  - rewrite H4 in H1 by auto. lia.
  - lia.
  - rewrite H2 in H3 by auto. lia.
Qed.

Lemma low_first_trans l r s : low_first_lt l r -> low_first_lt r s -> low_first_lt l s.
Proof.
  intros (i & H1 & H2) (j & H3 & H4).
  destruct (Nat.lt_trichotomy i j) as [H|[->|H]].
  - exists i. split; [rewrite <- H4 by auto; auto|].
    intros k Hk. rewrite H2 by auto. apply H4. lia.
  - exists j. split; [lia|]. intros k Hk. rewrite H2 by auto. apply H4. lia.
  - exists j. split; [rewrite H2 by auto; auto|].
    intros k Hk. rewrite H2 by lia. apply H4. auto.
Qed.

Lemma zget_val_eq w l r : wf w l -> wf w r ->
  ((forall i, zget l i = zget r i) <-> val w l = val w r).
Proof.
  intros Hl Hr. split; intros H.
  - rewrite (val_sumB w l (Nat.max (length l) (length r))) by lia.
    rewrite (val_sumB w r (Nat.max (length l) (length r))) by lia.
    apply sumB_ext. auto.
  - set (n := Nat.max (length l) (length r)).
    assert (extend l n 0 = extend r n 0) as E.
    { apply (val_inj w); auto using wf_extend.
      - rewrite !length_extend. lia.
      - rewrite !val_extend. auto. }
    intros i. rewrite <- (zget_extend l n), E, zget_extend. auto.
Qed.

Lemma elem_cmp_eq w l r : wf w l -> wf w r -> (elem_cmp l r = Eq <-> val w l = val w r).
Proof.
  intros Hl Hr. rewrite <- zget_val_eq by auto. pose proof (elem_cmp_spec l r) as H.
  destruct (elem_cmp l r); split; intros H1; auto; try discriminate.
  - exfalso. apply (low_first_irrefl l r); auto.
  - exfalso. apply (low_first_irrefl r l); auto.
Qed.

Lemma elem_cmp_lt_iff l r : elem_cmp l r = Lt <-> low_first_lt l r.
Proof.
  pose proof (elem_cmp_spec l r) as H. destruct (elem_cmp l r); split; intros; auto; try discriminate.
  - exfalso. apply (low_first_irrefl l r); auto.
  - exfalso. apply (low_first_asym l r); auto.
Qed.

Lemma elem_cmp_gt_iff l r : elem_cmp l r = Gt <-> low_first_lt r l.
Proof.
  pose proof (elem_cmp_spec l r) as H. destruct (elem_cmp l r); split; intros; auto; try discriminate.
  - exfalso. apply (low_first_irrefl r l); auto.
  - exfalso. apply (low_first_asym l r); auto.
Qed.

Lemma elem_cmp_antisym l r : elem_cmp r l = CompOpp (elem_cmp l r).
Proof.
  destruct (elem_cmp l r) eqn:E; simpl.
  - pose proof (elem_cmp_spec l r) as H. rewrite E in H.
    pose proof (elem_cmp_spec r l) as H'. destruct (elem_cmp r l); auto.
    + exfalso. apply (low_first_irrefl r l); auto.
    + exfalso. apply (low_first_irrefl l r); auto.
  - apply elem_cmp_gt_iff, elem_cmp_lt_iff; auto.
  - apply elem_cmp_lt_iff, elem_cmp_gt_iff; auto.
Qed.

(** Numeric agreement when the operands differ in at most one limb. *)
Lemma sumB_single w l r n i : (i < n)%nat -> (forall j, j <> i -> zget l j = zget r j) ->
  sumB (base w) (zget l) n - sumB (base w) (zget r) n =
  (zget l i - zget r i) * base w ^ Z.of_nat i.
Proof.
  revert i. induction n; intros i Hi H; [lia|]. cbn [sumB].
  destruct (Nat.eq_dec i n) as [->|].
  - rewrite (sumB_ext _ (zget l) (zget r) n).
    + ring. + intros j Hj. apply H. lia.
  - rewrite (H n) by auto. rewrite <- (IHn i) by (auto; lia). ring.
Qed.

Lemma elem_cmp_one_limb w l r i : wf w l -> wf w r ->
  (forall j, j <> i -> zget l j = zget r j) ->
  elem_cmp l r = Z.compare (val w l) (val w r).
Proof.
  intros Hl Hr H. set (n := Nat.max (S i) (Nat.max (length l) (length r))).
  assert (val w l - val w r = (zget l i - zget r i) * base w ^ Z.of_nat i) as E.
  { rewrite (val_sumB w l n), (val_sumB w r n) by lia. apply sumB_single; auto. lia. }
  pose proof (bpow_pos w i).
  pose proof (elem_cmp_spec l r) as Hc. destruct (elem_cmp l r); symmetry.
  - apply Z.compare_eq_iff. rewrite Hc in E. lia.
  - apply Z.compare_lt_iff. destruct Hc as (k & H1 & _).
    destruct (Nat.eq_dec k i); [subst; nia | rewrite H in H1 by auto; lia].
  - apply Z.compare_gt_iff. destruct Hc as (k & H1 & _).
    destruct (Nat.eq_dec k i); [subst; nia | rewrite H in H1 by auto; lia].
Qed.

Lemma val_lt_base_zget w l : wf w l -> val w l < base w -> forall j, (0 < j)%nat -> zget l j = 0.
Proof.
  intros Hl Hv j Hj. destruct l as [|x l]; [apply zget_oob; simpl; lia|].
  apply wf_cons in Hl. destruct Hl as [Hx Hl]. rewrite val_cons in Hv.
  pose proof (val_nonneg w l Hl). pose proof (base_pos w).
  assert (val w l = 0) as E by nia.
  apply val_zero_iff in E; auto. destruct j; [lia|].
  change (zget (x :: l) (S j)) with (zget l j). rewrite E. apply zget_zeros.
Qed.

Lemma elem_cmp_small w l r : wf w l -> wf w r -> val w l < base w -> val w r < base w ->
  elem_cmp l r = Z.compare (val w l) (val w r).
Proof.
  intros Hl Hr H1 H2. apply (elem_cmp_one_limb w l r 0); auto.
  intros j Hj. rewrite (val_lt_base_zget w l), (val_lt_base_zget w r) by (auto; lia). auto.
Qed.

(** ** Bitwise operators *)

Lemma elem_bitop_spec op l r :
  length (elem_bitop op l r) = Nat.max (length l) (length r) /\
  forall i, (i < Nat.max (length l) (length r))%nat ->
    zget (elem_bitop op l r) i = op (zget l i) (zget r i).
Proof.
  unfold elem_bitop. set (n := Nat.max (length l) (length r)).
  apply (fold_seq0_ind (fun k out => length out = n /\ forall i, (i < k)%nat ->
    zget out i = op (zget l i) (zget r i))).
  - rewrite length_zeros. split; auto. intros; lia.
  - intros k out Hk (Hlen & Hget). rewrite set_ignore_upd, length_upd. split; auto.
    intros i Hi. destruct (Nat.eq_dec k i) as [->|].
    + rewrite zget_upd_eq by lia. auto.
    + rewrite zget_upd_ne by auto. apply Hget. lia.
Qed.

Lemma elem_bitop_testbit w op (bop : bool -> bool -> bool) l r : (0 < w)%nat -> wf w l -> wf w r ->
  (forall a b, 0 <= a < base w -> 0 <= b < base w -> 0 <= op a b < base w) ->
  (forall a b n, Z.testbit (op a b) n = bop (Z.testbit a n) (Z.testbit b n)) ->
  bop false false = false ->
  wf w (elem_bitop op l r) /\
  forall i, Z.testbit (val w (elem_bitop op l r)) (Z.of_nat i) =
    bop (Z.testbit (val w l) (Z.of_nat i)) (Z.testbit (val w r) (Z.of_nat i)).
Proof.
  intros Hw Hl Hr Hrange Hbit H0. destruct (elem_bitop_spec op l r) as [Hlen Hget].
  assert (wf w (elem_bitop op l r)) as Hwf.
  { apply wf_zget_iff. rewrite Hlen. intros. rewrite Hget by auto. auto using wf_zget. }
  split; auto. intros i. rewrite !val_testbit_idx by auto.
  destruct (Nat.lt_ge_cases (i / w) (Nat.max (length l) (length r))).
  - rewrite Hget by auto. apply Hbit.
  - rewrite !zget_oob by lia. rewrite Z.bits_0. auto.
Qed.
