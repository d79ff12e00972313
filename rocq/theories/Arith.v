(** Lemmas about the specification vocabulary, slices and words. *)
From Coq Require Import ZArith List Bool Lia.
From Verif Require Import Base Words Spec.
Import ListNotations.
Local Open Scope Z_scope.

Ltac inv H := inversion H; subst; clear H.

(** ** Powers *)

Lemma base_pow w : base w = 2 ^ Z.of_nat w. Proof. reflexivity. Qed.

Lemma base_pos w : 0 < base w.
Proof. unfold base. apply Z.pow_pos_nonneg; lia. Qed.

Lemma base_ge2 w : (0 < w)%nat -> 2 <= base w.
Proof.
  intros. unfold base. change 2 with (2 ^ 1) at 1.
  apply Z.pow_le_mono_r; lia.
Qed.

Lemma bpow_pos w n : 0 < base w ^ Z.of_nat n.
Proof. apply Z.pow_pos_nonneg; [apply base_pos | lia]. Qed.

Lemma bpow_S w n : base w ^ Z.of_nat (S n) = base w * base w ^ Z.of_nat n.
Proof. rewrite Nat2Z.inj_succ, Z.pow_succ_r by lia. reflexivity. Qed.

Lemma cap_pow w n : cap w n = base w ^ Z.of_nat n.
Proof. unfold cap, base. rewrite Z.pow_mul_r by lia. reflexivity. Qed.

Lemma cap_pos w n : 0 < cap w n.
Proof. rewrite cap_pow. apply bpow_pos. Qed.

Lemma cap_0 w : cap w 0 = 1.
Proof. rewrite cap_pow. reflexivity. Qed.

Lemma cap_S w n : cap w (S n) = base w * cap w n.
Proof. rewrite !cap_pow. apply bpow_S. Qed.

Lemma cap_add w n m : cap w (n + m) = cap w n * cap w m.
Proof. rewrite !cap_pow, Nat2Z.inj_add, Z.pow_add_r by lia. reflexivity. Qed.

Lemma cap_mono w n m : (n <= m)%nat -> cap w n <= cap w m.
Proof.
  intros. replace m with (n + (m - n))%nat by lia. rewrite cap_add.
  pose proof (cap_pos w n). pose proof (cap_pos w (m - n)). nia.
Qed.

Lemma cap_1 w : cap w 1 = base w.
Proof. rewrite cap_S, cap_0. lia. Qed.

(** ** Lists *)

Lemma length_upd {A} (l : list A) i v : length (upd l i v) = length l.
Proof. revert i. induction l; intros [|i]; simpl; auto. Qed.

Lemma upd_oob {A} (l : list A) i v : (length l <= i)%nat -> upd l i v = l.
Proof.
  revert i. induction l; intros [|i] H; simpl in *; auto; try lia.
  f_equal. apply IHl. lia.
Qed.

Lemma nth_upd {A} (l : list A) i v j d :
  nth j (upd l i v) d =
  if Nat.eqb i j && Nat.ltb i (length l) then v else nth j l d.
Proof.
  revert i j. induction l; intros [|i] [|j]; simpl; auto.
  - rewrite andb_false_r. reflexivity.
  - rewrite IHl. reflexivity.
Qed.

Lemma nth_error_upd {A} (l : list A) i v j :
  nth_error (upd l i v) j =
  if Nat.eqb i j && Nat.ltb i (length l) then Some v else nth_error l j.
Proof.
  revert i j. induction l; intros [|i] [|j]; simpl; auto.
  - rewrite andb_false_r. reflexivity.
  - rewrite IHl. reflexivity.
Qed.

Lemma zget_upd l i v j :
  zget (upd l i v) j = if Nat.eqb i j && Nat.ltb i (length l) then v else zget l j.
Proof. apply nth_upd. Qed.

Lemma zget_upd_eq l i v : (i < length l)%nat -> zget (upd l i v) i = v.
Proof.
  intros. rewrite zget_upd, Nat.eqb_refl.
  destruct (Nat.ltb_spec i (length l)); simpl; auto; lia.
Qed.

Lemma zget_upd_ne l i v j : i <> j -> zget (upd l i v) j = zget l j.
Proof. intros. rewrite zget_upd. destruct (Nat.eqb_spec i j); simpl; auto; congruence. Qed.

Lemma zget_oob l i : (length l <= i)%nat -> zget l i = 0.
Proof. intros. apply nth_overflow. auto. Qed.

Lemma zget_zeros n i : zget (zeros n) i = 0.
Proof. unfold zget, zeros. apply nth_repeat. Qed.

Lemma length_zeros n : length (zeros n) = n.
Proof. apply repeat_length. Qed.

Lemma zget_app1 l l' i : (i < length l)%nat -> zget (l ++ l') i = zget l i.
Proof. intros. apply app_nth1. auto. Qed.

Lemma zget_app2 l l' i : (length l <= i)%nat -> zget (l ++ l') i = zget l' (i - length l).
Proof. intros. apply app_nth2. auto. Qed.

Lemma zget_ext l l' :
  length l = length l' -> (forall i, (i < length l)%nat -> zget l i = zget l' i) -> l = l'.
Proof. intros. apply (nth_ext _ _ 0 0); auto. Qed.

Lemma nth_error_zget l i : (i < length l)%nat -> nth_error l i = Some (zget l i).
Proof. intros. apply nth_error_nth'. auto. Qed.

Lemma nth_error_oob {A} (l : list A) i : (length l <= i)%nat -> nth_error l i = None.
Proof. intros. apply nth_error_None. auto. Qed.

Lemma zget_firstn l n i : (i < n)%nat -> zget (firstn n l) i = zget l i.
Proof.
  unfold zget. revert n i. induction l; intros [|n] [|i] H; simpl; auto; try lia.
  apply IHl. lia.
Qed.

Lemma zget_skipn l n i : zget (skipn n l) i = zget l (n + i).
Proof.
  unfold zget. revert n i. induction l; intros [|n] i; simpl; auto.
  destruct i; reflexivity.
Qed.

Lemma zget_map_seq f n i : (i < n)%nat -> zget (map f (seq 0 n)) i = f i.
Proof.
  intros. unfold zget.
  rewrite (nth_indep _ 0 (f 0%nat)) by (rewrite map_length, seq_length; auto).
  rewrite map_nth, seq_nth; auto.
Qed.

(** ** Loop invariants *)

Lemma fold_seq_ind {S} (P : nat -> S -> Prop) (f : S -> nat -> S) n : forall a s,
  P a s ->
  (forall k s, (a <= k < a + n)%nat -> P k s -> P (Datatypes.S k) (f s k)) ->
  P (a + n)%nat (fold_left f (seq a n) s).
Proof.
  induction n; intros a s H0 Hs; simpl.
  - rewrite Nat.add_0_r. auto.
  - replace (a + Datatypes.S n)%nat with (Datatypes.S a + n)%nat by lia.
    apply IHn.
    + apply Hs; [lia | auto].
    + intros k t Hk. apply Hs. lia.
Qed.

Lemma fold_seq0_ind {S} (P : nat -> S -> Prop) (f : S -> nat -> S) n s :
  P 0%nat s ->
  (forall k s, (k < n)%nat -> P k s -> P (Datatypes.S k) (f s k)) ->
  P n (fold_left f (seq 0 n) s).
Proof.
  intros. apply (fold_seq_ind P f n 0 s); auto. intros. apply H0; auto. lia.
Qed.

Lemma rev_seq_S n : rev (seq 0 (S n)) = n :: rev (seq 0 n).
Proof. rewrite seq_S, rev_app_distr. reflexivity. Qed.

Lemma fold_rev_seq_ind {S} (P : nat -> S -> Prop) (f : S -> nat -> S) n : forall s,
  P n s ->
  (forall k s, (k < n)%nat -> P (Datatypes.S k) s -> P k (f s k)) ->
  P 0%nat (fold_left f (rev (seq 0 n)) s).
Proof.
  induction n; intros s H0 Hs; auto.
  rewrite rev_seq_S. simpl. apply IHn.
  - apply Hs; auto.
  - intros. apply Hs; auto.
Qed.

Lemma foldR_seq_ind {S} (P : nat -> S -> Prop) (f : S -> nat -> res S) n : forall a s,
  P a s ->
  (forall k s, (a <= k < a + n)%nat -> P k s ->
     exists s', f s k = Ok s' /\ P (Datatypes.S k) s') ->
  exists s', foldR f (seq a n) s = Ok s' /\ P (a + n)%nat s'.
Proof.
  induction n; intros a s H0 Hs; simpl.
  - rewrite Nat.add_0_r. eauto.
  - destruct (Hs a s) as (s1 & E & H1); [lia | auto |]. rewrite E. simpl.
    replace (a + Datatypes.S n)%nat with (Datatypes.S a + n)%nat by lia.
    apply IHn; auto. intros. apply Hs; auto. lia.
Qed.

Lemma foldR_seq0_ind {S} (P : nat -> S -> Prop) (f : S -> nat -> res S) n s :
  P 0%nat s ->
  (forall k s, (k < n)%nat -> P k s -> exists s', f s k = Ok s' /\ P (Datatypes.S k) s') ->
  exists s', foldR f (seq 0 n) s = Ok s' /\ P n s'.
Proof.
  intros. apply (foldR_seq_ind P f n 0 s); auto. intros. apply H0; auto. lia.
Qed.

Lemma foldR_rev_seq_ind {S} (P : nat -> S -> Prop) (f : S -> nat -> res S) n : forall s,
  P n s ->
  (forall k s, (k < n)%nat -> P (Datatypes.S k) s -> exists s', f s k = Ok s' /\ P k s') ->
  exists s', foldR f (rev (seq 0 n)) s = Ok s' /\ P 0%nat s'.
Proof.
  induction n; intros s H0 Hs.
  - simpl. eauto.
  - rewrite rev_seq_S. simpl. destruct (Hs n s) as (s1 & E & H1); auto.
    rewrite E. simpl. apply IHn; auto.
Qed.

Lemma foldR_app {S I} (f : S -> I -> res S) l1 l2 s :
  foldR f (l1 ++ l2) s = bind (foldR f l1 s) (foldR f l2).
Proof.
  revert s. induction l1; intros; simpl; auto.
  destruct (f s a); simpl; auto.
Qed.

Lemma foldR_ext {S I} (f g : S -> I -> res S) l : forall s,
  (forall s i, In i l -> f s i = g s i) -> foldR f l s = foldR g l s.
Proof.
  induction l; intros; simpl; auto. rewrite H by (simpl; auto).
  destruct (g s a); simpl; auto. apply IHl. intros. apply H. simpl; auto.
Qed.

Lemma fold_left_ext {S I} (f g : S -> I -> S) l : forall s,
  (forall s i, In i l -> f s i = g s i) -> fold_left f l s = fold_left g l s.
Proof.
  induction l; intros; simpl; auto. rewrite H by (simpl; auto).
  apply IHl. intros. apply H. simpl; auto.
Qed.

(** ** Weighted sums *)

Fixpoint sumB (b : Z) (f : nat -> Z) (n : nat) : Z :=
  match n with
  | O => 0
  | S n' => sumB b f n' + f n' * b ^ Z.of_nat n'
  end.

Lemma sumB_ext b f g n : (forall i, (i < n)%nat -> f i = g i) -> sumB b f n = sumB b g n.
Proof.
  induction n; intros H; simpl; auto. rewrite IHn, H; auto.
Qed.

Lemma sumB_zero b n : sumB b (fun _ => 0) n = 0.
Proof. induction n; simpl; lia. Qed.

Lemma sumB_zero_ext b f n : (forall i, (i < n)%nat -> f i = 0) -> sumB b f n = 0.
Proof. intros. rewrite (sumB_ext _ _ (fun _ => 0)) by auto. apply sumB_zero. Qed.

Lemma sumB_add b f g n : sumB b (fun i => f i + g i) n = sumB b f n + sumB b g n.
Proof. induction n; simpl; lia. Qed.

Lemma sumB_scale b c f n : sumB b (fun i => c * f i) n = c * sumB b f n.
Proof. induction n; simpl; lia. Qed.

Lemma sumB_bound b f n :
  0 < b -> (forall i, (i < n)%nat -> 0 <= f i < b) -> 0 <= sumB b f n < b ^ Z.of_nat n.
Proof.
  intros Hb. induction n; intros H; simpl sumB.
  - simpl. lia.
  - rewrite Nat2Z.inj_succ, Z.pow_succ_r by lia.
    specialize (IHn ltac:(auto)). specialize (H n ltac:(auto)).
    pose proof (Z.pow_pos_nonneg b (Z.of_nat n)). nia.
Qed.

Lemma sumB_shift b f n : sumB b f (S n) = f 0%nat + b * sumB b (fun i => f (S i)) n.
Proof.
  induction n.
  - simpl. lia.
  - cbn [sumB] in IHn |- *. rewrite IHn.
    rewrite Nat2Z.inj_succ, Z.pow_succ_r by lia. ring.
Qed.

Lemma sumB_split b f n m :
  0 <= b -> sumB b f (n + m) = sumB b f n + b ^ Z.of_nat n * sumB b (fun i => f (n + i)%nat) m.
Proof.
  intros. induction m.
  - rewrite Nat.add_0_r. simpl. lia.
  - rewrite Nat.add_succ_r. cbn [sumB]. rewrite IHm.
    rewrite Nat2Z.inj_add, Z.pow_add_r by lia. ring.
Qed.

Lemma val_sumB w l n : (length l <= n)%nat -> val w l = sumB (base w) (zget l) n.
Proof.
  revert n. induction l; intros n H.
  - simpl. symmetry. apply sumB_zero_ext. intros. destruct i; reflexivity.
  - simpl in H. destruct n; [lia|]. rewrite sumB_shift. simpl val.
    rewrite (IHl n) by lia. fold (base w). f_equal.
Qed.

Lemma val_sum w l : val w l = sumB (base w) (zget l) (length l).
Proof. apply val_sumB. auto. Qed.

(** ** wf *)

Lemma wf_zget w l i : wf w l -> 0 <= zget l i < base w.
Proof.
  intros H. unfold zget. destruct (Nat.lt_ge_cases i (length l)).
  - apply Forall_nth; auto.
  - rewrite nth_overflow by auto. pose proof (base_pos w). lia.
Qed.

Lemma wf_zget_iff w l :
  (forall i, (i < length l)%nat -> 0 <= zget l i < base w) -> wf w l.
Proof.
  intros. apply Forall_forall. intros x Hx.
  destruct (In_nth _ _ 0 Hx) as (i & Hi & <-). apply H; auto.
Qed.

Lemma wf_upd w l i v : wf w l -> 0 <= v < base w -> wf w (upd l i v).
Proof.
  intros. apply wf_zget_iff. intros j _. rewrite zget_upd.
  destruct (_ && _); auto. apply wf_zget; auto.
Qed.

Lemma wf_zeros w n : wf w (zeros n).
Proof.
  apply wf_zget_iff. intros. rewrite zget_zeros. pose proof (base_pos w). lia.
Qed.

Lemma wf_app w l l' : wf w (l ++ l') <-> wf w l /\ wf w l'.
Proof. apply Forall_app. Qed.

Lemma wf_firstn w n l : wf w l -> wf w (firstn n l).
Proof. intros. rewrite <- (firstn_skipn n l), wf_app in H. tauto. Qed.

Lemma wf_skipn w n l : wf w l -> wf w (skipn n l).
Proof. intros. rewrite <- (firstn_skipn n l), wf_app in H. tauto. Qed.

Lemma wf_cons w x l : wf w (x :: l) <-> 0 <= x < base w /\ wf w l.
Proof. split; intros H; [inv H; auto | constructor; tauto]. Qed.

(** ** val *)

Lemma val_nil w : val w [] = 0. Proof. reflexivity. Qed.
Lemma val_cons w x l : val w (x :: l) = x + base w * val w l. Proof. reflexivity. Qed.

Lemma val_app w l l' : val w (l ++ l') = val w l + cap w (length l) * val w l'.
Proof.
  induction l; cbn [app length].
  - rewrite cap_0, val_nil. lia.
  - rewrite !val_cons, IHl, cap_S. ring.
Qed.

Lemma val_zeros w n : val w (zeros n) = 0.
Proof. unfold zeros. induction n; cbn [repeat]; rewrite ?val_cons; lia || auto. Qed.

Lemma val_bound w l : wf w l -> 0 <= val w l < cap w (length l).
Proof.
  intros. rewrite val_sum, cap_pow. apply sumB_bound; [apply base_pos|].
  intros. apply wf_zget; auto.
Qed.

Lemma val_nonneg w l : wf w l -> 0 <= val w l.
Proof. intros. apply val_bound; auto. Qed.

Lemma val_inj w l : forall l', wf w l -> wf w l' -> length l = length l' ->
  val w l = val w l' -> l = l'.
Proof.
  induction l; intros [|b l'] H H' Hl Hv; simpl in Hl; try lia; auto.
  apply wf_cons in H. apply wf_cons in H'. rewrite !val_cons in Hv.
  destruct H, H'. pose proof (base_pos w).
  assert (a = b). {
    rewrite <- (Z.mod_small a (base w)), <- (Z.mod_small b (base w)) by lia.
    rewrite <- (Z_mod_plus_full a (val w l) (base w)), <- (Z_mod_plus_full b (val w l') (base w)).
    f_equal. lia. }
  subst. f_equal. apply IHl; auto. nia.
Qed.

Lemma val_upd w l i v : (i < length l)%nat ->
  val w (upd l i v) = val w l + (v - zget l i) * cap w i.
Proof.
  revert i. induction l; intros [|i] H; simpl in H; try lia; cbn [upd]; rewrite !val_cons.
  - rewrite cap_0. unfold zget; simpl. lia.
  - rewrite IHl by lia. rewrite cap_S. unfold zget; simpl. ring.
Qed.

Lemma val_mod_base w x l : 0 <= x < base w -> (val w (x :: l)) mod base w = x.
Proof.
  intros. rewrite val_cons, (Z.mul_comm (base w)), Z_mod_plus_full, Z.mod_small; auto.
Qed.

Lemma val_div_base w x l : 0 <= x < base w -> (val w (x :: l)) / base w = val w l.
Proof.
  intros. rewrite val_cons, (Z.mul_comm (base w)), Z.div_add, Z.div_small by lia. lia.
Qed.

Lemma val_split w n l : (n <= length l)%nat ->
  val w l = val w (firstn n l) + cap w n * val w (skipn n l).
Proof.
  intros. rewrite <- (firstn_skipn n l) at 1. rewrite val_app, firstn_length.
  rewrite Nat.min_l by auto. reflexivity.
Qed.

Lemma val_firstn w n l : wf w l -> (n <= length l)%nat ->
  val w (firstn n l) = val w l mod cap w n.
Proof.
  intros Hw H. rewrite (val_split w n l H).
  pose proof (val_bound w (firstn n l) (wf_firstn _ _ _ Hw)) as Hb.
  rewrite firstn_length, Nat.min_l in Hb by auto.
  rewrite (Z.mul_comm (cap w n)), Z_mod_plus_full, Z.mod_small; auto.
Qed.

Lemma val_skipn w n l : wf w l -> (n <= length l)%nat ->
  val w (skipn n l) = val w l / cap w n.
Proof.
  intros Hw H. rewrite (val_split w n l H).
  pose proof (val_bound w (firstn n l) (wf_firstn _ _ _ Hw)) as Hb.
  rewrite firstn_length, Nat.min_l in Hb by auto.
  rewrite (Z.mul_comm (cap w n)), Z.div_add, Z.div_small by lia. lia.
Qed.

Lemma val_zero_iff w l : wf w l -> (val w l = 0 <-> l = zeros (length l)).
Proof.
  intros H. split; intros E.
  - apply (val_inj w); auto using wf_zeros.
    + rewrite length_zeros; auto.
    + rewrite val_zeros; auto.
  - rewrite E. apply val_zeros.
Qed.

(** ** Bits *)

Lemma base_testbit_small w x n : 0 <= x < base w -> Z.of_nat w <= n -> Z.testbit x n = false.
Proof.
  intros H Hn. destruct (Z.eq_dec x 0) as [->|]; [apply Z.bits_0|].
  apply Z.bits_above_log2; try lia.
  apply Z.lt_le_trans with (Z.of_nat w); auto.
  apply Z.log2_lt_pow2; unfold base in *; lia.
Qed.

Lemma testbit_small x n m : 0 <= x < 2 ^ n -> n <= m -> Z.testbit x m = false.
Proof.
  intros H Hn. destruct (Z.eq_dec x 0) as [->|]; [apply Z.bits_0|].
  apply Z.bits_above_log2; try lia.
  apply Z.lt_le_trans with n; auto. apply Z.log2_lt_pow2; lia.
Qed.

Lemma val_testbit w l : wf w l -> forall j b, (b < w)%nat ->
  Z.testbit (val w l) (Z.of_nat (j * w + b)) = Z.testbit (zget l j) (Z.of_nat b).
Proof.
  induction l; intros H j b Hb.
  - rewrite val_nil, zget_oob by (simpl; lia). rewrite !Z.bits_0. auto.
  - apply wf_cons in H. destruct H as [Ha Hl]. rewrite val_cons. unfold base.
    rewrite Z.add_comm, Z.mul_comm.
    destruct j.
    + replace (0 * w + b)%nat with b by lia. unfold zget; simpl nth.
      rewrite <- (Z.mod_pow2_bits_low _ (Z.of_nat w)) by lia.
      rewrite Z.add_comm, Z_mod_plus_full, Z.mod_small by auto. reflexivity.
    + replace (Z.of_nat (S j * w + b)) with (Z.of_nat (j * w + b) + Z.of_nat w) by lia.
      rewrite <- Z.div_pow2_bits by lia.
      rewrite Z.add_comm, Z.div_add, Z.div_small by (unfold base in *; lia).
      rewrite Z.add_0_l. rewrite IHl by auto. reflexivity.
Qed.

Lemma val_testbit_idx w l i : (0 < w)%nat -> wf w l ->
  Z.testbit (val w l) (Z.of_nat i) = Z.testbit (zget l (Nat.div i w)) (Z.of_nat (Nat.modulo i w)).
Proof.
  intros. rewrite <- (val_testbit w); auto.
  - f_equal. f_equal. rewrite (Nat.div_mod i w) at 1 by lia. lia.
  - apply Nat.mod_upper_bound. lia.
Qed.

Lemma lor_add a b : Z.land a b = 0 -> Z.lor a b = a + b.
Proof. intros. rewrite <- Z.lxor_lor by auto. symmetry. apply Z.add_nocarry_lxor; auto. Qed.

(** ** Words *)

Lemma wnot_spec w a : 0 <= a < base w -> wnot w a = base w - 1 - a.
Proof.
  intros. unfold wnot, Z.lnot. symmetry.
  apply (Z.mod_unique_pos (Z.pred (-a)) (base w) (-1)); lia.
Qed.

Lemma wnot_range w a : 0 <= wnot w a < base w.
Proof. apply Z.mod_pos_bound, base_pos. Qed.

Lemma wnot_testbit w a n : 0 <= n < Z.of_nat w -> Z.testbit (wnot w a) n = negb (Z.testbit a n).
Proof.
  intros. unfold wnot, base. rewrite Z.mod_pow2_bits_low by lia. apply Z.lnot_spec. lia.
Qed.

Lemma wshl_range w a s : 0 <= wshl w a s < base w.
Proof. apply Z.mod_pos_bound, base_pos. Qed.

Lemma wshl_testbit w a s n : 0 <= n < Z.of_nat w ->
  Z.testbit (wshl w a s) n = Z.testbit a (n - Z.of_nat s).
Proof.
  intros. unfold wshl, base. rewrite Z.mod_pow2_bits_low by lia.
  apply Z.shiftl_spec. lia.
Qed.

Lemma wshl_mul w a s : wshl w a s = (a * 2 ^ Z.of_nat s) mod base w.
Proof. unfold wshl. rewrite Z.shiftl_mul_pow2 by lia. auto. Qed.

Lemma wshr_div a s : wshr a s = a / 2 ^ Z.of_nat s.
Proof. unfold wshr. apply Z.shiftr_div_pow2. lia. Qed.

Lemma wshr_range w a s : 0 <= a < base w -> 0 <= wshr a s < base w.
Proof.
  intros. rewrite wshr_div. assert (0 < 2 ^ Z.of_nat s) by (apply Z.pow_pos_nonneg; lia).
  split; [apply Z.div_pos; lia|].
  apply Z.le_lt_trans with a; [|lia]. apply Z.div_le_upper_bound; nia.
Qed.

Lemma bits_range w x :
  (forall n, Z.of_nat w <= n -> Z.testbit x n = false) -> 0 <= x < base w.
Proof.
  intros H. assert (x mod base w = x) as <-; [|apply Z.mod_pos_bound, base_pos].
  apply Z.bits_inj'. intros n Hn. unfold base.
  destruct (Z.lt_ge_cases n (Z.of_nat w)).
  - apply Z.mod_pow2_bits_low; auto.
  - rewrite Z.mod_pow2_bits_high by lia. symmetry; auto.
Qed.

Lemma land_range w a b : 0 <= a < base w -> 0 <= Z.land a b < base w.
Proof.
  intros. apply bits_range. intros. rewrite Z.land_spec.
  rewrite (base_testbit_small w a) by auto. auto.
Qed.

Lemma land_range_r w a b : 0 <= b < base w -> 0 <= Z.land a b < base w.
Proof. intros. rewrite Z.land_comm. apply land_range; auto. Qed.

Lemma lor_range w a b : 0 <= a < base w -> 0 <= b < base w -> 0 <= Z.lor a b < base w.
Proof.
  intros. apply bits_range. intros. rewrite Z.lor_spec.
  rewrite (base_testbit_small w a), (base_testbit_small w b) by auto. auto.
Qed.

Lemma lxor_range w a b : 0 <= a < base w -> 0 <= b < base w -> 0 <= Z.lxor a b < base w.
Proof.
  intros. apply bits_range. intros. rewrite Z.lxor_spec.
  rewrite (base_testbit_small w a), (base_testbit_small w b) by auto. auto.
Qed.

Lemma wadd_ov_spec w a b : 0 <= a < base w -> 0 <= b < base w ->
  forall s c, wadd_ov w a b = (s, c) -> s + base w * Z.b2z c = a + b /\ 0 <= s < base w.
Proof.
  intros Ha Hb s c E. unfold wadd_ov in E. inv E.
  destruct (Z.leb_spec (base w) (a + b)); simpl Z.b2z.
  - assert ((a + b) mod base w = a + b - base w) as ->; [|lia].
    symmetry. apply (Z.mod_unique_pos _ _ 1); lia.
  - rewrite Z.mod_small; lia.
Qed.

Lemma wsub_ov_spec w a b : 0 <= a < base w -> 0 <= b < base w ->
  forall s c, wsub_ov w a b = (s, c) -> s - base w * Z.b2z c = a - b /\ 0 <= s < base w.
Proof.
  intros Ha Hb s c E. unfold wsub_ov in E. inv E.
  destruct (Z.ltb_spec a b); simpl Z.b2z.
  - assert ((a - b) mod base w = a - b + base w) as ->; [|lia].
    symmetry. apply (Z.mod_unique_pos _ _ (-1)); lia.
  - rewrite Z.mod_small; lia.
Qed.
