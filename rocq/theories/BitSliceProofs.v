(** Proofs about BitSliceModel.v. *)
From Coq Require Import ZArith List Bool Lia.
From Verif Require Import Base Words Spec Arith BitSliceModel.
Import ListNotations.
Local Open Scope Z_scope.

(** ** Element access *)

Lemma set_ignore_upd l i v : set_ignore l i v = upd l i v.
Proof.
  unfold set_ignore, set_opt. destruct (nth_error l i) eqn:E; simpl; auto.
  rewrite upd_oob; auto. apply nth_error_None; auto.
Qed.

Lemma set_in l i v : (i < length l)%nat -> set l i v = Ok (upd l i v).
Proof. intros. unfold set, set_opt. rewrite nth_error_zget by auto. reflexivity. Qed.

Lemma get_in l i : (i < length l)%nat -> get l i = Ok (zget l i).
Proof. intros. unfold get, get_opt. rewrite nth_error_zget by auto. reflexivity. Qed.

Lemma get_out l i : (length l <= i)%nat -> get l i = Panic.
Proof. intros. unfold get, get_opt. rewrite nth_error_oob by auto. reflexivity. Qed.

(** ** Bits of a limb *)

Lemma wshl_1 w b : (b < w)%nat -> wshl w 1 b = 2 ^ Z.of_nat b.
Proof.
  intros. rewrite wshl_mul, Z.mul_1_l, Z.mod_small; auto.
  unfold base. split; [apply Z.pow_nonneg; lia | apply Z.pow_lt_mono_r; lia].
Qed.

Lemma land_pow2 v b : (0 <= b) -> Z.land v (2 ^ b) = if Z.testbit v b then 2 ^ b else 0.
Proof.
  intros. apply Z.bits_inj'. intros n Hn. rewrite Z.land_spec, Z.pow2_bits_eqb by auto.
  destruct (Z.eqb_spec b n).
  - subst. destruct (Z.testbit v n); simpl.
    + rewrite Z.pow2_bits_true; auto.
    + rewrite Z.bits_0; auto.
  - rewrite andb_false_r. destruct (Z.testbit v b).
    + rewrite Z.pow2_bits_false; auto.
    + rewrite Z.bits_0; auto.
Qed.

Lemma test_bit_spec w v b : (b < w)%nat -> test_bit w v b = Z.testbit v (Z.of_nat b).
Proof.
  intros. unfold test_bit. rewrite wshl_1, land_pow2 by lia.
  destruct (Z.testbit v (Z.of_nat b)); auto.
  assert (0 < 2 ^ Z.of_nat b) by (apply Z.pow_pos_nonneg; lia).
  destruct (Z.eqb_spec (2 ^ Z.of_nat b) 0); simpl; auto; lia.
Qed.

Lemma put_bit_testbit w x b v n : (b < w)%nat -> 0 <= x < base w -> 0 <= n ->
  Z.testbit (put_bit w x b v) n = if n =? Z.of_nat b then v else Z.testbit x n.
Proof.
  intros Hb Hx Hn. unfold put_bit. rewrite wshl_1 by auto.
  destruct (Z.lt_ge_cases n (Z.of_nat w)).
  - assert (Z.testbit (Z.land x (wnot w (2 ^ Z.of_nat b))) n =
            if n =? Z.of_nat b then false else Z.testbit x n) as E.
    { rewrite Z.land_spec, wnot_testbit, Z.pow2_bits_eqb by lia.
      rewrite (Z.eqb_sym (Z.of_nat b)). destruct (n =? Z.of_nat b); simpl.
      - apply andb_false_r. - apply andb_true_r. }
    destruct v.
    + rewrite Z.lor_spec, E, Z.pow2_bits_eqb by lia. rewrite (Z.eqb_sym (Z.of_nat b)).
      destruct (n =? Z.of_nat b); simpl; auto. apply orb_false_r.
    + exact E.
  - assert ((n =? Z.of_nat b) = false) as -> by (apply Z.eqb_neq; lia).
    destruct v; rewrite ?Z.lor_spec, Z.land_spec, (base_testbit_small w x n) by lia; simpl; auto.
    rewrite Z.pow2_bits_eqb by lia. apply Z.eqb_neq. lia.
Qed.

Lemma put_bit_range w x b v : (b < w)%nat -> 0 <= x < base w -> 0 <= put_bit w x b v < base w.
Proof.
  intros. apply bits_range. intros. rewrite put_bit_testbit by lia.
  destruct (Z.eqb_spec n (Z.of_nat b)); [lia|]. apply base_testbit_small with w; auto.
Qed.

Lemma put_bit_val w x b v : (b < w)%nat -> 0 <= x < base w ->
  put_bit w x b v = x + (Z.b2z v - Z.b2z (Z.testbit x (Z.of_nat b))) * 2 ^ Z.of_nat b.
Proof.
  intros Hb Hx. set (p := 2 ^ Z.of_nat b). set (o := Z.testbit x (Z.of_nat b)).
  assert (Hclear : exists y, x = y + Z.b2z o * p /\ Z.land y p = 0 /\
             put_bit w x b v = y + Z.b2z v * p).
  { exists (put_bit w x b false).
    assert (Z.land (put_bit w x b false) p = 0) as Hz.
    { unfold p. rewrite land_pow2 by lia. rewrite put_bit_testbit by lia.
      rewrite Z.eqb_refl. auto. }
    assert (forall c, put_bit w x b c = put_bit w x b false + Z.b2z c * p) as Hc.
    { intros [].
      - simpl Z.b2z. rewrite Z.mul_1_l, <- lor_add by auto.
        apply Z.bits_inj'. intros n Hn.
        rewrite Z.lor_spec, !put_bit_testbit by lia. unfold p. rewrite Z.pow2_bits_eqb by lia.
        rewrite (Z.eqb_sym (Z.of_nat b)). destruct (n =? Z.of_nat b); simpl; auto.
        rewrite orb_false_r. auto.
      - simpl. lia. }
    split; [|split; auto].
    rewrite <- Hc. apply Z.bits_inj'. intros n Hn. rewrite put_bit_testbit by lia.
    destruct (Z.eqb_spec n (Z.of_nat b)); auto. subst; reflexivity. }
  destruct Hclear as (y & Hy & _ & ->). lia.
Qed.

(** ** Bits of a slice *)

Lemma idx_bit_lt w i : (0 < w)%nat -> (i mod w < w)%nat.
Proof. intros. apply Nat.mod_upper_bound. lia. Qed.

Lemma idx_div_lt w l i : (0 < w)%nat -> ((i / w < length l)%nat <-> (i < bit_len w l)%nat).
Proof.
  intros. unfold bit_len. split; intros H1.
  - rewrite (Nat.div_mod i w) by lia. pose proof (idx_bit_lt w i H). nia.
  - apply Nat.div_lt_upper_bound; lia.
Qed.

Lemma get_bit_opt_in w l i : (0 < w)%nat -> wf w l -> (i < bit_len w l)%nat ->
  get_bit_opt w l i = Some (Z.testbit (val w l) (Z.of_nat i)).
Proof.
  intros Hw Hl Hi. unfold get_bit_opt, idx_bit.
  rewrite nth_error_zget by (apply idx_div_lt; auto). simpl.
  rewrite test_bit_spec by (apply idx_bit_lt; auto).
  rewrite <- val_testbit_idx; auto.
Qed.

Lemma get_bit_opt_out w l i : (0 < w)%nat -> (bit_len w l <= i)%nat -> get_bit_opt w l i = None.
Proof.
  intros Hw Hi. unfold get_bit_opt, idx_bit. rewrite nth_error_oob; auto.
  destruct (Nat.le_gt_cases (length l) (i / w)); auto.
  apply idx_div_lt in H; auto. lia.
Qed.

Lemma get_bit_in w l i : (0 < w)%nat -> wf w l -> (i < bit_len w l)%nat ->
  get_bit w l i = Ok (Z.testbit (val w l) (Z.of_nat i)).
Proof. intros. unfold get_bit. rewrite get_bit_opt_in; auto. Qed.

Lemma get_bit_out w l i : (0 < w)%nat -> (bit_len w l <= i)%nat -> get_bit w l i = Panic.
Proof. intros. unfold get_bit. rewrite get_bit_opt_out; auto. Qed.

Lemma val_cap_bits w l : wf w l -> 0 <= val w l < 2 ^ Z.of_nat (bit_len w l).
Proof.
  intros. pose proof (val_bound w l H). unfold cap, bit_len in *.
  replace (Z.of_nat (length l * w)) with (Z.of_nat w * Z.of_nat (length l)) by lia. auto.
Qed.

Lemma testbit_val_out w l i : wf w l -> (bit_len w l <= i)%nat ->
  Z.testbit (val w l) (Z.of_nat i) = false.
Proof.
  intros. apply testbit_small with (Z.of_nat (bit_len w l)); [|lia]. apply val_cap_bits; auto.
Qed.

Lemma get_bit_or_false w l i : (0 < w)%nat -> wf w l ->
  unwrap_or (get_bit_opt w l i) false = Z.testbit (val w l) (Z.of_nat i).
Proof.
  intros. destruct (Nat.lt_ge_cases i (bit_len w l)).
  - rewrite get_bit_opt_in; auto.
  - rewrite get_bit_opt_out by auto. rewrite testbit_val_out; auto.
Qed.

Definition bset (w : nat) (l : list Z) (i : nat) (v : bool) : list Z :=
  upd l (i / w) (put_bit w (zget l (i / w)) (i mod w) v).

Lemma set_bit_opt_in w l i v : (0 < w)%nat -> (i < bit_len w l)%nat ->
  set_bit_opt w l i v = Some (bset w l i v).
Proof.
  intros. unfold set_bit_opt, idx_bit.
  rewrite nth_error_zget by (apply idx_div_lt; auto). reflexivity.
Qed.

Lemma set_bit_opt_out w l i v : (0 < w)%nat -> (bit_len w l <= i)%nat ->
  set_bit_opt w l i v = None.
Proof.
  intros. unfold set_bit_opt, idx_bit. rewrite nth_error_oob; auto.
  destruct (Nat.le_gt_cases (length l) (i / w)); auto.
  apply idx_div_lt in H1; auto. lia.
Qed.

Lemma length_bset w l i v : length (bset w l i v) = length l.
Proof. apply length_upd. Qed.

Lemma wf_bset w l i v : (0 < w)%nat -> wf w l -> wf w (bset w l i v).
Proof.
  intros. apply wf_upd; auto. apply put_bit_range; [apply idx_bit_lt; auto|].
  apply wf_zget; auto.
Qed.

Lemma pow2_idx w i : (0 < w)%nat ->
  2 ^ Z.of_nat i = cap w (i / w) * 2 ^ Z.of_nat (i mod w).
Proof.
  intros. unfold cap. rewrite <- Z.pow_add_r by lia. f_equal.
  rewrite (Nat.div_mod i w) at 1 by lia. lia.
Qed.

Lemma val_bset w l i v : (0 < w)%nat -> wf w l -> (i < bit_len w l)%nat ->
  val w (bset w l i v) =
  val w l + (Z.b2z v - Z.b2z (Z.testbit (val w l) (Z.of_nat i))) * 2 ^ Z.of_nat i.
Proof.
  intros Hw Hl Hi. unfold bset. rewrite val_upd by (apply idx_div_lt; auto).
  rewrite put_bit_val by (auto using idx_bit_lt, wf_zget).
  rewrite (val_testbit_idx w l i), (pow2_idx w i) by auto. ring.
Qed.

Lemma testbit_bset w l i v j : (0 < w)%nat -> wf w l -> (i < bit_len w l)%nat ->
  Z.testbit (val w (bset w l i v)) (Z.of_nat j) =
  if Nat.eqb j i then v else Z.testbit (val w l) (Z.of_nat j).
Proof.
  intros Hw Hl Hi. rewrite !val_testbit_idx by auto using wf_bset.
  unfold bset. rewrite zget_upd.
  assert (i / w < length l)%nat as Hlt by (apply idx_div_lt; auto).
  rewrite (proj2 (Nat.ltb_lt _ _) Hlt), andb_true_r.
  pose proof (Nat.div_mod i w ltac:(lia)). pose proof (Nat.div_mod j w ltac:(lia)).
  destruct (Nat.eqb_spec (i / w) (j / w)) as [E|E].
  - rewrite put_bit_testbit by (auto using idx_bit_lt, wf_zget; lia).
    destruct (Nat.eqb_spec j i) as [->|Hne].
    + rewrite Z.eqb_refl. auto.
    + rewrite E. destruct (Z.eqb_spec (Z.of_nat (j mod w)) (Z.of_nat (i mod w))) as [E2|]; auto.
      exfalso. apply Hne. apply Nat2Z.inj in E2. rewrite H, H0, E, E2. reflexivity.
  - destruct (Nat.eqb_spec j i) as [->|]; auto. congruence.
Qed.

Lemma set_bit_in w l i v : (0 < w)%nat -> (i < bit_len w l)%nat ->
  set_bit w l i v = Ok (bset w l i v).
Proof. intros. unfold set_bit. rewrite set_bit_opt_in; auto. Qed.

Lemma set_bit_out w l i v : (0 < w)%nat -> (bit_len w l <= i)%nat ->
  set_bit w l i v = Panic.
Proof. intros. unfold set_bit. rewrite set_bit_opt_out; auto. Qed.

Lemma set_bit_ignore_in w l i v : (0 < w)%nat -> (i < bit_len w l)%nat ->
  set_bit_ignore w l i v = bset w l i v.
Proof. intros. unfold set_bit_ignore. rewrite set_bit_opt_in; auto. Qed.

Lemma set_bit_ignore_out w l i v : (0 < w)%nat -> (bit_len w l <= i)%nat ->
  set_bit_ignore w l i v = l.
Proof. intros. unfold set_bit_ignore. rewrite set_bit_opt_out; auto. Qed.

(** ** Growing writes *)

Lemma length_extend l n v : length (extend l n v) = Nat.max (length l) n.
Proof.
  unfold extend. destruct (Nat.ltb_spec (length l) n).
  - rewrite app_length, repeat_length. lia.
  - lia.
Qed.

Lemma zget_extend l n i : zget (extend l n 0) i = zget l i.
Proof.
  unfold extend. destruct (Nat.ltb_spec (length l) n); auto.
  destruct (Nat.lt_ge_cases i (length l)).
  - apply zget_app1; auto.
  - rewrite zget_app2 by auto. rewrite (zget_oob l) by auto. apply (zget_zeros).
Qed.

Lemma wf_extend w l n : wf w l -> wf w (extend l n 0).
Proof.
  intros. apply wf_zget_iff. intros. rewrite zget_extend. apply wf_zget; auto.
Qed.

Lemma val_extend w l n : val w (extend l n 0) = val w l.
Proof.
  rewrite (val_sumB w _ (Nat.max (length l) n)) by (rewrite length_extend; auto).
  rewrite (val_sumB w l (Nat.max (length l) n)) by lia.
  apply sumB_ext. intros. apply zget_extend.
Qed.

Lemma set_bit_push_bset w l i v : (0 < w)%nat ->
  set_bit_push w l i v = bset w (extend l (i / w + 1) 0) i v.
Proof.
  intros. unfold set_bit_push, idx_bit. apply set_bit_ignore_in; auto.
  apply idx_div_lt; auto. rewrite length_extend. lia.
Qed.

Lemma set_bit_push_spec w l i v : (0 < w)%nat -> wf w l ->
  let l' := set_bit_push w l i v in
  wf w l' /\ length l' = Nat.max (length l) (i / w + 1) /\
  val w l' = val w l + (Z.b2z v - Z.b2z (Z.testbit (val w l) (Z.of_nat i))) * 2 ^ Z.of_nat i /\
  (forall j, Z.testbit (val w l') (Z.of_nat j) =
             if Nat.eqb j i then v else Z.testbit (val w l) (Z.of_nat j)).
Proof.
  intros Hw Hl l'. unfold l'. rewrite set_bit_push_bset by auto.
  assert (i < bit_len w (extend l (i / w + 1) 0))%nat.
  { apply idx_div_lt; auto. rewrite length_extend. lia. }
  split; [apply wf_bset; auto using wf_extend|].
  split; [rewrite length_bset, length_extend; auto|].
  split.
  - rewrite val_bset by (auto using wf_extend). rewrite val_extend. auto.
  - intros. rewrite testbit_bset by (auto using wf_extend). rewrite val_extend. auto.
Qed.

Lemma set_push_inside l i v : (i < length l)%nat -> set_push l i v = upd l i v.
Proof.
  intros. unfold set_push. rewrite set_ignore_upd. f_equal.
  unfold extend. destruct (Nat.ltb_spec (length l) i); auto. lia.
Qed.

Lemma set_push_outside l i v : (length l <= i)%nat -> set_push l i v = extend l i 0.
Proof.
  intros. unfold set_push. rewrite set_ignore_upd. apply upd_oob.
  rewrite length_extend. lia.
Qed.

(** ** shrink *)

Lemma rposition_nz_spec l :
  match rposition_nz l with
  | Some i => (i < length l)%nat /\ zget l i <> 0 /\
              (forall j, (i < j)%nat -> zget l j = 0)
  | None => forall j, zget l j = 0
  end.
Proof.
  induction l; simpl.
  - intros [|j]; reflexivity.
  - destruct (rposition_nz l).
    + destruct IHl as (H1 & H2 & H3). split; [lia|]. split; [auto|].
      intros [|j] Hj; [lia|]. apply H3. lia.
    + destruct (Z.eqb_spec a 0).
      * intros [|j]; [exact e | apply IHl].
      * split; [lia|]. split; [auto|]. intros [|j] Hj; [lia|]. apply IHl.
Qed.

Lemma firstn_all_zero_tail w l n : (forall j, (n <= j)%nat -> zget l j = 0) ->
  val w (firstn n l) = val w l.
Proof.
  intros. rewrite (val_sumB w (firstn n l) (length l)) by (rewrite firstn_length; lia).
  rewrite val_sum. apply sumB_ext. intros i Hi.
  destruct (Nat.lt_ge_cases i n).
  - apply zget_firstn; auto.
  - rewrite zget_oob by (rewrite firstn_length; lia). symmetry. auto.
Qed.

Lemma last_zget l : last l 0 = zget l (length l - 1).
Proof.
  induction l; auto. destruct l; auto.
  change (last (a :: z :: l) 0) with (last (z :: l) 0). rewrite IHl.
  unfold zget. simpl. rewrite Nat.sub_0_r. reflexivity.
Qed.

Lemma shrink_empty : shrink [] = Panic. Proof. reflexivity. Qed.

Lemma shrink_spec w l : wf w l -> l <> [] ->
  exists l', shrink l = Ok l' /\ (exists n, (0 < n <= length l)%nat /\ l' = firstn n l) /\
    wf w l' /\ canonical l' /\ val w l' = val w l.
Proof.
  intros Hl Hne. unfold shrink.
  assert (0 < length l)%nat as Hpos by (destruct l; simpl; [congruence|lia]).
  pose proof (rposition_nz_spec l) as H. destruct (rposition_nz l) as [i|]; simpl unwrap_or.
  - destruct H as (H1 & H2 & H3). rewrite (proj2 (Nat.leb_le _ _)) by lia.
    eexists. split; [reflexivity|]. split; [exists (i + 1)%nat; split; [lia|reflexivity]|].
    split; [apply wf_firstn; auto|].
    split; [split|].
    + destruct l; simpl; try congruence. rewrite Nat.add_1_r. simpl. congruence.
    + left. rewrite last_zget, firstn_length, Nat.min_l by lia.
      rewrite zget_firstn by lia. replace (i + 1 - 1)%nat with i by lia. auto.
    + apply firstn_all_zero_tail. intros. apply H3. lia.
  - rewrite (proj2 (Nat.leb_le _ _)) by lia.
    eexists. split; [reflexivity|]. split; [exists 1%nat; split; [lia|reflexivity]|].
    split; [apply wf_firstn; auto|]. split; [split|].
    + destruct l; simpl; congruence.
    + right. rewrite firstn_length. lia.
    + apply firstn_all_zero_tail. auto.
Qed.

Lemma shrink_val w l l' : wf w l -> shrink l = Ok l' ->
  wf w l' /\ canonical l' /\ val w l' = val w l.
Proof.
  intros Hl E. destruct l as [|x l].
  - discriminate.
  - destruct (shrink_spec w (x :: l) Hl) as (l2 & E2 & _ & H); [congruence|].
    rewrite E in E2. inv E2. auto.
Qed.

Lemma shrink_ok w l : wf w l -> (0 < length l)%nat ->
  exists l', shrink l = Ok l' /\ wf w l' /\ canonical l' /\ val w l' = val w l.
Proof.
  intros. destruct (shrink_spec w l H) as (l' & E & _ & H2).
  - destruct l; simpl in *; [lia|congruence].
  - eauto.
Qed.

Lemma canonical_cap w l : wf w l -> canonical l ->
  length l = 1%nat \/ cap w (length l - 1) <= val w l.
Proof.
  intros Hl [Hne [Hl'|]]; auto. right.
  assert (0 < length l)%nat by (destruct l; simpl; [congruence|lia]).
  rewrite last_zget in Hl'.
  rewrite (val_split w (length l - 1) l) by lia.
  pose proof (val_bound w (firstn (length l - 1) l) (wf_firstn _ _ _ Hl)).
  assert (skipn (length l - 1) l = [zget l (length l - 1)]) as ->.
  { apply zget_ext.
    - rewrite skipn_length. simpl. lia.
    - intros i. rewrite skipn_length, zget_skipn. intros. assert (i = 0%nat) as -> by lia.
      rewrite Nat.add_0_r. reflexivity. }
  rewrite val_cons, val_nil.
  pose proof (wf_zget w l (length l - 1) Hl). pose proof (cap_pos w (length l - 1)). nia.
Qed.

Lemma canonical_inj w l l' : wf w l -> wf w l' -> canonical l -> canonical l' ->
  val w l = val w l' -> l = l'.
Proof.
  intros Hl Hl' Hc Hc' E. apply (val_inj w); auto.
  pose proof (val_bound w l Hl). pose proof (val_bound w l' Hl').
  assert (0 < length l)%nat by (destruct Hc, l; simpl; [congruence|lia]).
  assert (0 < length l')%nat by (destruct Hc', l'; simpl; [congruence|lia]).
  destruct (Nat.lt_trichotomy (length l) (length l')) as [Hlt|[Heq|Hlt]]; auto.
  - destruct (canonical_cap w l' Hl' Hc') as [?|Hv]; [lia|].
    pose proof (cap_mono w (length l) (length l' - 1)). lia.
  - destruct (canonical_cap w l Hl Hc) as [?|Hv]; [lia|].
    pose proof (cap_mono w (length l') (length l - 1)). lia.
Qed.

Lemma canonical_shrink_id w l : wf w l -> canonical l -> shrink l = Ok l.
Proof.
  intros Hl Hc. destruct (shrink_spec w l Hl (proj1 Hc)) as (l' & E & _ & H1 & H2 & H3).
  rewrite E. f_equal. symmetry. apply (canonical_inj w); auto.
Qed.

Lemma shrink_eq_iff w l1 l2 : wf w l1 -> wf w l2 -> l1 <> [] -> l2 <> [] ->
  (shrink l1 = shrink l2 <-> val w l1 = val w l2).
Proof.
  intros H1 H2 N1 N2.
  destruct (shrink_spec w l1 H1 N1) as (a & Ea & _ & Wa & Ca & Va).
  destruct (shrink_spec w l2 H2 N2) as (b & Eb & _ & Wb & Cb & Vb).
  rewrite Ea, Eb. split; intros E.
  - inv E. congruence.
  - f_equal. apply (canonical_inj w); auto. congruence.
Qed.

(** ** BitIter *)

(** The iterator after [k] items. *)
Definition iter_state (w : nat) (l : list Z) (k : nat) : bit_iter :=
  {| bi_rest := skipn (k / w + 1) l; bi_cur := nth_error l (k / w); bi_idx := k |}.

Lemma iter_bits_state w l : (0 < w)%nat -> iter_bits l = iter_state w l 0.
Proof.
  intros. unfold iter_state. rewrite Nat.div_0_l by lia. destruct l; reflexivity.
Qed.

Lemma nth_error_skipn_cons {A} (l : list A) n x rest :
  skipn n l = x :: rest -> nth_error l n = Some x /\ skipn (S n) l = rest.
Proof.
  revert n. induction l; intros [|n] H; simpl in *; try discriminate.
  - inv H. auto.
  - apply IHl in H. auto.
Qed.

Lemma iter_next_state w l k : (0 < w)%nat -> wf w l -> (k < bit_len w l)%nat ->
  iter_next w (iter_state w l k) =
  (Some (Z.testbit (val w l) (Z.of_nat k)), iter_state w l (S k)).
Proof.
  intros Hw Hl Hk. unfold iter_next, iter_state. cbn [bi_cur bi_rest bi_idx].
  assert (k / w < length l)%nat as Hd by (apply idx_div_lt; auto).
  rewrite (nth_error_zget l (k / w)) by auto. cbn [bi_cur bi_rest bi_idx].
  rewrite test_bit_spec by (apply idx_bit_lt; auto).
  rewrite <- val_testbit_idx by auto. f_equal.
  pose proof (Nat.div_mod k w ltac:(lia)) as Hdm. pose proof (idx_bit_lt w k Hw).
  destruct (Nat.eqb_spec (k mod w) (w - 1)) as [E|E].
  - assert (S k / w = k / w + 1)%nat as Ed.
    { symmetry. apply (Nat.div_unique (S k) w (k / w + 1) 0); lia. }
    rewrite Ed, !Nat.add_1_r.
    destruct (skipn (S (k / w)) l) as [|x rest] eqn:Es.
    + pose proof (skipn_length (S (k / w)) l) as Hlen. rewrite Es in Hlen. simpl in Hlen.
      rewrite (nth_error_oob l (S (k / w))) by lia.
      rewrite skipn_all2 by lia. reflexivity.
    + apply nth_error_skipn_cons in Es. destruct Es as [-> ->]. reflexivity.
  - assert (S k / w = k / w)%nat as Ed.
    { symmetry. apply (Nat.div_unique (S k) w (k / w) (S (k mod w))); lia. }
    rewrite Ed, Nat.add_1_r. rewrite (nth_error_zget l (k / w)) by auto.
    rewrite Nat.add_1_r. reflexivity.
Qed.

Lemma iter_next_end w l k : (0 < w)%nat -> (bit_len w l <= k)%nat ->
  iter_next w (iter_state w l k) = (None, iter_state w l k).
Proof.
  intros Hw Hk. unfold iter_next, iter_state. cbn [bi_cur].
  rewrite nth_error_oob; auto.
  destruct (Nat.le_gt_cases (length l) (k / w)); auto. apply idx_div_lt in H; auto. lia.
Qed.

Lemma iter_take_state w l n : (0 < w)%nat -> wf w l -> forall k, (k <= bit_len w l)%nat ->
  iter_take w n (iter_state w l k) =
  (map (fun i => Z.testbit (val w l) (Z.of_nat i)) (seq k (Nat.min n (bit_len w l - k))),
   iter_state w l (k + Nat.min n (bit_len w l - k))).
Proof.
  intros Hw Hl. induction n; intros k Hk; cbn [iter_take].
  - cbn. rewrite Nat.add_0_r. reflexivity.
  - destruct (Nat.lt_ge_cases k (bit_len w l)).
    + rewrite iter_next_state by auto. rewrite IHn by lia.
      replace (bit_len w l - k)%nat with (S (bit_len w l - S k)) by lia.
      rewrite <- Nat.succ_min_distr. cbn [seq map]. f_equal. f_equal. lia.
    + rewrite iter_next_end by auto.
      replace (bit_len w l - k)%nat with 0%nat by lia.
      rewrite Nat.min_0_r. cbn. rewrite Nat.add_0_r. reflexivity.
Qed.

Lemma iter_take_spec w l n : (0 < w)%nat -> wf w l ->
  fst (iter_take w n (iter_bits l)) =
  map (fun i => Z.testbit (val w l) (Z.of_nat i)) (seq 0 (Nat.min n (bit_len w l))).
Proof.
  intros. rewrite (iter_bits_state w) by auto. rewrite iter_take_state by (auto; lia).
  cbn [fst]. rewrite Nat.sub_0_r. reflexivity.
Qed.

Lemma iter_take_snd w l n : (0 < w)%nat -> wf w l ->
  snd (iter_take w n (iter_bits l)) = iter_state w l (Nat.min n (bit_len w l)).
Proof.
  intros. rewrite (iter_bits_state w) by auto. rewrite iter_take_state by (auto; lia).
  cbn [snd]. rewrite Nat.sub_0_r. reflexivity.
Qed.

Lemma iter_len_state dbg w l k : (0 < w)%nat -> (k < bit_len w l)%nat ->
  iter_len dbg w (iter_state w l k) =
  if Nat.leb k w then Ok (Z.of_nat (bit_len w l) - Z.of_nat (k / w * w) - Z.of_nat k)
  else if dbg then Panic
  else Ok ((Z.of_nat (bit_len w l) - Z.of_nat (k / w * w) - Z.of_nat k) mod 2 ^ 64).
Proof.
  intros Hw Hk. unfold iter_len, iter_state. cbn [bi_cur bi_rest bi_idx].
  assert (k / w < length l)%nat as Hd by (apply idx_div_lt; auto).
  rewrite (nth_error_zget l (k / w)) by auto. rewrite skipn_length. unfold bit_len.
  assert (Z.of_nat w * Z.of_nat (length l - (k / w + 1)) + (Z.of_nat w - Z.of_nat k) =
          Z.of_nat (length l * w) - Z.of_nat (k / w * w) - Z.of_nat k) as ->; auto.
  rewrite Nat2Z.inj_sub, Nat2Z.inj_add, !Nat2Z.inj_mul by lia. ring.
Qed.

Lemma iter_len_end dbg w l k : (0 < w)%nat -> (bit_len w l <= k)%nat ->
  iter_len dbg w (iter_state w l k) = Ok 0.
Proof.
  intros Hw Hk. unfold iter_len, iter_state. cbn [bi_cur bi_rest bi_idx].
  assert (length l <= k / w)%nat.
  { destruct (Nat.le_gt_cases (length l) (k / w)); auto. apply idx_div_lt in H; auto. lia. }
  rewrite nth_error_oob by auto. rewrite skipn_all2 by lia. simpl. f_equal. lia.
Qed.

(** ** int_to_arr *)

Lemma int_to_arr_loop_spec w n : forall v, 0 <= v ->
  let l := int_to_arr_loop w n v (base w) in
  length l = n /\ wf w l /\ val w l = v mod cap w n.
Proof.
  pose proof (base_pos w) as Hb.
  induction n; intros v Hv; cbn [int_to_arr_loop].
  - split; auto. split; [constructor|]. rewrite cap_0, Z.mod_1_r. reflexivity.
  - destruct (Z.ltb_spec v (base w)).
    + cbn [length]. rewrite length_zeros. split; auto.
      split; [apply wf_cons; split; [lia|apply wf_zeros]|].
      rewrite val_cons, val_zeros, Z.mod_small; [lia|].
      rewrite cap_S. pose proof (cap_pos w n). nia.
    + destruct (IHn (v / base w)) as (E1 & E2 & E3); [apply Z.div_pos; lia|].
      cbn [length]. split; [congruence|].
      split; [apply wf_cons; split; [apply Z.mod_pos_bound; lia|auto]|].
      rewrite val_cons, E3, cap_S. pose proof (cap_pos w n).
      rewrite Z.rem_mul_r by lia. reflexivity.
Qed.

Lemma int_to_arr_spec dbg w n v : (0 < n)%nat -> 0 <= v ->
  exists l, int_to_arr dbg w n v = Ok l /\ length l = n /\ wf w l /\ val w l = v mod cap w n.
Proof.
  intros Hn Hv. unfold int_to_arr.
  rewrite (proj2 (Nat.eqb_neq n 0)), andb_false_r by lia.
  destruct (Z.ltb_spec v (base w)).
  - destruct n; [lia|]. eexists. split; [reflexivity|].
    cbn [length]. rewrite length_zeros. split; auto.
    split; [apply wf_cons; split; [lia|apply wf_zeros]|].
    rewrite val_cons, val_zeros, Z.mod_small; [lia|].
    rewrite cap_S. pose proof (cap_pos w n). pose proof (base_pos w). nia.
  - eexists. split; [reflexivity|]. unfold wmax.
    replace (base w - 1 + 1) with (base w) by lia. apply int_to_arr_loop_spec; auto.
Qed.

(** ** arr_to_int *)

Definition uty (m : nat) : ity := {| ibits := m; isigned := false |}.
Definition sty (m : nat) : ity := {| ibits := m; isigned := true |}.

Lemma in_range_u m v : in_range (uty m) v = true <-> 0 <= v < base m.
Proof.
  unfold in_range, imin, imax, base; simpl. rewrite andb_true_iff, Z.leb_le, Z.leb_le. lia.
Qed.

Lemma wrap_u m v : wrap (uty m) v = v mod base m.
Proof. unfold wrap, base; simpl. reflexivity. Qed.

Lemma from_checked_u m v : 0 <= v < base m -> from_checked (uty m) v = Some v.
Proof. intros. unfold from_checked. rewrite (proj2 (in_range_u m v)); auto. Qed.

Lemma from_checked_u_none m v : 0 <= v -> base m <= v -> from_checked (uty m) v = None.
Proof.
  intros. unfold from_checked. destruct (in_range (uty m) v) eqn:E; auto.
  apply in_range_u in E. lia.
Qed.

Lemma pow_le_base w m : (w <= m)%nat -> base w <= base m.
Proof. intros. unfold base. apply Z.pow_le_mono_r; lia. Qed.

(** Limbs narrower than the target: everything fits while the shift stays in range. *)
Lemma arr_to_int_loop_u dbg w m q : (0 < w)%nat -> m = (q * w)%nat -> Z.of_nat m < 2 ^ 32 ->
  forall arr idx out, wf w arr -> (idx <= q)%nat -> 0 <= out < cap w idx ->
  arr_to_int_loop dbg w (uty m) arr (Z.of_nat idx) out =
  Ok (if Nat.leb (idx + length arr) q then Some (out + cap w idx * val w arr) else None).
Proof.
  intros Hw Hm H32. induction arr; intros idx out Hwf Hidx Hout; cbn [arr_to_int_loop].
  - cbn [length]. rewrite Nat.add_0_r, (proj2 (Nat.leb_le _ _)) by auto.
    rewrite val_nil. do 2 f_equal. lia.
  - apply wf_cons in Hwf. destruct Hwf as [Ha Hwf].
    assert (Z.of_nat idx * Z.of_nat w <= Z.of_nat m) as Hle by nia.
    unfold checked_shl_usize.
    rewrite (Z.mod_small (Z.of_nat idx * Z.of_nat w)) by nia.
    change (ibits (uty m)) with m.
    destruct (Nat.eq_dec q 0) as [Hq|Hq].
    { assert (idx = 0)%nat by lia. subst idx q. simpl in Hm. subst m.
      assert ((Z.of_nat 0 * Z.of_nat w <? Z.of_nat 0) = false) as -> by (apply Z.ltb_ge; lia).
      cbn [length]. rewrite (proj2 (Nat.leb_gt _ _)) by lia.
      destruct (from_checked (uty 0) a); auto. }
    rewrite from_checked_u.
    2:{ pose proof (pow_le_base w m ltac:(nia)). lia. }
    destruct (Z.ltb_spec (Z.of_nat idx * Z.of_nat w) (Z.of_nat m)) as [Hlt|Hge].
    + assert (idx < q)%nat as Hiq by nia.
      assert (base m = cap w q) as Hbm.
      { unfold base, cap. f_equal. lia. }
      assert (cap w (S idx) <= base m) as Hc by (rewrite Hbm; apply cap_mono; lia).
      rewrite cap_S in Hc. pose proof (cap_pos w idx).
      rewrite wrap_u, Z.shiftl_mul_pow2 by lia.
      replace (2 ^ (Z.of_nat idx * Z.of_nat w)) with (cap w idx)
        by (unfold cap; f_equal; lia).
      rewrite Z.mod_small by nia.
      unfold iadd. rewrite (proj2 (in_range_u m _)) by nia. cbn [bind].
      replace (Z.of_nat idx + 1) with (Z.of_nat (S idx)) by lia.
      rewrite IHarr; auto; try lia.
      2:{ rewrite cap_S. nia. }
      cbn [length]. rewrite Nat.add_succ_r. cbn [Nat.add].
      destruct (Nat.leb (S (idx + length arr)) q); auto. do 2 f_equal.
      rewrite val_cons, cap_S. ring.
    + assert (idx = q)%nat by nia. subst idx.
      cbn [length]. rewrite (proj2 (Nat.leb_gt _ _)) by lia. reflexivity.
Qed.

Lemma arr_to_int_u dbg w m arr : (0 < w)%nat -> Nat.divide w m -> Z.of_nat m < 2 ^ 32 -> wf w arr ->
  arr_to_int dbg w (uty m) arr =
  Ok (if Nat.leb (length arr * w) m then Some (val w arr) else None).
Proof.
  intros Hw [q Hq] H32 Hwf. unfold arr_to_int.
  change 0 with (Z.of_nat 0) at 1.
  rewrite (arr_to_int_loop_u dbg w m q); auto; try lia.
  2:{ rewrite cap_0. lia. }
  rewrite cap_0. cbn [Nat.add].
  destruct (Nat.leb_spec (length arr) q); destruct (Nat.leb_spec (length arr * w) m); try nia;
    do 2 f_equal; lia.
Qed.

(** Limbs wider than the target: at most one limb, and it must fit. *)
Lemma arr_to_int_u_narrow dbg w m arr : (0 < m < w)%nat -> Z.of_nat w < 2 ^ 32 -> wf w arr ->
  arr_to_int dbg w (uty m) arr =
  Ok (match arr with
      | [] => Some 0
      | [x] => if x <? base m then Some x else None
      | _ => None
      end).
Proof.
  intros Hm H32 Hwf. unfold arr_to_int.
  destruct arr as [|x arr]; [reflexivity|]. cbn [arr_to_int_loop].
  apply wf_cons in Hwf. destruct Hwf as [Hx Hwf].
  destruct (Z.ltb_spec x (base m)).
  - rewrite from_checked_u by lia. unfold checked_shl_usize at 1.
    change (ibits (uty m)) with m. rewrite Z.mul_0_l, Z.mod_0_l by lia.
    rewrite (proj2 (Z.ltb_lt _ _)) by lia. rewrite Z.shiftl_0_r, wrap_u, Z.mod_small by lia.
    unfold iadd. rewrite Z.add_0_l, (proj2 (in_range_u m x)) by lia. cbn [bind].
    destruct arr as [|y arr]; [reflexivity|]. cbn [arr_to_int_loop].
    unfold checked_shl_usize. change (ibits (uty m)) with m.
    replace ((0 + 1) * Z.of_nat w) with (Z.of_nat w) by lia.
    rewrite Z.mod_small by lia. rewrite (proj2 (Z.ltb_ge _ _)) by lia.
    destruct (from_checked (uty m) y); reflexivity.
  - rewrite from_checked_u_none by lia. destruct arr; reflexivity.
Qed.

(** ** const_reverse *)

Lemma const_reverse_rev l : const_reverse l = rev l.
Proof.
  unfold const_reverse. set (n := length l).
  set (f := fun (bytes : list Z) (idx : nat) => _).
  assert (Inv : length (fold_left f (seq 0 (n / 2)) l) = n /\
    forall i, (i < n)%nat -> zget (fold_left f (seq 0 (n / 2)) l) i =
      if Nat.ltb i (n / 2) || Nat.leb (n - n / 2) i then zget l (n - 1 - i) else zget l i).
  { apply (fold_seq0_ind (fun k b => length b = n /\ forall i, (i < n)%nat -> zget b i =
      if Nat.ltb i k || Nat.leb (n - k) i then zget l (n - 1 - i) else zget l i)).
    - split; auto. intros i Hi. rewrite (proj2 (Nat.leb_gt _ _)) by lia.
      destruct (Nat.ltb_spec i 0); [lia|]. reflexivity.
    - intros k b Hk (Hlen & Hget).
      assert (2 * (n / 2) <= n)%nat by (pose proof (Nat.div_mod n 2 ltac:(lia)); lia).
      unfold f. rewrite !length_upd, Hlen. split; auto.
      intros i Hi. rewrite zget_upd, length_upd, Hlen.
      rewrite (proj2 (Nat.ltb_lt (n - k - 1) n)) by lia. rewrite andb_true_r.
      destruct (Nat.eqb_spec (n - k - 1) i) as [<-|Hne].
      + rewrite (Hget k) by lia.
        rewrite (proj2 (Nat.ltb_ge k k)), (proj2 (Nat.leb_gt (n - k) k)) by lia. cbn [orb].
        rewrite (proj2 (Nat.leb_le (n - S k) (n - k - 1))) by lia. rewrite orb_true_r.
        f_equal. lia.
      + rewrite zget_upd, Hlen. rewrite (proj2 (Nat.ltb_lt k n)) by lia. rewrite andb_true_r.
        destruct (Nat.eqb_spec k i) as [<-|Hne2].
        * rewrite (Hget (n - k - 1)%nat) by lia.
          rewrite (proj2 (Nat.ltb_ge (n - k - 1) k)), (proj2 (Nat.leb_gt (n - k) (n - k - 1))) by lia.
          rewrite (proj2 (Nat.ltb_lt k (S k))) by lia. simpl orb. cbv iota. f_equal. lia.
        * rewrite Hget by auto.
          destruct (Nat.ltb_spec i k), (Nat.ltb_spec i (S k)); try lia; simpl; auto.
          destruct (Nat.leb_spec (n - k) i), (Nat.leb_spec (n - S k) i); try lia; auto. }
  destruct Inv as [Hlen Hget]. apply zget_ext.
  - rewrite Hlen, rev_length. auto.
  - intros i Hi. rewrite Hlen in Hi. rewrite Hget by auto.
    unfold zget at 3. rewrite rev_nth by auto. fold n.
    replace (n - S i)%nat with (n - 1 - i)%nat by lia. fold (zget l (n - 1 - i)).
    destruct (Nat.ltb_spec i (n / 2)), (Nat.leb_spec (n - n / 2) i); simpl; auto.
    pose proof (Nat.div_mod n 2 ltac:(lia)). pose proof (Nat.mod_upper_bound n 2 ltac:(lia)).
    f_equal. lia.
Qed.
