(** Proofs: in-place shift wrappers, bit-by-bit algorithms, both long divisions. *)
From Coq Require Import ZArith List Bool Lia.
From Verif Require Import Base Words Spec Arith BitSliceModel BitSliceProofs ElementModel
  BitwiseModel ElemAddSub ElemMul ElemShift.
Import ListNotations.
Local Open Scope Z_scope.

(** ** Amount masking of the wrapping shifts *)

Lemma Zlog2_of_nat n : (0 < n)%nat -> Z.log2 (Z.of_nat n) = Z.of_nat (Nat.log2 n).
Proof.
  intros H. apply Z.log2_unique; [lia|]. pose proof (Nat.log2_spec n H) as [H1 H2].
  rewrite <- Nat2Z.inj_succ. change 2 with (Z.of_nat 2). rewrite <- !Nat2Z.inj_pow. lia.
Qed.

Lemma masked_amount_spec dbg bl r : (2 <= bl)%nat -> Z.of_nat bl < 2 ^ 64 ->
  masked_amount dbg bl r = Ok (Nat.modulo r (2 ^ Nat.log2 bl)).
Proof.
  intros Hbl H64. unfold masked_amount. rewrite (proj2 (Nat.eqb_neq bl 0)) by lia.
  assert (1 <= Z.log2 (Z.of_nat bl) < 64) as Hlog.
  { split; [apply Z.log2_le_pow2; lia|apply Z.log2_lt_pow2; lia]. }
  rewrite (proj2 (Z.leb_gt 64 _)) by lia. cbn [andb].
  rewrite (Z.mod_small (63 - Z.log2 (Z.of_nat bl) + 1)) by lia. f_equal.
  replace (Z.shiftr (2 ^ 64 - 1) (63 - Z.log2 (Z.of_nat bl) + 1))
    with (Z.ones (Z.log2 (Z.of_nat bl))).
  - rewrite Z.land_ones by lia.
    assert (2 ^ Z.log2 (Z.of_nat bl) = Z.of_nat (2 ^ Nat.log2 bl)) as ->.
    { rewrite Nat2Z.inj_pow. f_equal. apply Zlog2_of_nat. lia. }
    rewrite <- Nat2Z.inj_mod. apply Nat2Z.id.
  - rewrite Z.shiftr_div_pow2 by lia. rewrite Z.ones_equiv.
    apply (Z.div_unique_pos _ _ _ (2 ^ (63 - Z.log2 (Z.of_nat bl) + 1) - 1)).
    + assert (0 < 2 ^ (63 - Z.log2 (Z.of_nat bl) + 1)) by (apply Z.pow_pos_nonneg; lia). lia.
    + replace (2 ^ 64) with (2 ^ (63 - Z.log2 (Z.of_nat bl) + 1) * 2 ^ (Z.log2 (Z.of_nat bl))).
      * rewrite <- Z.sub_1_r. ring.
      * rewrite <- Z.pow_add_r by lia. f_equal. lia.
Qed.

Lemma masked_amount_one dbg bl : (2 <= bl)%nat -> Z.of_nat bl < 2 ^ 64 ->
  masked_amount dbg bl 1 = Ok 1%nat.
Proof.
  intros. rewrite masked_amount_spec by auto. f_equal. apply Nat.mod_small.
  assert (1 <= Nat.log2 bl)%nat by (apply Nat.log2_le_pow2; simpl; lia).
  apply Nat.lt_le_trans with (2 ^ 1)%nat; [simpl; lia|]. apply Nat.pow_le_mono_r; lia.
Qed.

Lemma masked_lt_bl bl r : (0 < bl)%nat -> (Nat.modulo r (2 ^ Nat.log2 bl) < bl)%nat.
Proof.
  intros. pose proof (Nat.log2_spec bl H).
  assert (Nat.modulo r (2 ^ Nat.log2 bl) < 2 ^ Nat.log2 bl)%nat.
  { apply Nat.mod_upper_bound. apply Nat.pow_nonzero. lia. }
  lia.
Qed.

Lemma div_le_len w l r : (0 < w)%nat -> (r <= bit_len w l)%nat -> (r / w <= length l)%nat.
Proof. intros. unfold bit_len in *. apply Nat.div_le_upper_bound; lia. Qed.

Lemma elem_shl_wrapping_spec dbg w l r : (0 < w)%nat -> wf w l ->
  (2 <= bit_len w l)%nat -> Z.of_nat (bit_len w l) < 2 ^ 64 ->
  exists out, elem_shl_wrapping dbg w l r = Ok out /\ length out = length l /\ wf w out /\
    val w out = (val w l * 2 ^ Z.of_nat (Nat.modulo r (2 ^ Nat.log2 (bit_len w l))))
                  mod cap w (length l).
Proof.
  intros Hw Hl H2 H64. unfold elem_shl_wrapping. rewrite masked_amount_spec by auto. cbn [bind].
  pose proof (masked_lt_bl (bit_len w l) r ltac:(lia)).
  pose proof (inner_shl_spec w (Nat.modulo r (2 ^ Nat.log2 (bit_len w l))) Hw l Hl) as HS.
  rewrite (proj2 (Nat.leb_le _ _)) in HS by (apply div_le_len; auto; lia). exact HS.
Qed.

Lemma elem_shl_wrapping_1 dbg w l : (2 <= w)%nat -> wf w l -> (0 < length l)%nat ->
  Z.of_nat (bit_len w l) < 2 ^ 64 -> 2 * val w l < cap w (length l) ->
  exists out, elem_shl_wrapping dbg w l 1 = Ok out /\ length out = length l /\ wf w out /\
    val w out = 2 * val w l.
Proof.
  intros Hw Hl Hn H64 Hb. assert (2 <= bit_len w l)%nat as Hbl by (unfold bit_len; nia).
  unfold elem_shl_wrapping. rewrite masked_amount_one by auto. cbn [bind].
  pose proof (inner_shl_spec w 1 ltac:(lia) l Hl) as HS.
  rewrite (Nat.div_small 1 w) in HS by lia. cbn [Nat.leb] in HS.
  destruct HS as (out & E & L & W & V). exists out. split; auto. split; auto. split; auto.
  rewrite V. change (2 ^ Z.of_nat 1) with 2. pose proof (val_nonneg w l Hl).
  rewrite Z.mod_small; lia.
Qed.

(** ** Bits and powers of two *)

Lemma mod_pow_S a k : a mod 2 ^ Z.of_nat (S k) =
  a mod 2 ^ Z.of_nat k + Z.b2z (Z.testbit a (Z.of_nat k)) * 2 ^ Z.of_nat k.
Proof.
  pose proof (pow2_pos k). rewrite Nat2Z.inj_succ, Z.pow_succ_r by lia.
  rewrite (Z.mul_comm 2), Z.rem_mul_r by lia.
  rewrite Z.testbit_spec' by lia. lia.
Qed.

Lemma div_pow_S a k :
  a / 2 ^ Z.of_nat k = 2 * (a / 2 ^ Z.of_nat (S k)) + Z.b2z (Z.testbit a (Z.of_nat k)).
Proof.
  pose proof (pow2_pos k). rewrite Nat2Z.inj_succ, Z.pow_succ_r by lia.
  rewrite (Z.mul_comm 2 (2 ^ _)), <- Z.div_div by lia.
  rewrite Z.testbit_spec' by lia. apply Z.div_mod. lia.
Qed.

Lemma mod_pow_small a k n : 0 <= a < 2 ^ Z.of_nat n -> (n <= k)%nat -> a mod 2 ^ Z.of_nat k = a.
Proof.
  intros. apply Z.mod_small. assert (2 ^ Z.of_nat n <= 2 ^ Z.of_nat k) by (apply Z.pow_le_mono_r; lia).
  lia.
Qed.

Lemma div_pow_small a k n : 0 <= a < 2 ^ Z.of_nat n -> (n <= k)%nat -> a / 2 ^ Z.of_nat k = 0.
Proof.
  intros. apply Z.div_small. assert (2 ^ Z.of_nat n <= 2 ^ Z.of_nat k) by (apply Z.pow_le_mono_r; lia).
  lia.
Qed.

Lemma testbit_small_nat a k : 0 <= a < 2 ^ Z.of_nat k -> Z.testbit a (Z.of_nat k) = false.
Proof. intros. apply testbit_small with (Z.of_nat k); auto; lia. Qed.

Lemma bget_spec w l i : (0 < w)%nat -> wf w l -> bget w l i = Z.testbit (val w l) (Z.of_nat i).
Proof. apply get_bit_or_false. Qed.

Lemma bit_add_step_spec l r c : let '(n, c') := bit_add_step l r c in
  Z.b2z n + 2 * Z.b2z c' = Z.b2z l + Z.b2z r + Z.b2z c.
Proof. destruct l, r, c; reflexivity. Qed.

Lemma bit_sub_step_spec l r c : let '(n, c') := bit_sub_step l r c in
  Z.b2z n - 2 * Z.b2z c' = Z.b2z l - Z.b2z r - Z.b2z c.
Proof. destruct l, r, c; reflexivity. Qed.

Lemma pow_S_nat k : 2 ^ Z.of_nat (S k) = 2 * 2 ^ Z.of_nat k.
Proof. rewrite Nat2Z.inj_succ, Z.pow_succ_r; lia. Qed.

(** ** Bitwise addition *)

Lemma bit_add_spec w l r : (0 < w)%nat -> wf w l -> wf w r ->
  wf w (bit_add w l r) /\ val w (bit_add w l r) = val w l + val w r.
Proof.
  intros Hw Hl Hr. unfold bit_add. set (bl := Nat.max (bit_len w l) (bit_len w r)).
  match goal with |- wf _ (fst ?t) /\ _ => assert (
    let '(out, carry) := t in wf w out /\ 0 <= val w out < 2 ^ Z.of_nat (bl + 1) /\
      val w out + Z.b2z carry * 2 ^ Z.of_nat (bl + 1) =
      val w l mod 2 ^ Z.of_nat (bl + 1) + val w r mod 2 ^ Z.of_nat (bl + 1)) as H end.
  { apply (fold_seq0_ind (fun k '(out, carry) => wf w out /\ 0 <= val w out < 2 ^ Z.of_nat k /\
      val w out + Z.b2z carry * 2 ^ Z.of_nat k = val w l mod 2 ^ Z.of_nat k + val w r mod 2 ^ Z.of_nat k)).
    - rewrite val_zeros. simpl (2 ^ Z.of_nat 0). rewrite !Z.mod_1_r.
      split; [apply wf_zeros|]. split; [lia|]. reflexivity.
    - intros k [out c] Hk (H1 & H2 & H3).
      rewrite !bget_spec by auto.
      pose proof (bit_add_step_spec (Z.testbit (val w l) (Z.of_nat k)) (Z.testbit (val w r) (Z.of_nat k)) c) as HB.
      destruct (bit_add_step _ _ c) as [n c'].
      rewrite !mod_pow_S, pow_S_nat. pose proof (pow2_pos k).
      assert (let out' := if n then set_bit_push w out k n else out in
              wf w out' /\ val w out' = val w out + Z.b2z n * 2 ^ Z.of_nat k) as [W V].
      { destruct n; cbv zeta.
        - destruct (set_bit_push_spec w out k true Hw H1) as (A1 & _ & A3 & _). split; auto.
          rewrite A3, testbit_small_nat by auto. simpl Z.b2z. ring.
        - split; auto. simpl Z.b2z. ring. }
      split; auto. rewrite V.
      assert (0 <= Z.b2z n <= 1) by apply b2z_range. split; [nia|]. nia. }
  destruct (fold_left _ _ _) as [out carry]. destruct H as (H1 & H2 & H3). cbn [fst]. split; auto.
  pose proof (val_cap_bits w l Hl) as Bl. pose proof (val_cap_bits w r Hr) as Br.
  assert (2 ^ Z.of_nat (bit_len w l) <= 2 ^ Z.of_nat bl) by (apply Z.pow_le_mono_r; lia).
  assert (2 ^ Z.of_nat (bit_len w r) <= 2 ^ Z.of_nat bl) by (apply Z.pow_le_mono_r; lia).
  rewrite !(mod_pow_small _ (bl + 1) bl) in H3 by lia.
  rewrite Nat.add_1_r, pow_S_nat in H3. destruct carry; simpl Z.b2z in H3; lia.
Qed.

Lemma bit_add_in_place_panics w l r : (0 < w)%nat -> wf w l -> wf w r -> bit_add_in_place w l r = Panic.
Proof.
  intros Hw Hl Hr. unfold bit_add_in_place.
  match goal with |- context [foldR ?g _ _] => set (f := g) end.
  set (n := (Nat.max (bit_len w l) (bit_len w r) + 1)%nat).
  assert (forall m a st, length (fst st) = length l -> wf w (fst st) -> (a <= Nat.min (bit_len w l) (bit_len w r))%nat ->
    (Nat.min (bit_len w l) (bit_len w r) < a + m)%nat -> foldR f (seq a m) st = Panic) as H.
  { induction m; intros a [o c] Hlen Hwf Ha Hm; [lia|]. cbn [seq foldR fst] in *.
    assert (bit_len w o = bit_len w l) as Eb by (unfold bit_len; rewrite Hlen; auto).
    unfold f at 1. cbv beta iota. destruct (Nat.lt_ge_cases a (bit_len w l)).
    - rewrite get_bit_in by (auto; lia). cbn [bind].
      destruct (Nat.lt_ge_cases a (bit_len w r)).
      + rewrite get_bit_in by auto. cbn [bind]. destruct (bit_add_step _ _ c) as [x c'].
        rewrite set_bit_in by (auto; lia). cbn [bind]. apply IHm; cbn [fst]; try lia.
        * rewrite length_bset. auto.
        * apply wf_bset; auto.
      + rewrite (get_bit_out w r) by auto. reflexivity.
    - rewrite get_bit_out by (auto; lia). reflexivity. }
  rewrite H; auto; subst n; lia.
Qed.

(** ** Bitwise subtraction *)

Lemma bit_len_max w l r : Nat.max (bit_len w l) (bit_len w r) = (Nat.max (length l) (length r) * w)%nat.
Proof. unfold bit_len. rewrite Nat.mul_max_distr_r. auto. Qed.

Lemma bit_len_zeros w n : bit_len w (zeros n) = (n * w)%nat.
Proof. unfold bit_len. rewrite length_zeros. auto. Qed.

Lemma cap_bits w n : cap w n = 2 ^ Z.of_nat (n * w).
Proof. unfold cap. f_equal. lia. Qed.

Lemma bit_sub_spec w l r : (0 < w)%nat -> wf w l -> wf w r ->
  exists out, bit_sub w l r = Ok (out, val w l <? val w r) /\ wf w out /\
    length out = Nat.max (length l) (length r) /\
    val w out = sub_magnitude (val w l) (val w r).
Proof.
  intros Hw Hl Hr. unfold bit_sub. rewrite bit_len_max. set (len := Nat.max (length l) (length r)).
  destruct (foldR_seq0_ind (fun k '(out, carry) => length out = len /\ wf w out /\
      0 <= val w out < 2 ^ Z.of_nat k /\
      val w out - Z.b2z carry * 2 ^ Z.of_nat k = val w l mod 2 ^ Z.of_nat k - val w r mod 2 ^ Z.of_nat k)
    (fun '(out, carry) idx =>
      let '(new, carry) := bit_sub_step (bget w l idx) (bget w r idx) carry in
      do out <- set_bit w out idx new ;;
      Ok (out, carry)) (len * w) (zeros len, false)) as ([out c] & E & H).
  - rewrite length_zeros, val_zeros. simpl (2 ^ Z.of_nat 0). rewrite !Z.mod_1_r.
    split; auto. split; [apply wf_zeros|]. split; [lia|]. reflexivity.
  - intros k [out c] Hk (H0 & H1 & H2 & H3).
    rewrite !bget_spec by auto.
    pose proof (bit_sub_step_spec (Z.testbit (val w l) (Z.of_nat k)) (Z.testbit (val w r) (Z.of_nat k)) c) as HB.
    destruct (bit_sub_step _ _ c) as [n c'].
    assert (k < bit_len w out)%nat as Hk' by (unfold bit_len; rewrite H0; auto).
    rewrite set_bit_in by auto. cbn [bind]. eexists. split; [reflexivity|]. cbv beta iota.
    rewrite length_bset. split; auto. split; [apply wf_bset; auto|].
    rewrite val_bset by auto. rewrite testbit_small_nat by auto. simpl (Z.b2z false).
    rewrite !mod_pow_S, pow_S_nat. pose proof (pow2_pos k).
    assert (0 <= Z.b2z n <= 1) by apply b2z_range. split; [nia|]. nia.
  - destruct H as (H0 & H1 & H2 & H3). rewrite E. cbn [bind].
    pose proof (val_cap_bits w l Hl) as Bl. pose proof (val_cap_bits w r Hr) as Br.
    rewrite (mod_pow_small (val w l) _ (bit_len w l)) in H3 by (auto; unfold bit_len; nia).
    rewrite (mod_pow_small (val w r) _ (bit_len w r)) in H3 by (auto; unfold bit_len; nia).
    rewrite <- cap_bits in *. unfold sub_magnitude.
    destruct c; simpl Z.b2z in H3.
    + assert (val w l < val w r) as Hlt by lia.
      assert (0 < length out)%nat as Hpos.
      { rewrite H0. destruct len eqn:El; [|lia].
        assert (length r = 0%nat) by lia. destruct r; [|discriminate].
        rewrite val_nil in Hlt. pose proof (val_nonneg w l Hl). lia. }
      destruct (flip_not w out Hw H1 Hpos) as (x' & Ex & Wx & Lx & Vx).
      rewrite (proj2 (Z.ltb_lt _ _)) by auto. rewrite (proj2 (Z.leb_gt _ _)) by auto.
      exists x'. split.
      * assert (0 < bit_len w out)%nat as Hb by (unfold bit_len; nia).
        rewrite get_bit_in in Ex |- * by auto. cbn [bind] in Ex |- *.
        rewrite set_bit_in in Ex |- * by auto. cbn [bind] in Ex |- *. inv Ex. reflexivity.
      * split; auto. split; [congruence|]. rewrite Vx, H0. cbv zeta.
        replace (cap w len - val w out) with (val w r - val w l) by lia. auto.
    + rewrite (proj2 (Z.ltb_ge _ _)) by lia. rewrite (proj2 (Z.leb_le _ _)) by lia.
      exists out. split; auto. split; auto. split; auto. lia.
Qed.

(** ** Bitwise multiplication *)

Lemma bit_mul_spec w l r : (0 < w)%nat -> wf w l -> wf w r ->
  exists out, bit_mul w l r = Ok out /\ wf w out /\ val w out = val w l * val w r.
Proof.
  intros Hw Hl Hr. unfold bit_mul. set (len := Nat.max (length l) (length r)).
  destruct (elem_shl_spec w 0 Hw l Hl) as (ns & Ens & Wns & Cns & Vns).
  rewrite Ens. cbn [bind].
  destruct (foldR_seq0_ind (fun k '(out, ns) => wf w out /\ wf w ns /\ ns <> [] /\
      val w ns = val w l * 2 ^ Z.of_nat k /\
      val w out = val w l * (val w r mod 2 ^ Z.of_nat k))
    (fun '(out, new_self) idx =>
      do x <- get_bit w r idx ;;
      do out <- (if x : bool then elem_add w out new_self else Ok out) ;;
      do new_self <- elem_shl w new_self 1 ;;
      Ok (out, new_self)) (bit_len w r) (zeros (len * 2), ns)) as ([out ns'] & E & H).
  - rewrite val_zeros. simpl (2 ^ Z.of_nat 0) in *. rewrite Z.mod_1_r.
    split; [apply wf_zeros|]. split; auto. split; [apply Cns|]. split; [lia|]. ring.
  - intros k [out n] Hk (H1 & H2 & H2' & H3 & H4).
    rewrite get_bit_in by auto. cbn [bind].
    destruct (elem_shl_spec w 1 Hw n H2) as (n' & En & Wn & Cn & Vn).
    assert (exists out', (if Z.testbit (val w r) (Z.of_nat k) then elem_add w out n else Ok out) = Ok out' /\
      wf w out' /\ val w out' = val w out + Z.b2z (Z.testbit (val w r) (Z.of_nat k)) * val w n) as (o' & Eo & Wo & Vo).
    { destruct (Z.testbit (val w r) (Z.of_nat k)).
      - destruct (elem_add_spec w out n Hw H1 H2) as (o & Eo & Wo & _ & Vo).
        exists o. split; auto. split; auto. rewrite Vo. simpl Z.b2z. ring.
      - exists out. split; auto. split; auto. simpl Z.b2z. ring. }
    rewrite Eo. cbn [bind]. rewrite En. cbn [bind]. eexists. split; [reflexivity|]. cbv beta iota.
    split; auto. split; auto. split; [apply Cn|].
    rewrite mod_pow_S, pow_S_nat, Vn, Vo, H3, H4. change (2 ^ Z.of_nat 1) with 2. split; ring.
  - destruct H as (H1 & H2 & H2' & H3 & H4). rewrite E. cbn [bind fst]. exists out.
    split; auto. split; auto. rewrite H4, (mod_pow_small _ _ (bit_len w r)); auto.
    apply val_cap_bits; auto.
Qed.

(** ** Bitwise shifts *)

Lemma combine_seq_map {A} (f : nat -> A) n : forall a,
  combine (seq a n) (map f (seq a n)) = map (fun i => (i, f i)) (seq a n).
Proof. induction n; intros; simpl; auto. rewrite IHn. auto. Qed.

Lemma fold_left_map {A B C} (f : A -> B -> A) (g : C -> B) l : forall a,
  fold_left f (map g l) a = fold_left (fun a c => f a (g c)) l a.
Proof. induction l; intros; simpl; auto. Qed.

Lemma bit_shl_spec w l r : (0 < w)%nat -> wf w l ->
  wf w (bit_shl w l r) /\ val w (bit_shl w l r) = val w l * 2 ^ Z.of_nat r.
Proof.
  intros Hw Hl. unfold bit_shl. rewrite iter_take_spec by auto.
  replace (Nat.min (bit_len w l + 1) (bit_len w l)) with (bit_len w l) by lia.
  rewrite map_length, seq_length, combine_seq_map, fold_left_map.
  pose proof (mod_pow_small (val w l) (bit_len w l) (bit_len w l) (val_cap_bits w l Hl) (le_n _)) as EM.
  replace (val w l * 2 ^ Z.of_nat r) with (val w l mod 2 ^ Z.of_nat (bit_len w l) * 2 ^ Z.of_nat r)
    by (rewrite EM; auto). clear EM.
  apply (fold_seq0_ind (fun k out => wf w out /\
    val w out = (val w l mod 2 ^ Z.of_nat k) * 2 ^ Z.of_nat r)).
  - rewrite val_zeros. simpl (2 ^ Z.of_nat 0). rewrite Z.mod_1_r. split; [apply wf_zeros|]. ring.
  - intros k out Hk (H1 & H2).
    assert (Z.testbit (val w out) (Z.of_nat (k + r)) = false) as Hb.
    { apply testbit_small with (Z.of_nat (k + r)); [|lia]. rewrite H2.
      pose proof (Z.mod_pos_bound (val w l) (2 ^ Z.of_nat k) (pow2_pos k)).
      rewrite Nat2Z.inj_add, Z.pow_add_r by lia. pose proof (pow2_pos r). nia. }
    rewrite mod_pow_S.
    destruct (Z.testbit (val w l) (Z.of_nat k)); cbn [orb].
    + destruct (set_bit_push_spec w out (k + r) true Hw H1) as (A1 & _ & A3 & _). split; auto.
      rewrite A3, Hb, H2, Nat2Z.inj_add, Z.pow_add_r by lia. simpl Z.b2z. ring.
    + destruct (Nat.ltb (k + r) (bit_len w l)).
      * destruct (set_bit_push_spec w out (k + r) false Hw H1) as (A1 & _ & A3 & _). split; auto.
        rewrite A3, Hb, H2. simpl Z.b2z. ring.
      * split; auto. rewrite H2. simpl Z.b2z. ring.
Qed.

Lemma bit_shr_spec w l r : (0 < w)%nat -> wf w l -> (0 < length l)%nat ->
  exists out, bit_shr w l r = Ok out /\ wf w out /\ canonical out /\
    val w out = val w l / 2 ^ Z.of_nat r.
Proof.
  intros Hw Hl Hn. unfold bit_shr.
  match goal with |- context [shrink ?t] => assert (
    length t = length l /\ wf w t /\ forall j, (j < bit_len w l)%nat ->
      Z.testbit (val w t) (Z.of_nat j) = if Nat.leb 0 (j + r)
        then Z.testbit (val w l) (Z.of_nat (j + r)) else false) as H end.
  { apply (fold_rev_seq_ind (fun k t => length t = length l /\ wf w t /\ forall j, (j < bit_len w l)%nat ->
      Z.testbit (val w t) (Z.of_nat j) = if Nat.leb k (j + r)
        then Z.testbit (val w l) (Z.of_nat (j + r)) else false)).
    - rewrite length_zeros. split; auto. split; [apply wf_zeros|]. intros j Hj.
      rewrite val_zeros, Z.bits_0. destruct (Nat.leb_spec (bit_len w l + 1) (j + r)); auto.
      symmetry. apply testbit_val_out; auto. lia.
    - intros k out Hk (H1 & H2 & H3). rewrite bget_spec by auto.
      assert (bit_len w out = bit_len w l) as Eb by (unfold bit_len; rewrite H1; auto).
      destruct (Nat.leb_spec r k) as [Hr|Hr].
      + destruct (Nat.lt_ge_cases (k - r) (bit_len w out)) as [Hin|Hout].
        * rewrite set_bit_ignore_in by auto. rewrite length_bset. split; auto.
          split; [apply wf_bset; auto|]. intros j Hj. rewrite testbit_bset by auto.
          destruct (Nat.eqb_spec j (k - r)) as [->|Hne].
          -- rewrite (proj2 (Nat.leb_le _ _)) by lia. do 2 f_equal. lia.
          -- rewrite H3 by auto.
             destruct (Nat.leb_spec (S k) (j + r)), (Nat.leb_spec k (j + r)); auto; lia.
        * rewrite set_bit_ignore_out by auto. split; auto. split; auto. intros j Hj.
          rewrite H3 by auto.
          destruct (Nat.leb_spec (S k) (j + r)), (Nat.leb_spec k (j + r)); auto; lia.
      + split; auto. split; auto. intros j Hj. rewrite H3 by auto.
        rewrite (proj2 (Nat.leb_le k (j + r))) by lia.
        destruct (Nat.leb_spec (S k) (j + r)); auto. lia. }
  match goal with |- context [shrink ?t] => set (t' := t) in * end.
  destruct H as (H1 & H2 & H3).
  destruct (shrink_ok w t' H2 ltac:(lia)) as (o & Eo & Wo & Co & Vo).
  exists o. split; auto. split; auto. split; auto. rewrite Vo.
  apply Z.bits_inj'. intros n Hnn. rewrite <- (Z2Nat.id n) by auto. generalize (Z.to_nat n) as j.
  intros j. rewrite Z.div_pow2_bits by lia. rewrite <- Nat2Z.inj_add.
  destruct (Nat.lt_ge_cases j (bit_len w l)) as [Hj|Hj].
  - rewrite H3 by auto. cbn [Nat.leb]. auto.
  - rewrite !testbit_val_out; auto; [lia|]. unfold bit_len in *. rewrite H1. auto.
Qed.

(** ** Bitwise long division *)

Lemma div_shift_in_ok dbg w num dv rm k : (2 <= w)%nat -> wf w num -> wf w rm ->
  (0 < length rm)%nat -> Z.of_nat (bit_len w rm) < 2 ^ 64 -> (k < bit_len w num)%nat ->
  2 * val w rm < cap w (length rm) ->
  exists rm', div_shift_in dbg w num dv rm k = Ok (rm', is_ge (elem_cmp rm' dv)) /\
    length rm' = length rm /\ wf w rm' /\
    val w rm' = 2 * val w rm + Z.b2z (Z.testbit (val w num) (Z.of_nat k)).
Proof.
  intros Hw Hnum Hrm Hlen H64 Hk Hcap. unfold div_shift_in.
  destruct (elem_shl_wrapping_1 dbg w rm Hw Hrm Hlen H64 Hcap) as (r1 & E1 & L1 & W1 & V1).
  rewrite E1. cbn [bind]. rewrite get_bit_in by (auto; lia). cbn [bind].
  assert (0 < bit_len w r1)%nat by (unfold bit_len; rewrite L1; nia).
  rewrite set_bit_in by (auto; lia). cbn [bind]. eexists. split; [reflexivity|]. cbv beta iota.
  rewrite length_bset. split; auto. split; [apply wf_bset; auto; lia|].
  rewrite val_bset by (auto; lia). rewrite V1. simpl (Z.of_nat 0). rewrite Z.testbit_even_0.
  simpl (2 ^ 0). simpl (Z.b2z false). lia.
Qed.

Lemma elem_sub_wrapping_small w l r : (0 < w)%nat -> wf w l -> wf w r ->
  (length r <= length l)%nat -> val w r <= val w l ->
  length (elem_sub_wrapping w l r) = length l /\ wf w (elem_sub_wrapping w l r) /\
  val w (elem_sub_wrapping w l r) = val w l - val w r.
Proof.
  intros Hw Hl Hr Hlen Hle. unfold elem_sub_wrapping.
  pose proof (elem_sub_overflowing_spec w l r Hw Hl Hr Hlen) as H.
  destruct (elem_sub_overflowing w l r) as [o c]. cbn [fst].
  destruct H as (H1 & H2 & H3 & _). split; auto. split; auto. rewrite H3.
  apply Z.mod_small. pose proof (val_bound w l Hl). pose proof (val_nonneg w r Hr). lia.
Qed.

(** Divisors the bitwise division handles: every comparison it makes is between one-limb
    numbers. *)
Definition div_ok (w : nat) (n d : Z) : Prop :=
  0 < d < base w /\ (2 * d <= base w \/ n < base w).

Lemma div_step_arith P d b : 0 < d ->
  let R := 2 * (P mod d) + Z.b2z b in
  (d <= R -> (2 * P + Z.b2z b) / d = 2 * (P / d) + 1 /\ (2 * P + Z.b2z b) mod d = R - d) /\
  (R < d -> (2 * P + Z.b2z b) / d = 2 * (P / d) /\ (2 * P + Z.b2z b) mod d = R).
Proof.
  intros Hd R. pose proof (Z.div_mod P d ltac:(lia)) as HP.
  pose proof (Z.mod_pos_bound P d Hd) as HM. pose proof (b2z_range b) as Hb.
  split; intros H.
  - split.
    + symmetry. apply (Z.div_unique_pos _ _ _ (R - d)); unfold R in *; lia.
    + symmetry. apply (Z.mod_unique_pos _ _ (2 * (P / d) + 1)); unfold R in *; lia.
  - split.
    + symmetry. apply (Z.div_unique_pos _ _ _ R); unfold R in *; lia.
    + symmetry. apply (Z.mod_unique_pos _ _ (2 * (P / d))); unfold R in *; lia.
Qed.

Lemma is_ge_compare a b : is_ge (Z.compare a b) = (b <=? a).
Proof. unfold is_ge, Z.leb. rewrite (Z.compare_antisym a b). destruct (a ?= b); reflexivity. Qed.

(** One iteration: shifting bit [k] into the remainder and conditionally subtracting. *)
Lemma div_iter dbg w num dv rm k N : (2 <= w)%nat -> wf w num -> wf w rm -> wf w dv ->
  (0 < length rm)%nat -> (length dv <= length rm)%nat -> Z.of_nat (bit_len w rm) < 2 ^ 64 ->
  (k < bit_len w num)%nat -> 0 <= N < cap w (length rm) ->
  Z.testbit (val w num) (Z.of_nat k) = Z.testbit N (Z.of_nat k) ->
  div_ok w N (val w dv) -> val w rm = (N / 2 ^ Z.of_nat (S k)) mod val w dv ->
  exists rm', div_shift_in dbg w num dv rm k = Ok (rm', is_ge (elem_cmp rm' dv)) /\
    length rm' = length rm /\ wf w rm' /\
    (let q := N / 2 ^ Z.of_nat k / val w dv in let q' := N / 2 ^ Z.of_nat (S k) / val w dv in
     if is_ge (elem_cmp rm' dv) then
       length (elem_sub_wrapping w rm' dv) = length rm /\ wf w (elem_sub_wrapping w rm' dv) /\
       val w (elem_sub_wrapping w rm' dv) = (N / 2 ^ Z.of_nat k) mod val w dv /\ q = 2 * q' + 1
     else val w rm' = (N / 2 ^ Z.of_nat k) mod val w dv /\ q = 2 * q').
Proof.
  intros Hw Hnum Hrm Hdv Hlen Hld H64 Hk HN Hbit [Hd Hok] HR.
  set (d := val w dv) in *. set (P := N / 2 ^ Z.of_nat (S k)) in *.
  assert (0 <= P) as HP by (apply Z.div_pos; [lia|apply pow2_pos]).
  assert (2 * P <= N) as H2P.
  { unfold P. pose proof (pow2_pos k). rewrite pow_S_nat, <- Z.div_div by lia.
    pose proof (Z.mul_div_le (N / 2) (2 ^ Z.of_nat k) ltac:(lia)).
    pose proof (Z.mul_div_le N 2 ltac:(lia)).
    assert (0 <= N / 2 / 2 ^ Z.of_nat k) by (apply Z.div_pos; [apply Z.div_pos; lia|lia]). nia. }
  pose proof (Z.mod_pos_bound P d ltac:(lia)) as HMod.
  pose proof (Z.mod_le P d HP ltac:(lia)) as HModP.
  destruct (div_shift_in_ok dbg w num dv rm k Hw Hnum Hrm Hlen H64 Hk ltac:(lia))
    as (rm' & E & L & W & V).
  rewrite Hbit in V. exists rm'. split; auto. split; auto. split; auto. cbv zeta.
  rewrite HR in V. pose proof (b2z_range (Z.testbit N (Z.of_nat k))) as Hb.
  assert (val w rm' < base w) as Hsmall.
  { destruct Hok as [Hok|Hok]; [lia|].
    (* 2 * (P mod d) + b <= 2 * P + b <= N *)
    assert (2 * P + Z.b2z (Z.testbit N (Z.of_nat k)) <= N); [|lia].
    unfold P. rewrite <- div_pow_S. apply Z.div_le_upper_bound; [apply pow2_pos|].
    pose proof (pow2_pos k). nia. }
  rewrite (elem_cmp_small w rm' dv) by (auto; fold d; lia).
  rewrite is_ge_compare. fold d.
  rewrite (div_pow_S N k). fold P.
  destruct (div_step_arith P d (Z.testbit N (Z.of_nat k)) ltac:(lia)) as [A1 A2]. cbv zeta in A1, A2.
  destruct (Z.leb_spec d (val w rm')) as [Hge|Hlt].
  - destruct A1 as [B1 B2]; [lia|].
    destruct (elem_sub_wrapping_small w rm' dv ltac:(lia) W Hdv ltac:(lia) ltac:(fold d; lia)) as (S1 & S2 & S3).
    split; [lia|]. split; auto. fold d in S3. split; [|exact B1]. rewrite S3, V, B2. auto.
  - destruct A2 as [B1 B2]; [lia|]. split; [|exact B1]. rewrite V, B2. auto.
Qed.

Lemma bits_gap q k : 0 <= q -> Z.testbit (q * 2 ^ Z.of_nat (S k)) (Z.of_nat k) = false.
Proof. intros. apply Z.mul_pow2_bits_low. lia. Qed.

Lemma bit_div_long_spec dbg w num dv : (2 <= w)%nat -> wf w num -> wf w dv ->
  (0 < length num)%nat -> (length dv <= length num)%nat -> Z.of_nat (bit_len w num) < 2 ^ 64 ->
  div_ok w (val w num) (val w dv) ->
  exists q r, bit_div_long dbg w num dv = Ok (q, r) /\
    wf w q /\ wf w r /\ length q = length num /\ length r = length num /\
    val w q = val w num / val w dv /\ val w r = val w num mod val w dv.
Proof.
  intros Hw Hnum Hdv Hlen Hld H64 Hok. unfold bit_div_long.
  rewrite bit_len_max. rewrite Nat.max_l by lia. fold (bit_len w num).
  set (N := val w num) in *. set (d := val w dv) in *.
  destruct (foldR_rev_seq_ind (fun k '(q, r) => length q = length num /\ length r = length num /\
      wf w q /\ wf w r /\ val w r = (N / 2 ^ Z.of_nat k) mod d /\
      val w q = (N / 2 ^ Z.of_nat k / d) * 2 ^ Z.of_nat k)
    (fun '(quotient, remainder) idx =>
      do p <- div_shift_in dbg w num dv remainder idx ;;
      let '(remainder, ge) := p in
      if (ge : bool) then
        do quotient <- set_bit w quotient idx true ;;
        Ok (quotient, elem_sub_wrapping w remainder dv)
      else Ok (quotient, remainder)) (bit_len w num) (zeros (length num), zeros (length num)))
    as ([q r] & E & H).
  - rewrite !length_zeros, !val_zeros. rewrite (div_pow_small N _ (bit_len w num))
      by (try lia; apply val_cap_bits; auto).
    split; auto. split; auto. split; [apply wf_zeros|]. split; [apply wf_zeros|].
    destruct Hok. rewrite Z.mod_0_l, Z.div_0_l by lia. auto.
  - intros k [q r] Hk (L1 & L2 & W1 & W2 & V1 & V2).
    assert (bit_len w r = bit_len w num) as Eb by (unfold bit_len; rewrite L2; auto).
    assert (bit_len w q = bit_len w num) as Eb' by (unfold bit_len; rewrite L1; auto).
    destruct (div_iter dbg w num dv r k N Hw Hnum W2 Hdv) as (r' & E & L & W & H);
      try (rewrite ?L2, ?Eb; auto; fail).
    { rewrite L2. apply val_bound; auto. }
    rewrite E. cbn [bind]. fold d in H. cbv zeta in H.
    destruct Hok as [Hd _].
    assert (0 <= N / 2 ^ Z.of_nat (S k) / d) as Hq.
    { apply Z.div_pos; [|lia]. apply Z.div_pos; [apply val_nonneg; auto|apply pow2_pos]. }
    destruct (is_ge (elem_cmp r' dv)).
    + destruct H as (S1 & S2 & S3 & S4). rewrite set_bit_in by (auto; lia). cbn [bind].
      eexists. split; [reflexivity|]. cbv beta iota. rewrite length_bset. split; auto. split; [lia|].
      split; [apply wf_bset; auto; lia|]. split; auto. split; auto.
      rewrite val_bset by (auto; lia). rewrite V2, bits_gap by auto. rewrite S4, pow_S_nat.
      simpl Z.b2z. ring.
    + destruct H as (S3 & S4). eexists. split; [reflexivity|]. cbv beta iota. split; auto. split; [lia|].
      split; auto. split; auto. split; auto. rewrite V2, S4, pow_S_nat. ring.
  - destruct H as (L1 & L2 & W1 & W2 & V1 & V2). simpl (2 ^ Z.of_nat 0) in *.
    rewrite Z.div_1_r in *. exists q, r. repeat split; auto; lia.
Qed.

Lemma bit_div_overflowing_spec dbg w num dv sc : (2 <= w)%nat -> wf w num -> wf w dv -> wf w sc ->
  (0 < length num)%nat -> (length dv <= length num)%nat -> (length num <= length sc)%nat ->
  val w sc = 0 -> Z.of_nat (bit_len w sc) < 2 ^ 64 ->
  div_ok w (val w num) (val w dv) ->
  exists q r, bit_div_overflowing dbg w num dv sc = Ok (q, r, false) /\
    wf w q /\ length q = length num /\ wf w r /\ length r = length sc /\
    val w q = val w num / val w dv /\ val w r = val w num mod val w dv.
Proof.
  intros Hw Hnum Hdv Hsc Hlen Hld Hls Hz H64 Hok. unfold bit_div_overflowing.
  rewrite bit_len_max. rewrite Nat.max_l by lia. fold (bit_len w num).
  set (N := val w num) in *. set (d := val w dv) in *.
  destruct (foldR_rev_seq_ind (fun k '(q, r) => length q = length num /\ length r = length sc /\
      wf w q /\ wf w r /\ val w r = (N / 2 ^ Z.of_nat k) mod d /\
      val w q = N mod 2 ^ Z.of_nat k + (N / 2 ^ Z.of_nat k / d) * 2 ^ Z.of_nat k)
    (fun '(num, remainder) idx =>
      do p <- div_shift_in dbg w num dv remainder idx ;;
      let '(remainder, ge) := p in
      if (ge : bool) then
        do num <- set_bit w num idx true ;;
        Ok (num, elem_sub_wrapping w remainder dv)
      else
        do num <- set_bit w num idx false ;;
        Ok (num, remainder)) (bit_len w num) (num, sc))
    as ([q r] & E & H).
  - pose proof (val_cap_bits w num Hnum) as HB. fold N in HB.
    rewrite (div_pow_small N _ (bit_len w num)) by auto.
    rewrite (mod_pow_small N _ (bit_len w num)) by auto.
    destruct Hok. rewrite Z.mod_0_l, Z.div_0_l by lia.
    repeat split; auto. fold N. lia.
  - intros k [q r] Hk (L1 & L2 & W1 & W2 & V1 & V2).
    assert (bit_len w r = bit_len w sc) as Eb by (unfold bit_len; rewrite L2; auto).
    assert (bit_len w q = bit_len w num) as Eb' by (unfold bit_len; rewrite L1; auto).
    assert (0 < d) as Hd by (destruct Hok; lia).
    assert (0 <= N) as HN by (apply val_nonneg; auto).
    assert (0 <= N / 2 ^ Z.of_nat (S k) / d) as Hq.
    { apply Z.div_pos; [|lia]. apply Z.div_pos; [auto|apply pow2_pos]. }
    assert (Z.testbit (val w q) (Z.of_nat k) = Z.testbit N (Z.of_nat k)) as Hbit.
    { rewrite V2. rewrite <- (Z.mod_pow2_bits_low _ (Z.of_nat (S k)) (Z.of_nat k)) by lia.
      rewrite Z_mod_plus_full, Z.mod_mod by (pose proof (pow2_pos (S k)); lia).
      apply Z.mod_pow2_bits_low. lia. }
    destruct (div_iter dbg w q dv r k N Hw W1 W2 Hdv) as (r' & E & L & W & H);
      try (rewrite ?L2, ?Eb; auto; lia).
    { split; auto. rewrite L2. pose proof (val_bound w num Hnum). fold N in H.
      pose proof (cap_mono w (length num) (length sc) Hls). lia. }
    rewrite E. cbn [bind]. fold d in H. cbv zeta in H. rewrite mod_pow_S in V2.
    destruct (is_ge (elem_cmp r' dv)).
    + destruct H as (S1 & S2 & S3 & S4). rewrite set_bit_in by (auto; lia). cbn [bind].
      eexists. split; [reflexivity|]. cbv beta iota. rewrite length_bset. split; auto. split; [lia|].
      split; [apply wf_bset; auto; lia|]. split; auto. split; auto.
      rewrite val_bset by (auto; lia). rewrite Hbit, V2, S4, pow_S_nat. simpl (Z.b2z true). ring.
    + destruct H as (S3 & S4). rewrite set_bit_in by (auto; lia). cbn [bind].
      eexists. split; [reflexivity|]. cbv beta iota. rewrite length_bset. split; auto. split; [lia|].
      split; [apply wf_bset; auto; lia|]. split; auto. split; auto.
      rewrite val_bset by (auto; lia). rewrite Hbit, V2, S4, pow_S_nat. simpl (Z.b2z false). ring.
  - destruct H as (L1 & L2 & W1 & W2 & V1 & V2). simpl (2 ^ Z.of_nat 0) in *.
    rewrite Z.div_1_r in *. rewrite E. cbn [bind fst snd]. exists q, r.
    rewrite Z.mod_1_r in V2. repeat split; auto; lia.
Qed.

Lemma bit_rem_overflowing_spec dbg w num dv sc : (2 <= w)%nat -> wf w num -> wf w dv -> wf w sc ->
  (0 < length num)%nat -> (length dv <= length num)%nat -> length num = length sc ->
  val w sc = 0 -> Z.of_nat (bit_len w sc) < 2 ^ 64 ->
  div_ok w (val w num) (val w dv) ->
  exists r, bit_rem_overflowing dbg w num dv sc = Ok (r, false) /\
    wf w r /\ length r = length num /\ val w r = val w num mod val w dv.
Proof.
  intros Hw Hnum Hdv Hsc Hlen Hld Hls Hz H64 Hok. unfold bit_rem_overflowing.
  rewrite bit_len_max. rewrite Nat.max_l by lia. fold (bit_len w num).
  set (N := val w num) in *. set (d := val w dv) in *.
  destruct (foldR_rev_seq_ind (fun k r => length r = length sc /\
      wf w r /\ val w r = (N / 2 ^ Z.of_nat k) mod d)
    (fun remainder idx =>
      do p <- div_shift_in dbg w num dv remainder idx ;;
      let '(remainder, ge) := p in
      Ok (if (ge : bool) then elem_sub_wrapping w remainder dv else remainder))
      (bit_len w num) sc)
    as (r & E & H).
  - pose proof (val_cap_bits w num Hnum) as HB. fold N in HB.
    rewrite (div_pow_small N _ (bit_len w num)) by auto.
    destruct Hok. rewrite Z.mod_0_l by lia. auto.
  - intros k r Hk (L2 & W2 & V1).
    assert (bit_len w r = bit_len w sc) as Eb by (unfold bit_len; rewrite L2; auto).
    destruct (div_iter dbg w num dv r k N Hw Hnum W2 Hdv) as (r' & E & L & W & H);
      try (rewrite ?L2, ?Eb; auto; lia).
    { rewrite L2, <- Hls. apply val_bound; auto. }
    rewrite E. cbn [bind]. fold d in H. cbv zeta in H.
    eexists. split; [reflexivity|]. cbv beta iota. destruct (is_ge (elem_cmp r' dv)).
    + destruct H as (S1 & S2 & S3 & S4). split; [lia|]. split; auto.
    + destruct H as (S3 & S4). split; [lia|]. split; auto.
  - destruct H as (L2 & W2 & V1). simpl (2 ^ Z.of_nat 0) in *.
    rewrite Z.div_1_r in *. rewrite E. cbn [bind]. unfold copy_from_slice.
    rewrite (proj2 (Nat.eqb_eq _ _)) by lia. cbn [bind]. exists r. repeat split; auto; lia.
Qed.

(** Division by zero: no panic; quotient all ones, remainder the numerator. *)
Lemma cmp_zero_ge w r dv : wf w r -> wf w dv -> val w dv = 0 -> is_ge (elem_cmp r dv) = true.
Proof.
  intros Hr Hd H0. pose proof (elem_cmp_spec r dv) as H. destruct (elem_cmp r dv); auto.
  destruct H as (i & Hi & _). apply val_zero_iff in H0; auto. rewrite H0, zget_zeros in Hi.
  pose proof (wf_zget w r i Hr). lia.
Qed.

Lemma bit_div_long_zero dbg w num dv : (2 <= w)%nat -> wf w num -> wf w dv ->
  (0 < length num)%nat -> (length dv <= length num)%nat -> Z.of_nat (bit_len w num) < 2 ^ 64 ->
  val w dv = 0 ->
  exists q r, bit_div_long dbg w num dv = Ok (q, r) /\
    wf w q /\ wf w r /\ length q = length num /\ length r = length num /\
    val w q = cap w (length num) - 1 /\ val w r = val w num.
Proof.
  intros Hw Hnum Hdv Hlen Hld H64 H0. unfold bit_div_long.
  rewrite bit_len_max. rewrite Nat.max_l by lia. fold (bit_len w num).
  set (N := val w num) in *.
  destruct (foldR_rev_seq_ind (fun k '(q, r) => length q = length num /\ length r = length num /\
      wf w q /\ wf w r /\ val w r = N / 2 ^ Z.of_nat k /\
      (k <= bit_len w num)%nat /\
      val w q = 2 ^ Z.of_nat (bit_len w num) - 2 ^ Z.of_nat k)
    (fun '(quotient, remainder) idx =>
      do p <- div_shift_in dbg w num dv remainder idx ;;
      let '(remainder, ge) := p in
      if (ge : bool) then
        do quotient <- set_bit w quotient idx true ;;
        Ok (quotient, elem_sub_wrapping w remainder dv)
      else Ok (quotient, remainder)) (bit_len w num) (zeros (length num), zeros (length num)))
    as ([q r] & E & H).
  - rewrite !length_zeros, !val_zeros. rewrite (div_pow_small N _ (bit_len w num))
      by (try lia; apply val_cap_bits; auto).
    split; auto. split; auto. split; [apply wf_zeros|]. split; [apply wf_zeros|]. lia.
  - intros k [q r] Hk (L1 & L2 & W1 & W2 & V1 & Hk' & V2).
    assert (bit_len w r = bit_len w num) as Eb by (unfold bit_len; rewrite L2; auto).
    assert (bit_len w q = bit_len w num) as Eb' by (unfold bit_len; rewrite L1; auto).
    assert (2 * (N / 2 ^ Z.of_nat (S k)) < cap w (length r)) as HC.
    { rewrite L2. pose proof (val_bound w num Hnum) as HB. fold N in HB.
      pose proof (pow2_pos k). rewrite pow_S_nat, <- Z.div_div by lia.
      pose proof (Z.mul_div_le (N / 2) (2 ^ Z.of_nat k) ltac:(lia)).
      pose proof (Z.mul_div_le N 2 ltac:(lia)).
      assert (0 <= N / 2 / 2 ^ Z.of_nat k) by (apply Z.div_pos; [apply Z.div_pos; lia|lia]). nia. }
    destruct (div_shift_in_ok dbg w num dv r k Hw Hnum W2 ltac:(lia) ltac:(lia) Hk ltac:(lia))
      as (r' & E & L & W & V).
    rewrite E. cbn [bind]. rewrite (cmp_zero_ge w) by auto.
    rewrite set_bit_in by (auto; lia). cbn [bind]. eexists. split; [reflexivity|]. cbv beta iota.
    destruct (elem_sub_wrapping_small w r' dv ltac:(lia) W Hdv ltac:(lia)) as (S1 & S2 & S3).
    { rewrite H0. apply val_nonneg; auto. }
    rewrite length_bset. split; auto. split; [lia|]. split; [apply wf_bset; auto; lia|].
    split; auto. split. { rewrite S3, V, V1, H0. fold N. rewrite (div_pow_S N k). lia. }
    split; [lia|]. rewrite val_bset by (auto; lia). rewrite V2.
    replace (2 ^ Z.of_nat (bit_len w num) - 2 ^ Z.of_nat (S k))
      with ((2 ^ (Z.of_nat (bit_len w num) - Z.of_nat (S k)) - 1) * 2 ^ Z.of_nat (S k)).
    + rewrite bits_gap.
      * rewrite pow_S_nat. simpl Z.b2z.
        replace (2 ^ Z.of_nat (bit_len w num)) with
          (2 ^ (Z.of_nat (bit_len w num) - Z.of_nat (S k)) * (2 * 2 ^ Z.of_nat k)).
        -- ring.
        -- rewrite <- pow_S_nat, <- Z.pow_add_r by lia. f_equal. lia.
      * assert (0 < 2 ^ (Z.of_nat (bit_len w num) - Z.of_nat (S k))) by (apply Z.pow_pos_nonneg; lia). lia.
    + rewrite Z.mul_sub_distr_r, <- Z.pow_add_r by lia.
      replace (Z.of_nat (bit_len w num) - Z.of_nat (S k) + Z.of_nat (S k)) with (Z.of_nat (bit_len w num)) by lia.
      ring.
  - destruct H as (L1 & L2 & W1 & W2 & V1 & _ & V2). simpl (2 ^ Z.of_nat 0) in *.
    rewrite Z.div_1_r in *. exists q, r. rewrite cap_bits. unfold bit_len in V2. auto 10.
Qed.

Lemma bit_div_long_panics dbg w num dv : (2 <= w)%nat -> wf w num -> wf w dv ->
  (length num < length dv)%nat -> Z.of_nat (bit_len w dv) < 2 ^ 64 ->
  bit_div_long dbg w num dv = Panic.
Proof.
  intros Hw Hnum Hdv Hlen H64. unfold bit_div_long. rewrite bit_len_max, Nat.max_r by lia.
  destruct (length dv * w)%nat as [|n] eqn:E; [nia|].
  rewrite rev_seq_S. cbn [foldR]. unfold div_shift_in.
  destruct (elem_shl_wrapping_1 dbg w (zeros (length dv)) Hw) as (r & Er & _).
  - apply wf_zeros. - rewrite length_zeros. lia.
  - rewrite bit_len_zeros. exact H64.
  - rewrite val_zeros, length_zeros. pose proof (cap_pos w (length dv)). lia.
  - rewrite Er. cbn [bind]. rewrite get_bit_out; [reflexivity|lia|]. unfold bit_len. nia.
Qed.

(** ** Element long division *)

Lemma elem_add_wrapping_small w l r : (0 < w)%nat -> wf w l -> wf w r ->
  (length r <= length l)%nat -> val w l + val w r < cap w (length l) ->
  length (elem_add_wrapping w l r) = length l /\ wf w (elem_add_wrapping w l r) /\
  val w (elem_add_wrapping w l r) = val w l + val w r.
Proof.
  intros Hw Hl Hr Hlen Hle. unfold elem_add_wrapping.
  pose proof (elem_add_overflowing_spec w l r Hw Hl Hr Hlen) as H.
  destruct (elem_add_overflowing w l r) as [o c]. cbn [fst].
  destruct H as (H1 & H2 & H3 & _). split; auto. split; auto. rewrite H3.
  apply Z.mod_small. pose proof (val_nonneg w l Hl). pose proof (val_nonneg w r Hr). lia.
Qed.

Lemma elem_div_while_spec w dv one : (0 < w)%nat -> wf w dv -> wf w one ->
  length dv = 1%nat -> length one = 1%nat -> val w one = 1 -> 0 < val w dv ->
  forall fuel q r, wf w q -> wf w r -> length q = 1%nat -> length r = 1%nat ->
  val w q * val w dv + val w r < base w -> val w r / val w dv < Z.of_nat fuel ->
  exists q' r', elem_div_while fuel w dv one q r = Ok (q', r') /\
    wf w q' /\ wf w r' /\ length q' = 1%nat /\ length r' = 1%nat /\
    val w q' = val w q + val w r / val w dv /\ val w r' = val w r mod val w dv.
Proof.
  intros Hw Hdv Hone Ld Lo V1 Hd.
  assert (val w dv < base w) as Hdb.
  { pose proof (val_bound w dv Hdv) as H. rewrite Ld, cap_1 in H. lia. }
  induction fuel; intros q r Hq Hr Lq Lr Hb Hf.
  - assert (0 <= val w r / val w dv); [|simpl in Hf; lia].
    apply Z.div_pos; [apply val_nonneg; auto|lia].
  - pose proof (val_nonneg w q Hq) as Nq. pose proof (val_nonneg w r Hr) as Nr.
    assert (val w r < base w) as Hrb by nia.
    cbn [elem_div_while]. rewrite (elem_cmp_small w r dv) by auto. rewrite is_ge_compare.
    destruct (Z.leb_spec (val w dv) (val w r)) as [Hge|Hlt].
    + destruct (elem_sub_wrapping_small w r dv Hw Hr Hdv ltac:(lia) Hge) as (S1 & S2 & S3).
      destruct (elem_add_wrapping_small w q one Hw Hq Hone ltac:(lia)) as (A1 & A2 & A3).
      { rewrite Lq, cap_1. nia. }
      assert (val w r / val w dv = 1 + (val w r - val w dv) / val w dv) as Ed.
      { replace (val w r) with ((val w r - val w dv) + 1 * val w dv) at 1 by ring.
        rewrite Z.div_add by lia. ring. }
      destruct (IHfuel (elem_add_wrapping w q one) (elem_sub_wrapping w r dv) A2 S2)
        as (q' & r' & E & W1 & W2 & L1 & L2 & Vq & Vr); try lia.
      { rewrite S3. lia. }
      exists q', r'. split; auto. split; auto. split; auto. split; auto. split; auto.
      rewrite Vq, Vr, S3, A3, V1. split; [lia|].
      replace (val w r) with ((val w r - val w dv) + 1 * val w dv) at 2 by ring.
      rewrite Z_mod_plus_full. auto.
    + exists q, r. rewrite Z.div_small, Z.mod_small by lia. repeat split; auto; lia.
Qed.

Lemma list1 (l : list Z) : length l = 1%nat -> exists x, l = [x].
Proof. destruct l as [|x [|]]; simpl; intros; try lia. eauto. Qed.

Lemma elem_div_long_one dbg w n d fuel : (2 <= w)%nat -> Z.of_nat w < 2 ^ 64 ->
  0 <= n < base w -> 0 < d < base w -> n / d < Z.of_nat fuel ->
  elem_div_long dbg fuel w [n] [d] = Ok ([n / d], [n mod d]).
Proof.
  intros Hw H64 Hn Hd Hf. unfold elem_div_long.
  cbn [length Nat.max seq rev app zeros repeat upd foldR].
  assert (forall x, 0 <= x < base w -> wf w [x]) as Hwf1 by (intros; apply wf_cons; split; auto; constructor).
  assert (forall x, val w [x] = x) as Hv1 by (intros; rewrite val_cons, val_nil; ring).
  pose proof (base_ge2 w ltac:(lia)) as Hb2.
  unfold elem_div_step.
  assert (bit_len w [0] = w) as Hbl by (unfold bit_len; cbn [length]; lia).
  destruct (elem_shl_wrapping_spec dbg w [0] w ltac:(lia)) as (r1 & E1 & L1 & W1 & V1'); try (rewrite ?Hbl; lia).
  { apply Hwf1. lia. }
  rewrite E1. cbn [bind]. cbn [get get_opt nth_error unwrap bind]. unfold get, get_opt. cbn [nth_error unwrap bind].
  destruct (list1 r1 L1) as [x ->]. unfold set, set_opt. cbn [nth_error option_map upd unwrap bind].
  destruct (elem_div_while_spec w [d] [1] ltac:(lia) (Hwf1 d ltac:(lia)) (Hwf1 1 ltac:(lia)) eq_refl eq_refl)
    with (fuel := fuel) (q := [0]) (r := [n]) as (q' & r' & E & W2 & W3 & L2 & L3 & Vq & Vr);
    try (rewrite ?Hv1; lia); try (apply Hwf1; lia); try reflexivity.
  rewrite E. cbn [bind].
  destruct (list1 q' L2) as [q ->]. destruct (list1 r' L3) as [r ->].
  rewrite !Hv1 in *.
  assert (exists o, elem_shr_wrapping dbg w [1] w = Ok o) as (o & Eo).
  { unfold elem_shr_wrapping. change (bit_len w [1]) with (1 * w)%nat. rewrite Nat.mul_1_l.
    rewrite masked_amount_spec by lia. cbn [bind].
    pose proof (masked_lt_bl w w ltac:(lia)) as Hm.
    pose proof (inner_shr_spec w (Nat.modulo w (2 ^ Nat.log2 w)) ltac:(lia) dbg [1] (Hwf1 1 ltac:(lia))) as HS.
    rewrite (Nat.div_small _ w) in HS by auto. cbn [Nat.leb length Nat.eqb] in HS.
    rewrite andb_false_r in HS. cbn [andb negb] in HS. destruct HS as (o & Eo & _). eauto. }
  rewrite Eo. cbn [bind].
  assert (forall x, shrink [x] = Ok [x]) as Hs.
  { intros y. unfold shrink. cbn [rposition_nz]. destruct (y =? 0); reflexivity. }
  rewrite !Hs. cbn [bind]. do 2 f_equal; f_equal; lia.
Qed.

Lemma elem_div_while_zero w dv one : wf w dv -> val w dv = 0 -> (0 < w)%nat ->
  forall fuel q r, wf w r -> (length dv <= length r)%nat -> elem_div_while fuel w dv one q r = Timeout.
Proof.
  intros Hdv H0 Hw. induction fuel; intros q r Hr Hl; cbn [elem_div_while].
  - rewrite (cmp_zero_ge w) by auto. auto.
  - rewrite (cmp_zero_ge w) by auto.
    destruct (elem_sub_wrapping_small w r dv Hw Hr Hdv Hl) as (S1 & S2 & S3).
    { rewrite H0. apply val_nonneg; auto. }
    apply IHfuel; auto. lia.
Qed.

Lemma elem_div_long_zero dbg fuel w num dv : (2 <= w)%nat -> wf w num -> wf w dv ->
  (0 < length num)%nat -> (length dv <= length num)%nat -> Z.of_nat (bit_len w num) < 2 ^ 64 ->
  val w dv = 0 -> elem_div_long dbg fuel w num dv = Timeout.
Proof.
  intros Hw Hnum Hdv Hn Hl H64 H0. unfold elem_div_long. rewrite Nat.max_l by auto.
  destruct (length num) as [|n] eqn:En; [lia|]. rewrite rev_seq_S. cbn [foldR].
  unfold elem_div_step at 1.
  destruct (elem_shl_wrapping_spec dbg w (zeros (S n)) w ltac:(lia)) as (r1 & E1 & L1 & W1 & V1).
  { apply wf_zeros. } { rewrite bit_len_zeros. nia. }
  { rewrite bit_len_zeros. unfold bit_len in H64. rewrite En in H64. auto. }
  rewrite E1. cbn [bind]. rewrite get_in by lia. cbn [bind].
  rewrite length_zeros in L1. rewrite set_in by lia. cbn [bind].
  rewrite elem_div_while_zero; auto; try lia.
  - apply wf_upd; auto. apply wf_zget; auto.
  - rewrite length_upd. lia.
Qed.

(** Non-termination with a non-zero divisor: the low limb of the remainder never changes. *)
Lemma zget_0_mod w l : wf w l -> zget l 0 = val w l mod base w.
Proof.
  intros H. destruct l as [|x l]; [symmetry; apply Z.mod_0_l; pose proof (base_pos w); lia|].
  apply wf_cons in H. symmetry. apply val_mod_base. tauto.
Qed.

Lemma elem_div_while_low w dv one : (0 < w)%nat -> wf w dv -> zget dv 0 = 0 ->
  forall fuel q r, wf w r -> (length dv <= length r)%nat -> 0 < zget r 0 ->
  elem_div_while fuel w dv one q r = Timeout.
Proof.
  intros Hw Hdv H0. induction fuel; intros q r Hr Hl Hpos; cbn [elem_div_while].
  - rewrite (proj2 (elem_cmp_gt_iff r dv)); auto.
    exists 0%nat. split; [lia|]. intros. lia.
  - rewrite (proj2 (elem_cmp_gt_iff r dv)).
    + cbn [is_ge]. unfold elem_sub_wrapping.
      pose proof (elem_sub_overflowing_spec w r dv Hw Hr Hdv Hl) as H.
      destruct (elem_sub_overflowing w r dv) as [o c]. cbn [fst]. destruct H as (H1 & H2 & H3 & _).
      apply IHfuel; auto; [lia|]. rewrite (zget_0_mod w) by auto. rewrite H3.
      destruct (length r) as [|n] eqn:En; [rewrite zget_oob in Hpos; lia|].
      rewrite cap_S. pose proof (base_pos w). pose proof (cap_pos w n).
      rewrite (Z.rem_mul_r _ (base w) (cap w n)) by lia.
      rewrite (Z.mul_comm (base w)), Z_mod_plus_full, Z.mod_mod by lia.
      rewrite Zminus_mod, <- !zget_0_mod, H0, Z.sub_0_r by auto.
      pose proof (wf_zget w r 0 Hr). rewrite Z.mod_small; lia.
    + exists 0%nat. split; [lia|]. intros. lia.
Qed.

Lemma elem_div_while_stop w dv one fuel q r : is_ge (elem_cmp r dv) = false ->
  elem_div_while fuel w dv one q r = Ok (q, r).
Proof. intros H. destruct fuel; cbn [elem_div_while]; rewrite H; auto. Qed.

Lemma elem_div_diverges dbg fuel : elem_div_long dbg fuel 8 [255; 0] [0; 1] = Timeout.
Proof.
  unfold elem_div_long. cbn [length Nat.max seq rev app zeros repeat upd foldR].
  unfold elem_div_step at 1.
  replace (elem_shl_wrapping dbg 8 [0; 0] 8) with (Ok [0; 0]) by (destruct dbg; reflexivity).
  cbn [bind]. change (get [255; 0] 1) with (Ok 0). cbn [bind].
  change (set [0; 0] 0 0) with (Ok [0; 0]). cbn [bind].
  rewrite elem_div_while_stop by reflexivity. cbn [bind].
  replace (elem_shr_wrapping dbg 8 [0; 1] 8) with (Ok [1; 0]) by (destruct dbg; reflexivity).
  cbn [bind]. unfold elem_div_step at 1.
  replace (elem_shl_wrapping dbg 8 [0; 0] 8) with (Ok [0; 0]) by (destruct dbg; reflexivity).
  cbn [bind]. change (get [255; 0] 0) with (Ok 255). cbn [bind].
  change (set [0; 0] 0 255) with (Ok [255; 0]). cbn [bind].
  rewrite elem_div_while_low; auto; try (cbn; lia).
  - repeat constructor; cbn; lia.
  - repeat constructor; cbn; lia.
Qed.
