(** Proofs about crates/ints/src/u.rs. *)
From Coq Require Import ZArith List Bool Lia ZifyNat.
From Verif Require Import Base Words Spec Arith BitSliceModel ElementModel BitwiseModel PrimModel
  BitSliceProofs ElemAddSub ElemMul ElemShift BitwiseProofs UModel TextSpec.
Import ListNotations.
Local Open Scope Z_scope.

(** ** Division by zero in place *)

Lemma half_room N k c : 0 <= N < c -> 2 * (N / 2 ^ Z.of_nat (S k)) < c.
Proof.
  intros HB. pose proof (pow2_pos k). rewrite pow_S_nat, <- Z.div_div by lia.
  pose proof (Z.mul_div_le (N / 2) (2 ^ Z.of_nat k) ltac:(lia)).
  pose proof (Z.mul_div_le N 2 ltac:(lia)).
  assert (0 <= N / 2 / 2 ^ Z.of_nat k) by (apply Z.div_pos; [apply Z.div_pos; lia|lia]). nia.
Qed.

Lemma bit_div_overflowing_zero dbg w num dv sc : (2 <= w)%nat -> wf w num -> wf w dv -> wf w sc ->
  (0 < length num)%nat -> (length dv <= length num)%nat -> length num = length sc ->
  val w sc = 0 -> Z.of_nat (bit_len w sc) < 2 ^ 64 -> val w dv = 0 ->
  exists q r, bit_div_overflowing dbg w num dv sc = Ok (q, r, false) /\
    wf w q /\ length q = length num /\ val w q = cap w (length num) - 1.
Proof.
  intros Hw Hnum Hdv Hsc Hlen Hld Hls Hz H64 H0. unfold bit_div_overflowing.
  rewrite bit_len_max. rewrite Nat.max_l by lia. fold (bit_len w num).
  set (N := val w num) in *.
  destruct (foldR_rev_seq_ind (fun k '(q, r) => length q = length num /\ length r = length sc /\
      wf w q /\ wf w r /\ val w r = N / 2 ^ Z.of_nat k /\ (k <= bit_len w num)%nat /\
      val w q = N mod 2 ^ Z.of_nat k +
        (2 ^ (Z.of_nat (bit_len w num) - Z.of_nat k) - 1) * 2 ^ Z.of_nat k)
    (fun '(num, remainder) idx =>
      do p <- div_shift_in dbg w num dv remainder idx ;;
      let '(remainder, ge) := p in
      if (ge : bool) then
        do num <- set_bit w num idx true ;;
        Ok (num, elem_sub_wrapping w remainder dv)
      else
        do num <- set_bit w num idx false ;;
        Ok (num, remainder)) (bit_len w num) (num, sc))
    as ([q r] & E & H).
  - pose proof (val_cap_bits w num Hnum) as HB. fold N in HB.
    rewrite (div_pow_small N _ (bit_len w num)) by auto.
    rewrite (mod_pow_small N _ (bit_len w num)) by auto.
    rewrite Z.sub_diag. change (2 ^ 0) with 1.
    repeat split; auto. fold N. lia.
  - intros k [q r] Hk (L1 & L2 & W1 & W2 & V1 & Hk' & V2).
    assert (bit_len w r = bit_len w sc) as Eb by (unfold bit_len; rewrite L2; auto).
    assert (bit_len w q = bit_len w num) as Eb' by (unfold bit_len; rewrite L1; auto).
    set (A := 2 ^ (Z.of_nat (bit_len w num) - Z.of_nat (S k))) in *.
    assert (0 < A) by (apply Z.pow_pos_nonneg; lia).
    assert (2 ^ (Z.of_nat (bit_len w num) - Z.of_nat k) = 2 * A) as EA.
    { unfold A. rewrite <- (Z.pow_succ_r 2) by lia. f_equal. lia. }
    assert (Z.testbit (val w q) (Z.of_nat k) = Z.testbit N (Z.of_nat k)) as Hbit.
    { rewrite V2. rewrite <- (Z.mod_pow2_bits_low _ (Z.of_nat (S k)) (Z.of_nat k)) by lia.
      rewrite Z_mod_plus_full, Z.mod_mod by (pose proof (pow2_pos (S k)); lia).
      apply Z.mod_pow2_bits_low. lia. }
    assert (2 * val w r < cap w (length r)) as HC.
    { rewrite V1, L2, <- Hls. apply half_room. apply val_bound. auto. }
    destruct (div_shift_in_ok dbg w q dv r k Hw W1 W2 ltac:(lia) ltac:(lia) ltac:(lia) HC)
      as (r' & E & L & W & V).
    rewrite E. cbn [bind]. rewrite (cmp_zero_ge w) by auto.
    rewrite set_bit_in by (auto; lia). cbn [bind]. eexists. split; [reflexivity|]. cbv beta iota.
    destruct (elem_sub_wrapping_small w r' dv ltac:(lia) W Hdv ltac:(lia)) as (S1 & S2 & S3).
    { rewrite H0. apply val_nonneg; auto. }
    rewrite length_bset. split; auto. split; [lia|]. split; [apply wf_bset; auto; lia|].
    split; auto. split. { rewrite S3, V, V1, H0, Hbit. rewrite (div_pow_S N k). lia. }
    split; [lia|]. rewrite val_bset by (auto; lia). rewrite Hbit, V2, EA, mod_pow_S, pow_S_nat.
    simpl (Z.b2z true). ring.
  - destruct H as (L1 & L2 & W1 & W2 & V1 & _ & V2). rewrite E. cbn [bind fst snd].
    simpl (2 ^ Z.of_nat 0) in *. rewrite Z.mod_1_r in V2. exists q, r. split; auto. split; auto. split; auto.
    rewrite V2, cap_bits. unfold bit_len. replace (Z.of_nat (length num * w) - Z.of_nat 0)
      with (Z.of_nat (length num * w)) by lia. ring.
Qed.

Lemma bit_rem_overflowing_zero dbg w num dv sc : (2 <= w)%nat -> wf w num -> wf w dv -> wf w sc ->
  (0 < length num)%nat -> (length dv <= length num)%nat -> length num = length sc ->
  val w sc = 0 -> Z.of_nat (bit_len w sc) < 2 ^ 64 -> val w dv = 0 ->
  exists r, bit_rem_overflowing dbg w num dv sc = Ok (r, false) /\
    wf w r /\ length r = length num /\ val w r = val w num.
Proof.
  intros Hw Hnum Hdv Hsc Hlen Hld Hls Hz H64 H0. unfold bit_rem_overflowing.
  rewrite bit_len_max. rewrite Nat.max_l by lia. fold (bit_len w num).
  set (N := val w num) in *.
  destruct (foldR_rev_seq_ind (fun k r => length r = length sc /\
      wf w r /\ val w r = N / 2 ^ Z.of_nat k)
    (fun remainder idx =>
      do p <- div_shift_in dbg w num dv remainder idx ;;
      let '(remainder, ge) := p in
      Ok (if (ge : bool) then elem_sub_wrapping w remainder dv else remainder))
      (bit_len w num) sc)
    as (r & E & H).
  - pose proof (val_cap_bits w num Hnum) as HB. fold N in HB.
    rewrite (div_pow_small N _ (bit_len w num)) by auto. auto.
  - intros k r Hk (L2 & W2 & V1).
    assert (bit_len w r = bit_len w sc) as Eb by (unfold bit_len; rewrite L2; auto).
    assert (2 * val w r < cap w (length r)) as HC.
    { rewrite V1, L2, <- Hls. apply half_room. apply val_bound. auto. }
    destruct (div_shift_in_ok dbg w num dv r k Hw Hnum W2 ltac:(lia) ltac:(lia) ltac:(lia) HC)
      as (r' & E & L & W & V).
    rewrite E. cbn [bind]. rewrite (cmp_zero_ge w) by auto.
    eexists. split; [reflexivity|]. cbv beta iota.
    destruct (elem_sub_wrapping_small w r' dv ltac:(lia) W Hdv ltac:(lia)) as (S1 & S2 & S3).
    { rewrite H0. apply val_nonneg; auto. }
    split; [lia|]. split; auto. rewrite S3, V, V1, H0. fold N. rewrite (div_pow_S N k). lia.
  - destruct H as (L2 & W2 & V1). simpl (2 ^ Z.of_nat 0) in *.
    rewrite Z.div_1_r in *. rewrite E. cbn [bind]. unfold copy_from_slice.
    rewrite (proj2 (Nat.eqb_eq _ _)) by lia. cbn [bind]. exists r. repeat split; auto; lia.
Qed.

(** ** Bytes and constants *)

Lemma from_le_val l : from_le l = val 8 l.
Proof. induction l; cbn [from_le]; auto. rewrite val_cons, IHl. reflexivity. Qed.

Lemma base8 : base 8 = 256. Proof. reflexivity. Qed.

Lemma cap8_pow n : cap 8 n = 2 ^ (8 * Z.of_nat n).
Proof. reflexivity. Qed.

Lemma length_le_bytes size v : length (le_bytes size v) = size.
Proof. unfold le_bytes. rewrite map_length, seq_length. auto. Qed.

Lemma zget_le_bytes size v i : (i < size)%nat ->
  zget (le_bytes size v) i = (v / 2 ^ (8 * Z.of_nat i)) mod 256.
Proof. intros. unfold le_bytes. rewrite zget_map_seq; auto. Qed.

Lemma wf_le_bytes size v : wf 8 (le_bytes size v).
Proof.
  apply wf_zget_iff. intros i Hi. rewrite length_le_bytes in Hi. rewrite zget_le_bytes by auto.
  rewrite base8. apply Z.mod_pos_bound. lia.
Qed.

Lemma sumB_le_bytes v n : sumB 256 (fun i => (v / 2 ^ (8 * Z.of_nat i)) mod 256) n = v mod 2 ^ (8 * Z.of_nat n).
Proof.
  induction n; cbn [sumB].
  - rewrite Z.mod_1_r. auto.
  - rewrite IHn. change 256 with (2 ^ 8). rewrite <- Z.pow_mul_r by lia.
    replace (8 * Z.of_nat (S n)) with (8 * Z.of_nat n + 8) by lia.
    rewrite Z.pow_add_r by lia. rewrite Z.rem_mul_r; [ring| |]; apply Z.pow_nonzero || apply Z.pow_pos_nonneg; lia.
Qed.

Lemma val_le_bytes size v : val 8 (le_bytes size v) = v mod 2 ^ (8 * Z.of_nat size).
Proof.
  rewrite val_sum, length_le_bytes, <- sumB_le_bytes. apply sumB_ext. intros. apply zget_le_bytes. auto.
Qed.

Lemma wf_repeat255 n : wf 8 (u_max n).
Proof. induction n; constructor; auto. cbn. lia. Qed.

Lemma val_u_max n : val 8 (u_max n) = cap 8 n - 1.
Proof.
  induction n. { reflexivity. } unfold u_max in *. cbn [repeat]. rewrite val_cons, IHn, cap_S, base8. ring.
Qed.

Lemma u_one_S n : u_one (S n) = 1 :: zeros n.
Proof.
  unfold u_one. cbn [seq map Nat.eqb]. f_equal. apply zget_ext.
  - rewrite map_length, seq_length, length_zeros. auto.
  - intros i Hi. rewrite map_length, seq_length in Hi. rewrite zget_zeros, <- seq_shift, map_map.
    rewrite zget_map_seq; auto.
Qed.

Lemma wf_u_one n : wf 8 (u_one n).
Proof. destruct n; [constructor|]. rewrite u_one_S. apply wf_cons. split; [cbn; lia|apply wf_zeros]. Qed.

Lemma length_u_one n : length (u_one n) = n.
Proof. unfold u_one. rewrite map_length, seq_length. auto. Qed.

Lemma val_u_one n : (0 < n)%nat -> val 8 (u_one n) = 1.
Proof. destruct n; [lia|]. intros _. rewrite u_one_S, val_cons, val_zeros. lia. Qed.

Lemma forallb_zero l : wf 8 l -> forallb (fun b => b =? 0) l = (val 8 l =? 0).
Proof.
  induction l; intros H; cbn [forallb]; auto. apply wf_cons in H. destruct H as [Ha H].
  rewrite IHl by auto. rewrite val_cons. rewrite base8 in *. pose proof (val_nonneg 8 l H).
  destruct (Z.eqb_spec a 0), (Z.eqb_spec (val 8 l) 0), (Z.eqb_spec (a + 256 * val 8 l) 0); cbn; auto; lia.
Qed.

Lemma u_is_zero_spec a : wf 8 a -> u_is_zero a = (val 8 a =? 0).
Proof. apply forallb_zero. Qed.

Lemma u_is_one_spec a : wf 8 a -> (0 < length a)%nat -> u_is_one a = Ok (val 8 a =? 1).
Proof.
  intros H Hl. destruct a as [|x a]; [cbn in Hl; lia|]. unfold u_is_one.
  apply wf_cons in H. destruct H as [Hx H]. rewrite forallb_zero by auto. rewrite val_cons, base8 in *.
  pose proof (val_nonneg 8 a H). f_equal.
  destruct (Z.eqb_spec x 1), (Z.eqb_spec (val 8 a) 0), (Z.eqb_spec (x + 256 * val 8 a) 1); cbn; auto; lia.
Qed.

Lemma u_eqb_spec a b : wf 8 a -> wf 8 b -> length a = length b -> u_eqb a b = (val 8 a =? val 8 b).
Proof.
  intros Ha Hb Hl. unfold u_eqb. destruct (list_eq_dec Z.eq_dec a b) as [->|N].
  - symmetry. apply Z.eqb_refl.
  - symmetry. apply Z.eqb_neq. intros E. apply N. apply (val_inj 8); auto.
Qed.

(** ** Casts *)

Lemma copy_loop src n m : (n <= length src)%nat -> (n <= m)%nat ->
  foldR (fun arr i => copy_byte arr src i) (seq 0 n) (zeros m) = Ok (firstn n src ++ zeros (m - n)).
Proof.
  intros Hs Hm.
  destruct (foldR_seq0_ind (fun k arr => length arr = m /\
      forall i, zget arr i = if Nat.ltb i k then zget src i else 0)
     (fun arr i => copy_byte arr src i) n (zeros m)) as (arr & E & L & H).
  - split; [apply length_zeros|]. intros. rewrite zget_zeros. reflexivity.
  - intros k arr Hk (L & H). unfold copy_byte. rewrite get_in by lia. cbn [bind].
    rewrite set_in by lia. eexists. split; [reflexivity|]. rewrite length_upd. split; auto.
    intros i. rewrite zget_upd, H. destruct (Nat.eqb_spec k i) as [->|Ne].
    + rewrite (proj2 (Nat.ltb_lt i (length arr))), (proj2 (Nat.ltb_lt i (S i))) by lia. reflexivity.
    + cbn [andb]. destruct (Nat.ltb_spec i k), (Nat.ltb_spec i (S k)); auto; lia.
  - rewrite E. f_equal. apply zget_ext.
    + rewrite L, app_length, firstn_length, length_zeros. lia.
    + intros i Hi. rewrite H. destruct (Nat.ltb_spec i n).
      * rewrite zget_app1 by (rewrite firstn_length; lia). rewrite zget_firstn; auto.
      * rewrite zget_app2 by (rewrite firstn_length; lia). rewrite zget_zeros. auto.
Qed.

Lemma copy_loop_panic src n m : (m < n)%nat -> (m < length src)%nat ->
  foldR (fun arr i => copy_byte arr src i) (seq 0 n) (zeros m) = Panic.
Proof.
  intros H H1. replace n with (m + S (n - m - 1))%nat by lia. rewrite seq_app, foldR_app.
  rewrite copy_loop by lia. rewrite Nat.sub_diag. cbn [bind plus seq foldR]. unfold copy_byte.
  rewrite get_in by lia. cbn [bind]. unfold set, set_opt.
  rewrite nth_error_oob by (rewrite app_length, firstn_length, length_zeros; lia). reflexivity.
Qed.

(** The loop with the early-return state, while the first branch is taken. *)
Lemma copy_loop_opt src bound n m : (n <= S bound)%nat ->
  foldR (fun st i =>
        match st with
        | None => Ok None
        | Some arr =>
          if Nat.leb i bound then do arr <- copy_byte arr src i ;; Ok (Some arr)
          else do b <- get src i ;; Ok (if b =? 0 then Some arr else None)
        end) (seq 0 n) (Some (zeros m)) =
  rmap Some (foldR (fun arr i => copy_byte arr src i) (seq 0 n) (zeros m)).
Proof.
  intros Hn. generalize (zeros m) as arr. assert (forall a, (a + n <= S bound)%nat -> forall arr,
    foldR (fun st i =>
        match st with
        | None => Ok None
        | Some arr =>
          if Nat.leb i bound then do arr <- copy_byte arr src i ;; Ok (Some arr)
          else do b <- get src i ;; Ok (if b =? 0 then Some arr else None)
        end) (seq a n) (Some arr) =
    rmap Some (foldR (fun arr i => copy_byte arr src i) (seq a n) arr)) as G.
  { clear Hn. induction n; intros a Ha arr; cbn [seq foldR]; auto.
    rewrite (proj2 (Nat.leb_le a bound)) by lia.
    destruct (copy_byte arr src a); cbn [bind]; auto. apply IHn. lia. }
  apply G. lia.
Qed.

Lemma prim_from_checked_u_spec size a : wf 8 a -> (length a <= size)%nat ->
  prim_from_checked_u size a = Ok (Some (val 8 a)).
Proof.
  intros Ha H. unfold prim_from_checked_u. cbv zeta. rewrite (proj2 (Nat.leb_le _ _)) by auto.
  rewrite copy_loop by auto. cbn [bind]. rewrite from_le_val, val_app, val_zeros, firstn_all.
  do 2 f_equal. ring.
Qed.

Lemma prim_from_checked_u_panic size a : (size < length a)%nat -> prim_from_checked_u size a = Panic.
Proof.
  intros H. unfold prim_from_checked_u. cbv zeta. rewrite (proj2 (Nat.leb_gt _ _)) by auto.
  replace (length a) with (S size + (length a - S size))%nat at 1 by lia.
  rewrite seq_app, foldR_app, copy_loop_opt by lia.
  rewrite copy_loop_panic by lia. reflexivity.
Qed.

Lemma prim_truncate_u_spec size a : wf 8 a -> (length a <= size)%nat ->
  prim_truncate_u size a = Ok (val 8 a).
Proof.
  intros Ha H. unfold prim_truncate_u. rewrite copy_loop by auto. cbn [bind].
  rewrite from_le_val, val_app, val_zeros, firstn_all. f_equal. ring.
Qed.

Lemma prim_truncate_u_panic size a : (size < length a)%nat -> prim_truncate_u size a = Panic.
Proof. intros H. unfold prim_truncate_u. rewrite copy_loop_panic by lia. reflexivity. Qed.

Lemma u_from_checked_same n v : u_from_checked n n v = Ok (Some (le_bytes n v)).
Proof.
  unfold u_from_checked. rewrite Nat.leb_refl. rewrite copy_loop by (rewrite ?length_le_bytes; lia).
  cbn [bind]. rewrite Nat.sub_diag, app_nil_r. rewrite <- (length_le_bytes n v) at 1. rewrite firstn_all. auto.
Qed.

Lemma u_from_checked_panic size n v : (size < n)%nat -> u_from_checked size n v = Panic.
Proof.
  intros H. unfold u_from_checked. rewrite (proj2 (Nat.leb_le _ _)) by lia.
  replace n with (size + S (n - size - 1))%nat at 1 by lia. rewrite seq_app, foldR_app.
  rewrite copy_loop by (rewrite ?length_le_bytes; lia). cbn [bind plus seq foldR]. unfold copy_byte at 1.
  unfold get, get_opt. rewrite nth_error_oob by (rewrite length_le_bytes; lia). reflexivity.
Qed.

Lemma firstn_le_bytes size n v : (n <= size)%nat -> firstn n (le_bytes size v) = le_bytes n v.
Proof.
  intros H. apply zget_ext.
  - rewrite firstn_length, !length_le_bytes. lia.
  - intros i Hi. rewrite firstn_length, length_le_bytes in Hi. rewrite zget_firstn by lia.
    rewrite !zget_le_bytes by lia. auto.
Qed.

Lemma u_from_checked_narrow size n v : (n < size)%nat ->
  u_from_checked size n v = Ok (Some (le_bytes n v)).
Proof.
  intros H. unfold u_from_checked. rewrite (proj2 (Nat.leb_gt _ _)) by lia.
  rewrite copy_loop_opt by lia. rewrite copy_loop by (rewrite ?length_le_bytes; lia).
  cbn [rmap bind]. rewrite Nat.sub_diag, app_nil_r, firstn_le_bytes by lia. auto.
Qed.

(** ** Multiplication *)

Lemma u_mul_fits dbg a b : wf 8 a -> wf 8 b -> length b = length a ->
  val 8 a * val 8 b < cap 8 (length a) ->
  exists c, u_mul dbg a b = Ok c /\ u_checked_mul a b = Some c /\ u_saturating_mul a b = c /\
    wf 8 c /\ length c = length a /\ val 8 c = val 8 a * val 8 b.
Proof.
  intros Ha Hb Hl Hf. pose proof (elem_mul_overflowing_spec 8 a b ltac:(lia) Ha Hb) as H.
  unfold u_mul, u_checked_mul, u_saturating_mul, elem_mul_checked, elem_mul_wrapping.
  destruct (elem_mul_overflowing 8 a b) as [out ov]. destruct H as (L & W & V & F).
  assert (ov = false) as -> by (destruct ov; auto; specialize (F eq_refl); lia).
  exists out. cbn [fst unwrap]. split; [destruct dbg; auto|]. repeat split; auto.
  rewrite V. apply Z.mod_small. pose proof (val_nonneg 8 a Ha). pose proof (val_nonneg 8 b Hb). nia.
Qed.

Lemma u_mul_release a b : wf 8 a -> wf 8 b -> length b = length a ->
  exists c, u_mul false a b = Ok c /\ wf 8 c /\ length c = length a /\
    val 8 c = (val 8 a * val 8 b) mod cap 8 (length a).
Proof.
  intros Ha Hb Hl. pose proof (elem_mul_overflowing_spec 8 a b ltac:(lia) Ha Hb) as H.
  unfold u_mul, elem_mul_wrapping. destruct (elem_mul_overflowing 8 a b) as [out ov].
  exists out. cbn [fst]. tauto.
Qed.

Lemma u_product_release a n len : wf 8 a -> length a = len -> (0 < len)%nat ->
  exists c, u_product false len (repeat a n) = Ok c /\ wf 8 c /\ length c = len /\
    val 8 c = (val 8 a ^ Z.of_nat n) mod cap 8 len.
Proof.
  intros Ha Hl Hpos. unfold u_product.
  assert (forall m acc, wf 8 acc -> length acc = len ->
    exists c, foldR (fun acc b => u_mul false acc b) (repeat a m) acc = Ok c /\ wf 8 c /\
      length c = len /\ val 8 c = (val 8 acc * val 8 a ^ Z.of_nat m) mod cap 8 len) as G.
  { induction m; intros acc Hacc Hlen; cbn [repeat foldR].
    - exists acc. repeat split; auto. change (val 8 a ^ Z.of_nat 0) with 1. rewrite Z.mul_1_r.
      symmetry. apply Z.mod_small. rewrite <- Hlen. apply val_bound; auto.
    - destruct (u_mul_release acc a Hacc Ha ltac:(lia)) as (c & E & W & L & V). rewrite E. cbn [bind].
      destruct (IHm c W ltac:(lia)) as (c' & E' & W' & L' & V'). exists c'. repeat split; auto.
      rewrite V', V, Hlen, Nat2Z.inj_succ, Z.pow_succ_r, Z.mul_assoc by lia.
      apply Z.mul_mod_idemp_l. pose proof (cap_pos 8 len). lia. }
  destruct (G n (u_one len) (wf_u_one len) (length_u_one len)) as (c & E & W & L & V).
  exists c. rewrite E. repeat split; auto. rewrite V, val_u_one by auto. f_equal. ring.
Qed.

Lemma u_product_fits dbg a n len : wf 8 a -> length a = len -> (0 < len)%nat -> 0 < val 8 a ->
  val 8 a ^ Z.of_nat n < cap 8 len ->
  exists c, u_product dbg len (repeat a n) = Ok c /\ wf 8 c /\ length c = len /\
    val 8 c = val 8 a ^ Z.of_nat n.
Proof.
  intros Ha Hl Hpos Hva. unfold u_product.
  assert (forall m acc, wf 8 acc -> length acc = len -> 0 < val 8 acc ->
    val 8 acc * val 8 a ^ Z.of_nat m < cap 8 len ->
    exists c, foldR (fun acc b => u_mul dbg acc b) (repeat a m) acc = Ok c /\ wf 8 c /\
      length c = len /\ val 8 c = val 8 acc * val 8 a ^ Z.of_nat m) as G.
  { induction m; intros acc Hacc Hlen Hp Hfit; cbn [repeat foldR].
    - exists acc. repeat split; auto. change (val 8 a ^ Z.of_nat 0) with 1. ring.
    - rewrite Nat2Z.inj_succ, Z.pow_succ_r, Z.mul_assoc in Hfit by lia.
      assert (0 < val 8 a ^ Z.of_nat m) by (apply Z.pow_pos_nonneg; lia).
      destruct (u_mul_fits dbg acc a Hacc Ha ltac:(lia)) as (c & E & _ & _ & W & L & V).
      { rewrite Hlen. nia. }
      rewrite E. cbn [bind].
      destruct (IHm c W ltac:(lia) ltac:(nia)) as (c' & E' & W' & L' & V').
      { rewrite V. lia. }
      exists c'. repeat split; auto. rewrite V', V, Nat2Z.inj_succ, Z.pow_succ_r by lia. ring. }
  intros Hfit. destruct (G n (u_one len) (wf_u_one len) (length_u_one len)) as (c & E & W & L & V).
  { rewrite val_u_one; lia. } { rewrite val_u_one by lia. lia. }
  exists c. rewrite E. repeat split; auto. rewrite V, val_u_one by auto. ring.
Qed.

(** ** Division *)

Lemma length_zeros_bitlen (a : U) : bit_len 8 (zeros (length a)) = (8 * length a)%nat.
Proof. unfold bit_len. rewrite length_zeros. lia. Qed.

Lemma u_div_rem_ok dbg a b : wf 8 a -> wf 8 b -> length b = length a -> (0 < length a)%nat ->
  Z.of_nat (8 * length a) < 2 ^ 64 -> div_ok 8 (val 8 a) (val 8 b) ->
  exists q r, u_div dbg a b = Ok q /\ u_checked_div dbg a b = Ok (Some q) /\ u_rem dbg a b = Ok r /\
    wf 8 q /\ length q = length a /\ wf 8 r /\ length r = length a /\
    val 8 q = val 8 a / val 8 b /\ val 8 r = val 8 a mod val 8 b.
Proof.
  intros Ha Hb Hl Hpos H64 Hok.
  unfold u_div, u_checked_div, u_rem, bit_div_checked, bit_div_wrapping, bit_rem_checked.
  destruct (bit_div_overflowing_spec dbg 8 a b (zeros (length a))) as (q & s & E & W & L & _ & _ & V & _);
    auto using wf_zeros, val_zeros; rewrite ?length_zeros, ?length_zeros_bitlen; try lia.
  destruct (bit_rem_overflowing_spec dbg 8 a b (zeros (length a))) as (r & E' & W' & L' & V');
    auto using wf_zeros, val_zeros; rewrite ?length_zeros, ?length_zeros_bitlen; try lia.
  rewrite E, E'. cbn [bind unwrap]. exists q, r. split; [destruct dbg; auto|]. auto 12.
Qed.

Lemma u_div_rem_zero dbg a b : wf 8 a -> wf 8 b -> length b = length a -> (0 < length a)%nat ->
  Z.of_nat (8 * length a) < 2 ^ 64 -> val 8 b = 0 ->
  u_div dbg a b = Ok (u_max (length a)) /\ u_checked_div dbg a b = Ok (Some (u_max (length a))) /\
  u_rem dbg a b = Ok a.
Proof.
  intros Ha Hb Hl Hpos H64 H0.
  unfold u_div, u_checked_div, u_rem, bit_div_checked, bit_div_wrapping, bit_rem_checked.
  destruct (bit_div_overflowing_zero dbg 8 a b (zeros (length a))) as (q & s & E & W & L & V);
    auto using wf_zeros, val_zeros; rewrite ?length_zeros, ?length_zeros_bitlen; try lia.
  destruct (bit_rem_overflowing_zero dbg 8 a b (zeros (length a))) as (r & E' & W' & L' & V');
    auto using wf_zeros, val_zeros; rewrite ?length_zeros, ?length_zeros_bitlen; try lia.
  rewrite E, E'. cbn [bind unwrap].
  assert (q = u_max (length a)) as ->.
  { apply (val_inj 8); auto using wf_repeat255. { unfold u_max. rewrite repeat_length. auto. }
    rewrite V, val_u_max. auto. }
  assert (r = a) as -> by (apply (val_inj 8); auto; lia).
  split; [destruct dbg; auto|]. auto.
Qed.

(** ** Display *)

Lemma cmp_zero_gt w a n : wf w a -> val w a <> 0 -> elem_cmp a (zeros n) = Gt.
Proof.
  intros Ha Hv. pose proof (cmp_zero_ge w a (zeros n) Ha (wf_zeros w n) (val_zeros w n)) as H.
  destruct (elem_cmp a (zeros n)) eqn:E; auto; [|discriminate].
  apply (elem_cmp_eq w) in E; auto using wf_zeros. rewrite val_zeros in E. lia.
Qed.

Lemma cmp_zero_eq w a n : wf w a -> val w a = 0 -> elem_cmp a (zeros n) = Eq.
Proof. intros. apply (elem_cmp_eq w); auto using wf_zeros. rewrite val_zeros. auto. Qed.

Lemma write_loop_one dbg : forall fuel a ds, wf 8 a -> length a = 1%nat -> val 8 a < Z.of_nat fuel ->
  exists ls, write_loop fuel dbg [10] a ds = Ok (ds ++ ls) /\ Forall (fun d => 0 <= d < 10) ls /\
    digits_val 10 (rev ls) = val 8 a /\
    (val 8 a = 0 -> ls = []) /\ (val 8 a <> 0 -> ls <> [] /\ last ls 0 <> 0).
Proof.
  induction fuel; intros a ds Ha Hl Hf; [pose proof (val_nonneg 8 a Ha); lia|].
  cbn [write_loop]. unfold u_cmp, u_zero.
  pose proof (val_nonneg 8 a Ha) as Hn.
  destruct (Z.eq_dec (val 8 a) 0) as [E0|N0].
  - rewrite (cmp_zero_eq 8) by auto. exists []. rewrite app_nil_r, E0. cbn. repeat split; auto; lia.
  - rewrite (cmp_zero_gt 8) by auto.
    assert (wf 8 [10]) as W10 by (repeat constructor; cbn; lia).
    assert (val 8 [10] = 10) as V10 by reflexivity.
    destruct (u_div_rem_ok dbg a [10]) as (q & r & Eq & _ & Er & Wq & Lq & Wr & Lr & Vq & Vr); auto.
    { lia. } { rewrite Hl. cbn. lia. } { rewrite V10. split; [rewrite base8; lia|]. left. rewrite base8. lia. }
    rewrite Er. cbn [bind]. rewrite prim_from_checked_u_spec by (auto; lia). cbn [bind unwrap].
    rewrite Eq. cbn [bind]. rewrite V10 in *.
    pose proof (Z.div_mod (val 8 a) 10 ltac:(lia)) as HD.
    pose proof (Z.mod_pos_bound (val 8 a) 10 ltac:(lia)) as HM.
    assert (0 <= val 8 a / 10) by (apply Z.div_pos; lia).
    destruct (IHfuel q (ds ++ [val 8 r]) Wq ltac:(lia) ltac:(lia)) as (ls & E & F & D & Z0 & NZ).
    exists (val 8 r :: ls). rewrite E, <- app_assoc. split; auto. split; [constructor; auto; lia|].
    split. { cbn [rev]. unfold digits_val in *. rewrite fold_left_app. cbn [fold_left]. rewrite D. lia. }
    split; [lia|]. intros _. split; [discriminate|].
    destruct ls as [|d ls]; [|apply NZ; intros EE; specialize (Z0 EE); discriminate].
    cbn [last]. destruct (Z.eq_dec (val 8 q) 0) as [E1|N1]; [lia|]. destruct (NZ N1). congruence.
Qed.

Lemma dec_chars ds : Forall (fun d => 0 <= d < 10) ds -> forall out,
  foldR (fun out d => do c <- get [48; 49; 50; 51; 52; 53; 54; 55; 56; 57] (Z.to_nat d) ;; Ok (out ++ [c]))
    ds out = Ok (out ++ map digit_char ds).
Proof.
  induction 1 as [|d ds Hd _ IH]; intros out; cbn [foldR map]; [rewrite app_nil_r; auto|].
  assert (get [48; 49; 50; 51; 52; 53; 54; 55; 56; 57] (Z.to_nat d) = Ok (digit_char d)) as ->.
  { assert (d = 0 \/ d = 1 \/ d = 2 \/ d = 3 \/ d = 4 \/ d = 5 \/ d = 6 \/ d = 7 \/ d = 8 \/ d = 9) as H by lia.
    repeat destruct H as [->|H]; try reflexivity. rewrite H. reflexivity. }
  cbn [bind]. rewrite IH, <- app_assoc. auto.
Qed.

Lemma hd_rev {A} (l : list A) d : hd d (rev l) = last l d.
Proof.
  induction l using rev_ind; auto. rewrite rev_app_distr, last_last. auto.
Qed.

Lemma u_display_one dbg fuel a : wf 8 a -> length a = 1%nat -> val 8 a < Z.of_nat fuel ->
  exists s, u_display fuel dbg a = Ok s /\ is_numeral 10 (val 8 a) s.
Proof.
  intros Ha Hl Hf. unfold u_display, u_write_base. rewrite Hl.
  rewrite u_from_checked_narrow by lia. cbn [bind unwrap]. change (le_bytes 1 10) with [10].
  destruct (write_loop_one dbg fuel a [] Ha Hl Hf) as (ls & E & F & D & Z0 & NZ).
  rewrite E. cbn [bind app].
  assert (Forall (fun d => 0 <= d < 10) (match ls with [] => [0] | _ => ls end)) as F'.
  { destruct ls; auto. repeat constructor; lia. }
  replace (match ls with [] => [0] | z :: l => z :: l end) with (match ls with [] => [0] | _ => ls end)
    by (destruct ls; auto).
  eexists. split.
  - apply dec_chars. apply Forall_rev. auto.
  - cbn [app]. eexists. split; [reflexivity|]. split; [apply Forall_rev; auto|].
    destruct (Z.eq_dec (val 8 a) 0) as [E0|N0].
    + rewrite (Z0 E0), E0. cbn. auto.
    + destruct (NZ N0) as [N1 N2]. destruct ls as [|d ls]; [congruence|]. split; auto. right.
      rewrite hd_rev. split; auto. intros H. apply (f_equal (@rev Z)) in H. rewrite rev_involutive in H.
      discriminate.
Qed.

Lemma u_display_zero dbg fuel a : wf 8 a -> (length a <= 8)%nat -> val 8 a = 0 ->
  u_display (S fuel) dbg a = Ok [48].
Proof.
  intros Ha Hl H0. unfold u_display, u_write_base.
  assert (exists b, u_from_checked 8 (length a) 10 = Ok (Some b)) as (b & ->).
  { destruct (Nat.eq_dec (length a) 8) as [->|]; eexists;
      [apply u_from_checked_same|apply u_from_checked_narrow; lia]. }
  cbn [bind unwrap write_loop]. unfold u_cmp, u_zero. rewrite (cmp_zero_eq 8) by auto. reflexivity.
Qed.

Lemma u_display_panics dbg fuel a : wf 8 a -> (2 <= length a)%nat ->
  ((length a <= 8)%nat -> val 8 a <> 0) -> u_display (S fuel) dbg a = Panic.
Proof.
  intros Ha Hl Hv. unfold u_display, u_write_base.
  destruct (Nat.leb_spec (length a) 8) as [Hle|Hgt].
  - specialize (Hv Hle).
    assert (u_from_checked 8 (length a) 10 = Ok (Some (le_bytes (length a) 10))) as ->.
    { destruct (Nat.eq_dec (length a) 8) as [->|];
        [apply u_from_checked_same|apply u_from_checked_narrow; lia]. }
    cbn [bind unwrap write_loop]. unfold u_cmp, u_zero. rewrite (cmp_zero_gt 8) by auto.
    assert (val 8 (le_bytes (length a) 10) = 10) as V10.
    { rewrite val_le_bytes. apply Z.mod_small. split; [lia|].
      apply Z.lt_le_trans with (2 ^ 8); [lia|]. apply Z.pow_le_mono_r; lia. }
    destruct (u_div_rem_ok dbg a (le_bytes (length a) 10)) as (q & r & _ & _ & Er & _ & _ & Wr & Lr & _);
      auto using wf_le_bytes, length_le_bytes; try lia.
    { rewrite V10. split; [rewrite base8; lia|]. left. rewrite base8. lia. }
    rewrite Er. cbn [bind]. rewrite prim_from_checked_u_panic by lia. reflexivity.
  - rewrite u_from_checked_panic by lia. reflexivity.
Qed.

(** ** Bit operators *)

Lemma u_bitop_elem op a b : length a = length b -> u_bitop op a b = elem_bitop op a b.
Proof.
  intros Hl. destruct (elem_bitop_spec op a b) as [L H]. unfold u_bitop. apply zget_ext.
  - rewrite map_length, combine_length. lia.
  - intros i Hi. rewrite map_length, combine_length in Hi. rewrite H by lia. unfold zget.
    set (f := fun '(l, r) => op l r).
    rewrite (nth_indep _ 0 (f (0, 0))) by (rewrite map_length, combine_length; lia).
    rewrite map_nth, combine_nth by auto. reflexivity.
Qed.

(** ** The overflow flag of one-limb multiplication is never raised *)

Lemma mul_one_limb_flag w a b : (0 < w)%nat -> 0 <= a < base w -> 0 <= b < base w ->
  snd (elem_mul_overflowing w [a] [b]) = false.
Proof.
  intros Hw Ha Hb. pose proof (base_pos w) as HB. unfold elem_mul_overflowing, mulo_inner.
  cbn [length seq rev app fold_left zget nth upd plus].
  destruct (widening_mul w a b 0) as [low high] eqn:E.
  apply widening_mul_spec in E; try lia. destruct E as (_ & Hlo & _).
  unfold add_item. cbn [add_item_loop]. unfold wadd_ov. rewrite (proj2 (Z.leb_gt (base w) (0 + low))) by lia.
  destruct (high =? 0); cbn [negb snd orb]; auto.
Qed.
