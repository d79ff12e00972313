(** Proofs about [Fixed<BigInt, N>]: what each operation of FixedBigModel.v yields. *)
From Coq Require Import ZArith List Bool Lia Permutation.
From Verif Require Import Base Words Spec Arith BitSliceModel BitSliceProofs ElementModel PropBits
  InternModel InternProofs BigIntModel BigIntSpec BigIntProofs BigIntOps BigIntConv BigIntText PropBigInt FixedBigModel.
From Verif Require Import Spec.
Import ListNotations.
Local Open Scope Z_scope.

(** ** Sequencing *)

Ltac find_add := first [apply Add_head | apply Add_cons; find_add].
Ltac pm := first [apply Permutation_refl
  | match goal with |- Permutation (?x :: _) _ =>
      let r := fresh in evar (r : list Z); transitivity (x :: r); subst r; [|apply Permutation_Add; find_add];
      apply perm_skip; pm end].
Ltac con := first [eassumption | eapply con_perm; [|eassumption]; pm].
Ltac rm := repeat apply room_cons; eapply room_le; [|eassumption]; lia.
Ltac sub := let h := fresh in intros h; cbn [In]; tauto.

Lemma ybind P st hs hs' (m : M Z) f v w : yields P hs m st v -> incl hs' hs ->
  (forall c st1, consistent P st1 (c :: hs) -> keeps st st1 hs -> denotes st1 c v -> c <> neg_zero ->
     yields P hs' (f c) st1 w) ->
  yields P hs' (mbind m f) st w.
Proof.
  intros (c & st1 & E & C & K & D & N) I H. apply (yields_after P st st1 hs' _ (f c)).
  - apply mbind_ok. auto.
  - eapply keeps_incl; eauto.
  - apply H; auto.
Qed.

Lemma ybindr {A} P st hs hs' (m : M Z) (f : Z -> M A) v r : yields P hs m st v -> incl hs' hs ->
  (forall c st1, consistent P st1 (c :: hs) -> keeps st st1 hs -> denotes st1 c v -> c <> neg_zero ->
     returns P hs' (f c) st1 r) ->
  returns P hs' (mbind m f) st r.
Proof.
  intros (c & st1 & E & C & K & D & N) I H. destruct (H c st1 C K D N) as (st2 & E2 & C2 & K2).
  exists st2. rewrite (mbind_ok _ _ _ _ _ E). split; auto. split; auto.
  eapply keeps_trans; [|exact K2]. eapply keeps_incl; eauto.
Qed.

Lemma rbind {A} P st hs hs' (m : M A) f r w : returns P hs m st r -> incl hs' hs ->
  (forall st1, consistent P st1 hs -> keeps st st1 hs -> yields P hs' (f r) st1 w) ->
  yields P hs' (mbind m f) st w.
Proof.
  intros (st1 & E & C & K) I H. apply (yields_after P st st1 hs' _ (f r)).
  - apply mbind_ok. auto.
  - eapply keeps_incl; eauto.
  - apply H; auto.
Qed.

Lemma rbindr {A B} P st hs hs' (m : M A) (f : A -> M B) r s : returns P hs m st r -> incl hs' hs ->
  (forall st1, consistent P st1 hs -> keeps st st1 hs -> returns P hs' (f r) st1 s) ->
  returns P hs' (mbind m f) st s.
Proof.
  intros (st1 & E & C & K) I H. destruct (H st1 C K) as (st2 & E2 & C2 & K2).
  exists st2. rewrite (mbind_ok _ _ _ _ _ E). split; auto. split; auto.
  eapply keeps_trans; [|exact K2]. eapply keeps_incl; eauto.
Qed.

Lemma ret_returns {A} P st hs (r : A) : consistent P st hs -> returns P hs (ret r) st r.
Proof. intros C. exists st. split; [reflexivity|]. split; auto. apply keeps_refl. Qed.

Lemma ret_yields P st hs c v : consistent P st (c :: hs) -> denotes st c v -> c <> neg_zero -> yields P hs (ret c) st v.
Proof. intros C D N. exists c, st. split; [reflexivity|]. repeat split; auto; apply C || apply keeps_refl. Qed.

Lemma reads_returns {A} P st hs (f : istore -> res A) r : consistent P st hs -> f st = Ok r -> returns P hs (reads f) st r.
Proof. intros C E. exists st. split; [apply reads_ok; auto|]. split; auto. apply keeps_refl. Qed.

Lemma drop_returns P st hs a : consistent P st (a :: hs) -> returns P hs (bi_drop a) st tt.
Proof. intros C. destruct (drop_spec P st hs a C) as (st' & E & C' & K). exists st'. auto. Qed.

Lemma clone_yields dbg P st hs a x : consistent P st hs -> room P hs 0 -> In a hs -> denotes st a x -> a <> neg_zero ->
  yields P hs (bi_clone dbg a) st x.
Proof.
  intros C R I D N. destruct (clone_spec dbg P st hs a C R I) as (st' & E & C' & K).
  exists a, st'. repeat split; auto; apply C'.
Qed.

Lemma one_yields P st hs : consistent P st hs -> yields P hs (lift bi_one) st 1.
Proof.
  intros Hc. destruct (inline_spec P st hs 1 false Hc ltac:(rewrite max_offset_val; lia)) as (c & E & C & D & N).
  exists c, st. split; [apply lift_ok; exact E|]. repeat split; auto; apply C || apply keeps_refl.
Qed.

Lemma new_yields P st hs : consistent P st hs -> yields P hs (lift bi_new) st 0.
Proof.
  intros Hc. destruct (bi_new_spec P st hs Hc) as (c & E & C & D & N).
  exists c, st. split; [apply lift_ok; exact E|]. repeat split; auto; apply C || apply keeps_refl.
Qed.

(** ** The operations *)

Section Ops.
Variables (dbg : bool) (N : nat) (P : Z).
Hypothesis HN : Z.of_nat N < 2 ^ 64.
Let B := 2 ^ Z.of_nat N.

Lemma B_pos : 0 < B. Proof. apply Z.pow_pos_nonneg; lia. Qed.

Lemma usize_N : in_range t_usize (Z.of_nat N) = true.
Proof. unfold in_range. cbn [t_usize imin imax isigned ibits]. apply andb_true_iff. rewrite !Z.leb_le. cbn; lia. Qed.

Lemma shl_y st hs x v : consistent P st (x :: hs) -> room P hs 2 -> denotes st x v ->
  yields P hs (fb_shl dbg N x) st (v * B).
Proof.
  intros C R D. eapply op_int_spec; eauto using std_usize, usize_N; [rm|].
  intros st1 b C1 Da Db Nb. apply bi_shl_spec; auto; [rm|cbn; auto|cbn; auto|lia].
Qed.

Lemma shr_y st hs x v : consistent P st (x :: hs) -> room P hs 2 -> denotes st x v ->
  dbg = false \/ Z.of_nat N < 64 -> yields P hs (fb_shr dbg N x) st (Z.quot v B).
Proof.
  intros C R D Hd. eapply op_int_spec; eauto using std_usize, usize_N; [rm|].
  intros st1 b C1 Da Db Nb. apply bi_shr_spec; auto; [rm|cbn; auto|cbn; auto|lia].
Qed.

Lemma one_y st hs : consistent P st hs -> room P hs 2 -> yields P hs (fb_one dbg N) st B.
Proof.
  intros C R. unfold fb_one. eapply ybind; [apply one_yields; exact C|sub|].
  intros c st1 C1 K1 D1 _. replace B with (1 * B) by lia. apply shl_y; auto.
Qed.

Lemma sub_y st hs a b x y : consistent P st (a :: b :: hs) -> room P hs 2 -> denotes st a x -> denotes st b y ->
  a <> neg_zero -> b <> neg_zero -> add_exact x (- y) -> yields P hs (fb_sub dbg a b) st (x - y).
Proof.
  intros C R Da Db Na Nb H. apply by_val_spec.
  apply (C44_add_sub_partial dbg P st (a :: b :: hs) a b x y C ltac:(rm)); auto; repeat split; cbn; auto.
Qed.

Lemma add_y st hs a b x y : consistent P st (a :: b :: hs) -> room P hs 2 -> denotes st a x -> denotes st b y ->
  a <> neg_zero -> b <> neg_zero -> add_exact x y -> yields P hs (fb_add dbg a b) st (x + y).
Proof.
  intros C R Da Db Na Nb H. apply by_val_spec.
  apply (C44_add_sub_partial dbg P st (a :: b :: hs) a b x y C ltac:(rm)); auto; repeat split; cbn; auto.
Qed.

Lemma mask_y st hs : consistent P st hs -> room P hs 3 -> yields P hs (fb_mask dbg N) st (B - 1).
Proof.
  intros C R. pose proof B_pos. unfold fb_mask. eapply ybind; [apply one_yields; exact C|sub|].
  intros c st1 C1 K1 D1 _. eapply ybind with (hs := hs); [apply shl_y; [exact C1|rm|exact D1]|sub|].
  intros a st2 C2 K2 D2 N2. eapply ybind; [apply one_yields; exact C2|sub|].
  intros b st3 C3 K3 D3 N3. rewrite Z.mul_1_l in D2.
  apply sub_y; auto; [con|rm|apply K3; cbn; auto|]. right. right. left. lia.
Qed.

(** The complement of the mask, in whole limbs. *)
Definition limbs : Z := (Z.of_nat (Nat.pred N)) / 64 + 1.
Let W := 2 ^ (64 * limbs).

Lemma limbs_N : Z.of_nat N <= 64 * limbs.
Proof. unfold limbs. pose proof (Z.mod_pos_bound (Z.of_nat (Nat.pred N)) 64 ltac:(lia)). pose proof (Z.div_mod (Z.of_nat (Nat.pred N)) 64 ltac:(lia)). lia. Qed.

Lemma B_le_W : B <= W.
Proof. apply Z.pow_le_mono_r; [lia|apply limbs_N]. Qed.

Lemma mask_log : Z.log2 (B - 1) = Z.of_nat (Nat.pred N).
Proof.
  unfold B. destruct N as [|n]; [reflexivity|]. cbn [Nat.pred].
  change (2 ^ Z.of_nat (S n) - 1) with (Z.pred (2 ^ Z.of_nat (S n))).
  rewrite Z.log2_pred_pow2 by lia. lia.
Qed.

Lemma not_mask_y st hs m : consistent P st (m :: hs) -> room P hs 2 -> denotes st m (B - 1) -> m <> neg_zero ->
  yields P hs (bi_not dbg m) st (W - B).
Proof.
  intros C R D Nm. pose proof B_pos as HB.
  destruct (info P st (m :: hs) m (B - 1) C (or_introl eq_refl) D) as (l & Sl & Wl & Cl & Ll & Vl & _ & _ & O).
  specialize (O Nm). rewrite (proj2 (Z.ltb_ge (B - 1) 0)) in O by lia.
  destruct (C13_not 64 l Wl) as (L1 & W1 & V1).
  apply (yields_after P st st hs _ (let! c := new_slice dbg (elem_not 64 l) (is_negative m) in let! _ := bi_drop m in ret c)).
  { unfold bi_not. destruct Sl as (Sl & _). rewrite (mbind_ok _ _ _ _ _ (reads_ok (fun st => bi_slice st m) _ _ Sl)). reflexivity. }
  { apply keeps_refl. }
  apply yields_drop_last.
  replace (W - B) with ((if is_negative m then -1 else 1) * val 64 (elem_not 64 l)).
  { apply new_slice_spec; auto; [rm|]. intros E. rewrite E in L1. cbn in L1. lia. }
  rewrite is_negative_odd, O, V1, Vl. unfold cap.
  replace (Z.of_nat 64 * Z.of_nat (length l)) with (64 * limbs); [fold W; lia|].
  rewrite (canonical_len l Wl Cl), Vl, Z.abs_eq, mask_log by lia. unfold limbs. lia.
Qed.

Lemma land_not_mask m : 0 <= m -> Z.land m (W - B) = (m mod W) / B * B.
Proof.
  intros Hm. pose proof limbs_N as HL.
  replace (W - B) with (Z.shiftl (Z.ones (64 * limbs - Z.of_nat N)) (Z.of_nat N)).
  2:{ rewrite Z.shiftl_mul_pow2, Z.ones_equiv by lia. unfold Z.pred.
      rewrite Z.mul_add_distr_r, <- Z.pow_add_r by lia.
      replace (64 * limbs - Z.of_nat N + Z.of_nat N) with (64 * limbs) by lia. unfold W, B. lia. }
  unfold B, W. rewrite <- Z.land_ones, <- Z.shiftl_mul_pow2, <- Z.shiftr_div_pow2 by lia.
  apply Z.bits_inj'. intros i Hi. rewrite Z.land_spec, !Z.shiftl_spec by lia.
  destruct (Z.ltb_spec i (Z.of_nat N)).
  - rewrite !(Z.testbit_neg_r _ (i - Z.of_nat N)) by lia. apply andb_false_r.
  - rewrite Z.shiftr_spec, Z.land_spec by lia. replace (i - Z.of_nat N + Z.of_nat N) with i by lia.
    f_equal. destruct (Z.ltb_spec i (64 * limbs)).
    + rewrite !Z.ones_spec_low by lia. reflexivity.
    + rewrite !Z.ones_spec_high by lia. reflexivity.
Qed.

Lemma bitand_y st hs a b x y : consistent P st (a :: b :: hs) -> room P hs 2 -> denotes st a x -> denotes st b y ->
  a <> neg_zero -> 0 <= y -> yields P hs (by_val (bi_bitand dbg) a b) st (Z.sgn x * Z.land (Z.abs x) y).
Proof.
  intros C R Da Db Na Hy. apply by_val_spec.
  assert (proper st (a :: b :: hs) a x) as PA by (repeat split; cbn; auto).
  assert (is_int st (a :: b :: hs) b y) as PB by (split; cbn; auto).
  destruct (Z.eq_dec x 0) as [->|Hx].
  - change (Z.sgn 0 * Z.land (Z.abs 0) y) with (Z.land 0 y).
    apply (C98_bitwise_partial dbg P st (a :: b :: hs) a b 0 y C ltac:(rm) PA PB); lia.
  - replace y with (Z.abs y) at 1 by lia. apply (C98_bitwise_magnitudes_partial dbg P st (a :: b :: hs) a b x y C ltac:(rm) PA PB Hx).
Qed.

(** Whole, and small enough for the mask to cover it. *)
Definition whole (v : Z) : bool := (Z.abs v <? W) && (v mod B =? 0).

Lemma whole_iff v : Z.sgn v * Z.land (Z.abs v) (W - B) = v <-> Z.abs v < W /\ v mod B = 0.
Proof.
  pose proof B_pos as HB. pose proof B_le_W as HW. rewrite land_not_mask by lia.
  assert (Z.sgn v * Z.abs v = v) as SA by lia.
  assert (v mod B = 0 <-> Z.abs v mod B = 0) as ->.
  { destruct (Z.leb_spec 0 v); [rewrite Z.abs_eq by lia; tauto|]. rewrite Z.abs_neq by lia.
    split; intros H0; apply Z.mod_divide in H0; try lia; apply Z.mod_divide; try lia; destruct H0 as [k Hk]; exists (- k); lia. }
  pose proof (Z.abs_nonneg v) as HA. assert (v = 0 -> Z.abs v = 0) as HZ by lia.
  assert (v = 0 \/ Z.sgn v = 1 \/ Z.sgn v = -1) as HS by lia. set (m := Z.abs v) in *. clearbody m.
  pose proof (Z.mod_pos_bound m W ltac:(lia)) as M1.
  pose proof (Z.div_mod (m mod W) B ltac:(lia)) as M2. pose proof (Z.mod_pos_bound (m mod W) B ltac:(lia)) as M3.
  split.
  - intros E. assert ((m mod W) / B * B = m) as E'.
    { destruct HS as [H0|[HS|HS]]; [rewrite (HZ H0); rewrite Z.mod_0_l, Z.div_0_l by lia; lia| |]; rewrite HS in *; lia. }
    assert (m < W) by lia. rewrite (Z.mod_small m W) in * by lia. lia.
  - intros [H1 H2]. rewrite (Z.mod_small m W) in * by lia.
    replace (m / B * B) with m by lia. auto.
Qed.

Lemma whole_y st hs x v : consistent P st hs -> room P hs 4 -> In x hs -> denotes st x v -> x <> neg_zero ->
  returns P hs (fb_is_whole dbg N x) st (whole v).
Proof.
  intros C R I D Nx. pose proof B_le_W as HW. unfold fb_is_whole.
  eapply ybindr; [apply clone_yields; [exact C|rm|exact I|exact D|exact Nx]|sub|].
  intros c st1 C1 K1 D1 N1. eapply ybindr; [apply mask_y; [exact C1|rm]|sub|].
  intros m st2 C2 K2 D2 N2. eapply ybindr; [apply not_mask_y; [exact C2|rm|exact D2|exact N2]|sub|].
  intros n st3 C3 K3 D3 N3.
  eapply ybindr; [apply bitand_y with (x := v); [con|rm| |exact D3|exact N1|lia]|sub|].
  { apply K3; [cbn; auto|]. apply K2; cbn; auto. }
  intros b st4 C4 K4 D4 N4.
  eapply rbindr; [apply reads_returns with (r := whole v); [exact C4|]|sub|].
  { assert (denotes st4 x v) as DX.
    { apply K4; auto. apply K3; [cbn; auto|]. apply K2; [cbn; auto|]. apply K1; auto. }
    cbv beta. rewrite (C42_equality_is_value_equality P st4 (b :: hs) b x (Z.sgn v * Z.land (Z.abs v) (W - B)) v C4);
      [|repeat split; cbn; auto|repeat split; cbn; auto].
    f_equal. unfold whole. apply eq_true_iff_eq. rewrite andb_true_iff, Z.ltb_lt, !Z.eqb_eq. apply whole_iff. }
  intros st5 C5 K5. eapply rbindr; [apply drop_returns; exact C5|sub|].
  intros st6 C6 K6. apply ret_returns. auto.
Qed.

Lemma floor_y st hs x v : consistent P st (x :: hs) -> room P hs 2 -> denotes st x v ->
  dbg = false \/ Z.of_nat N < 64 -> yields P hs (fb_floor dbg N x) st (Z.quot v B * B).
Proof.
  intros C R D Hd. unfold fb_floor. eapply ybind; [apply shr_y; eauto|sub|].
  intros a st1 C1 K1 D1 N1. apply shl_y; auto.
Qed.

Lemma ceil_y st hs x v : consistent P st (x :: hs) -> room P hs 5 -> denotes st x v -> x <> neg_zero ->
  dbg = false \/ Z.of_nat N < 64 ->
  yields P hs (fb_ceil dbg N x) st (if whole v then v else Z.quot v B * B + B).
Proof.
  intros C R D Nx Hd. pose proof B_pos as HB. unfold fb_ceil.
  eapply rbind; [apply whole_y; [exact C|rm|cbn; auto|exact D|exact Nx]|sub|].
  intros st1 C1 K1. assert (denotes st1 x v) as D1 by (apply K1; cbn; auto). destruct (whole v) eqn:E.
  - apply andb_true_iff in E. destruct E as [_ E]. apply Z.eqb_eq in E.
    assert (Z.quot v B * B = v) as EV.
    { apply Z.mod_divide in E; [|lia]. destruct E as [k ->]. rewrite Z.quot_mul by lia. lia. }
    pose proof (floor_y st1 hs x v C1 ltac:(rm) D1 Hd) as F. rewrite EV in F. exact F.
  - eapply ybind; [apply floor_y; [exact C1|rm|exact D1|exact Hd]|sub|].
    intros f st2 C2 K2 D2 N2. eapply ybind; [apply one_y; [exact C2|rm]|sub|].
    intros o st3 C3 K3 D3 N3. apply add_y; auto; [con|rm|apply K3; cbn; auto|].
    unfold add_exact. set (q := Z.quot v B). destruct (Z.leb_spec 0 q); [left; nia|]. right. right. left. nia.
Qed.

Lemma rem_y st hs a b x y : consistent P st (a :: b :: hs) -> room P hs 2 -> denotes st a x -> denotes st b y ->
  div_dom x y -> 0 < y -> yields P hs (fb_rem dbg a b) st (Z.rem x y).
Proof.
  intros C R Da Db H Hy. apply by_val_spec. replace (Z.rem x y) with (Z.rem x y * Z.sgn y) by lia.
  apply bi_rem_spec; auto; [rm|cbn; auto|cbn; auto].
Qed.

Lemma fract_y st hs x v : consistent P st (x :: hs) -> room P hs 3 -> denotes st x v ->
  addressable v -> (N <= 63)%nat -> yields P hs (fb_fract dbg N x) st (Z.rem v B).
Proof.
  intros C R D HA H63. pose proof B_pos. unfold fb_fract. eapply ybind; [apply one_y; [exact C|rm]|sub|].
  intros o st1 C1 K1 D1 N1. apply rem_y; auto; [con|rm|apply K1; cbn; auto|].
  split; [lia|]. split; [auto|]. left. rewrite Z.abs_eq by lia. apply Z.pow_le_mono_r; lia.
Qed.

Lemma fract_panic st hs x v : consistent P st (x :: hs) -> room P hs 3 -> denotes st x v ->
  Z.log2 (Z.abs v) / 64 < Z.of_nat N / 64 -> Z.of_nat N < 2 ^ 64 - 64 ->
  fb_fract dbg N x st = Panic.
Proof.
  intros C R D HL HA. pose proof B_pos. unfold fb_fract, fb_rem, by_val.
  destruct (one_y st (x :: hs) C ltac:(rm)) as (o & st1 & E & C1 & K1 & D1 & N1).
  rewrite (mbind_ok _ _ _ _ _ E). apply mbind_panic.
  assert (Z.log2 (Z.abs B) = Z.of_nat N) as EL by (rewrite Z.abs_eq by lia; apply Z.log2_pow2; lia).
  apply (C46_longer_divisor_partial dbg P st1 (o :: x :: hs) x o v B C1).
  - split; [cbn; auto|]. apply K1; cbn; auto.
  - split; cbn; auto.
  - unfold addressable. lia.
  - rewrite EL. auto.
Qed.

Lemma trunc_y st hs x v : consistent P st (x :: hs) -> room P hs 4 -> denotes st x v -> x <> neg_zero ->
  addressable v -> (N <= 63)%nat -> yields P hs (fb_trunc dbg N x) st (Z.quot v B * B).
Proof.
  intros C R D Nx HA H63. pose proof B_pos as HB. unfold fb_trunc.
  eapply ybind; [apply clone_yields; [exact C|rm|cbn; auto|exact D|exact Nx]|sub|].
  intros c st1 C1 K1 D1 N1.
  eapply ybind with (hs := c :: hs); [apply fract_y; [con|rm|apply K1; cbn; eauto|exact HA|exact H63]|sub|].
  intros f st2 C2 K2 D2 N2. replace (Z.quot v B * B) with (v - Z.rem v B) by (pose proof (Z.quot_rem' v B); lia).
  apply sub_y; auto; [con|rm|apply K2; cbn; auto|].
  right. right. left. pose proof (Z.quot_rem' v B).
  destruct (Z.leb_spec 0 v).
  - pose proof (Z.rem_bound_pos v B ltac:(lia) ltac:(lia)). pose proof (Z.rem_le v B ltac:(lia) ltac:(lia)). lia.
  - pose proof (Z.rem_opp_l v B ltac:(lia)) as E. pose proof (Z.rem_bound_pos (- v) B ltac:(lia) ltac:(lia)).
    pose proof (Z.rem_le (- v) B ltac:(lia) ltac:(lia)). lia.
Qed.

Lemma div_y st hs a b x y : consistent P st (a :: b :: hs) -> room P hs 2 -> denotes st a x -> denotes st b y ->
  div_dom x y -> yields P hs (fb_div dbg a b) st (Z.quot x y).
Proof.
  intros C R Da Db H. apply by_val_spec. apply bi_div_spec; auto; [rm|cbn; auto|cbn; auto].
Qed.

Lemma cmp_zero st hs a b x : consistent P st hs -> In a hs -> In b hs -> denotes st a x -> denotes st b 0 ->
  a <> neg_zero -> b <> neg_zero -> fb_cmp st a b = Ok (Z.compare x 0).
Proof.
  intros C Ia Ib Da Db Na Nb. apply (C47_ordering_partial P st hs a b x 0 C); [repeat split; auto|repeat split; auto|].
  right. right. right. left. cbn. lia.
Qed.

Lemma rem_whole v : v mod B = 0 <-> Z.rem v B = 0.
Proof.
  pose proof B_pos. rewrite Z.mod_divide, Z.rem_divide by lia. tauto.
Qed.

Lemma round_y st hs x v : consistent P st (x :: hs) -> room P hs 8 -> denotes st x v -> x <> neg_zero ->
  addressable v -> (N <= 62)%nat ->
  yields P hs (fb_round dbg N x) st (if v mod B =? 0 then v else Z.quot v B * B + B).
Proof.
  intros C R D Nx HA H62. pose proof B_pos as HB. pose proof (Z.quot_rem' v B) as QR.
  assert (B <= 2 ^ 62) as HB62 by (apply Z.pow_le_mono_r; lia).
  unfold fb_round.
  eapply ybind; [apply one_y; [exact C|rm]|sub|]. intros o1 st1 C1 K1 D1 N1.
  eapply ybind; [apply one_y; [exact C1|rm]|sub|]. intros o2 st2 C2 K2 D2 N2.
  eapply ybind; [apply one_y; [exact C2|rm]|sub|]. intros o3 st3 C3 K3 D3 N3.
  eapply ybind with (hs := o1 :: x :: hs).
  { apply add_y with (x := B) (y := B); [con|rm|apply K3; cbn; auto|exact D3|exact N2|exact N3|left; lia]. }
  { sub. }
  intros two st4 C4 K4 D4 N4.
  eapply ybind with (hs := x :: hs).
  { apply div_y with (x := B) (y := B + B); [con|rm| |exact D4|].
    - apply K4; [cbn; auto|]. apply K3; [cbn; auto|]. apply K2; cbn; auto.
    - split; [lia|]. split; [|right; lia]. unfold addressable. rewrite Z.abs_eq by lia.
      unfold B. rewrite Z.log2_pow2 by lia. lia. }
  { sub. }
  rewrite Z.quot_small by lia. intros half st5 C5 K5 D5 N5.
  assert (denotes st5 x v) as Dx5.
  { apply K5; [cbn; auto|]. apply K4; [cbn; auto|]. apply K3; [cbn; auto|]. apply K2; [cbn; auto|]. apply K1; cbn; auto. }
  eapply ybind; [apply clone_yields with (x := v); [exact C5|rm|cbn; auto|exact Dx5|exact Nx]|sub|].
  intros c st6 C6 K6 D6 N6.
  eapply ybind with (hs := half :: x :: hs); [apply fract_y; [exact C6|rm|exact D6|exact HA|lia]|sub|].
  intros f0 st7 C7 K7 D7 N7.
  eapply ybind; [apply new_yields; exact C7|sub|]. intros z st8 C8 K8 D8 N8.
  eapply rbind with (hs := z :: f0 :: half :: x :: hs).
  { apply reads_returns; [exact C8|]. cbv beta.
    apply (cmp_zero st8 (z :: f0 :: half :: x :: hs) f0 z (Z.rem v B)); cbn [In]; auto. apply K8; cbn; auto. }
  { sub. }
  intros st9 C9 K9. eapply rbind; [apply drop_returns; exact C9|sub|]. intros st10 C10 K10.
  assert (denotes st10 f0 (Z.rem v B)) as F10.
  { apply K10; [cbn; auto|]. apply K9; [cbn; auto|]. apply K8; cbn; auto. }
  assert (denotes st10 x v) as X10.
  { apply K10; [cbn; auto|]. apply K9; [cbn; auto|]. apply K8; [cbn; auto|]. apply K7; [cbn; auto|]. apply K6; cbn; auto. }
  assert (denotes st10 half 0) as H10.
  { apply K10; [cbn; auto|]. apply K9; [cbn; auto|]. apply K8; [cbn; auto|]. apply K7; [cbn; auto|]. apply K6; cbn; auto. }
  eapply ybind with (hs := half :: x :: hs) (v := if Z.rem v B <? 0 then B - Z.rem v B else Z.rem v B).
  { destruct (Z.compare_spec (Z.rem v B) 0) as [E|E|E].
    - rewrite E. cbn. apply ret_yields; auto. rewrite <- E. auto.
    - rewrite (proj2 (Z.ltb_lt _ _)) by lia. eapply ybind; [apply one_y; [exact C10|rm]|sub|].
      intros o st11 C11 K11 D11 N11. apply sub_y; auto; [rm|apply K11; cbn; auto|]. left. lia.
    - rewrite (proj2 (Z.ltb_ge _ _)) by lia. apply ret_yields; auto. }
  { sub. }
  intros f st11 C11 K11 D11 N11. set (fv := if Z.rem v B <? 0 then _ else _) in *.
  eapply rbind with (hs := f :: half :: x :: hs) (r := Z.compare fv 0).
  { apply reads_returns; [exact C11|]. cbv beta.
    apply (cmp_zero st11 (f :: half :: x :: hs) f half fv); cbn [In]; auto. apply K11; cbn; auto. }
  { sub. }
  intros st12 C12 K12.
  assert (denotes st12 x v) as X12 by (apply K12; [cbn; auto|]; apply K11; cbn; auto).
  eapply ybind with (hs := f :: half :: hs) (v := if v mod B =? 0 then v else Z.quot v B * B + B).
  { assert (consistent P st12 (x :: f :: half :: hs)) as C12' by con.
    destruct (Z.eqb_spec (v mod B) 0) as [E|E].
    - pose proof (proj1 (rem_whole v) E) as E'. assert (fv = 0) as -> by (unfold fv; rewrite E'; reflexivity).
      rewrite Z.compare_refl. pose proof (floor_y st12 (f :: half :: hs) x v C12' ltac:(rm) X12 ltac:(right; lia)) as F.
      replace (Z.quot v B * B) with v in F by lia. exact F.
    - assert (Z.rem v B <> 0) as E' by (intros H0; apply E, rem_whole, H0).
      assert (0 < fv) as Hf by (unfold fv; destruct (Z.ltb_spec (Z.rem v B) 0); lia).
      replace (fv ?= 0) with Gt by (symmetry; apply Z.compare_gt_iff; lia).
      pose proof (ceil_y st12 (f :: half :: hs) x v C12' ltac:(rm) X12 Nx ltac:(right; lia)) as F.
      unfold whole in F. rewrite (proj2 (Z.eqb_neq _ _) E), andb_false_r in F. exact F. }
  { sub. }
  intros r st13 C13 K13 D13 N13.
  eapply rbind with (hs := r :: half :: hs); [apply drop_returns; con|sub|]. intros st14 C14 K14.
  eapply rbind with (hs := r :: hs); [apply drop_returns; con|sub|]. intros st15 C15 K15.
  apply ret_yields; auto. apply K15; [cbn; auto|]. apply K14; cbn; auto.
Qed.

End Ops.
