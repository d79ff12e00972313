(** Properties C105 to C107 of BigInt, in the vocabulary of BigIntSpec.v (see PropBigInt.v). *)
From Coq Require Import ZArith List Bool Lia.
From Verif Require Import Base Words Spec TextSpec Arith BitSliceModel BitSliceProofs BitwiseProofs
  InternModel BigIntModel BigIntSpec BigIntProofs BigIntOps BigIntConv BigIntText BigIntMore BigIntRun BigIntHist PropBigInt
  FloatModel FloatSpec FloatProofs.
Import ListNotations.
Local Open Scope Z_scope.

(** ** C105 *)

(** [zero()], [one()] and [default()] denote 0 and 1 and touch nothing. *)
Theorem C105_constants : forall P st hs, consistent P st hs ->
  exists z o, bi_new = Ok z /\ bi_one = Ok o /\
    consistent P st (z :: o :: hs) /\ denotes st z 0 /\ denotes st o 1.
Proof.
  intros P st hs [Hs Hr Hv Hsz Hsm]. exists 2, 6. split; [reflexivity|]. split; [reflexivity|].
  split; [|split; reflexivity].
  constructor; auto. repeat constructor; auto; try lia; left; reflexivity.
Qed.

(** What holds: for every BigInt that is not a negated zero, [is_zero], [is_one],
    [is_positive] (which is [>= 0]) and [is_negative] answer for the value. *)
Theorem C105_predicates_partial : forall P st hs a x,
  consistent P st hs -> proper st hs a x ->
  bi_is_zero a = (x =? 0) /\ bi_is_one a = (x =? 1) /\
  is_positive a = (0 <=? x) /\ is_negative a = (x <? 0).
Proof.
  intros P st hs a x Hc (Ia & Da & Na).
  destruct (info P st hs a x Hc Ia Da) as (l & Hl & _ & _ & _ & Hv & _ & _ & Hs). specialize (Hs Na).
  rewrite is_positive_neg, is_negative_odd, Hs.
  assert (forall k, 0 <= k < 2 ^ 62 -> (to_offset a =? k) && tag_eqb (tag_of a) TInline = (x =? k)) as H.
  { intros k Hk. rewrite to_offset_div, tag_of_bits. destruct Hl as (_ & _ & _ & _ & Hi & Hb & _).
    destruct (Z.testbit a 1) eqn:Eb.
    - destruct (Hi eq_refl) as [-> H62]. cbn [val] in Hv. rewrite Hs. destruct (Z.ltb_spec x 0).
      + replace (tag_eqb TInlineNeg TInline) with false by reflexivity. rewrite andb_false_r.
        symmetry. apply Z.eqb_neq. lia.
      + replace (tag_eqb TInline TInline) with true by reflexivity. rewrite andb_true_r. f_equal. lia.
    - replace (tag_eqb _ TInline) with false by (destruct (Z.odd a); reflexivity). rewrite andb_false_r.
      specialize (Hb eq_refl). symmetry. apply Z.eqb_neq. lia. }
  split; [apply H; lia|]. split; [apply H; lia|]. split; auto.
  destruct (Z.ltb_spec x 0), (Z.leb_spec 0 x); auto; lia.
Qed.

(** [abs] denotes the absolute value, of every BigInt, and never gives a negated zero. *)
Theorem C105_abs : forall P st hs a x,
  consistent P st (a :: hs) -> denotes st a x ->
  consistent P st (bi_abs a :: hs) /\ denotes st (bi_abs a) (Z.abs x) /\ bi_abs a <> neg_zero.
Proof.
  intros P st hs a x Hc Da.
  destruct (info P st (a :: hs) a x Hc (or_introl eq_refl) Da) as (l & Hl & _ & _ & _ & _ & H1 & H2 & _).
  destruct Hl as (_ & _ & _ & _ & _ & _ & H0).
  destruct (con_neg P st hs a Hc) as [C D].
  unfold bi_abs. rewrite is_negative_odd. destruct (Z.odd a) eqn:E.
  - split; [exact C|]. split; [rewrite Z.abs_neq by auto; auto|].
    intros Hn. apply bi_neg_neg_zero in Hn; auto. subst a. discriminate E.
  - split; [exact Hc|]. split; [rewrite Z.abs_eq by auto; auto|]. intros ->. discriminate E.
Qed.

(** Every BigInt is either inline or interned; inline exactly when the magnitude has at most
    62 bits. *)
Theorem C105_representation : forall P st hs a x,
  consistent P st hs -> is_int st hs a x ->
  is_inline a = (Z.abs x <? 2 ^ 62) /\ is_interned a = (2 ^ 62 <=? Z.abs x).
Proof.
  intros P st hs a x Hc (Ia & Da).
  destruct (info P st hs a x Hc Ia Da) as (l & Hl & _ & _ & _ & Hv & _).
  assert (is_inline a = (Z.abs x <? 2 ^ 62)) as H.
  { rewrite is_inline_bit. destruct Hl as (_ & _ & _ & _ & Hi & Hb & _). destruct (Z.testbit a 1).
    - destruct (Hi eq_refl) as [-> H62]. cbn [val] in Hv. symmetry. apply Z.ltb_lt. lia.
    - specialize (Hb eq_refl). symmetry. apply Z.ltb_ge. lia. }
  split; auto. change (is_interned a) with (negb (is_inline a)). rewrite H.
  destruct (Z.ltb_spec (Z.abs x) (2 ^ 62)), (Z.leb_spec (2 ^ 62) (Z.abs x)); auto; lia.
Qed.

Example C105_demo :
  bi_is_zero 31 = false /\ is_negative 31 = true /\ denotes demo_st (bi_abs 5) ((2 ^ 100 + 3) * 7) /\
  is_interned 5 = true.
Proof.
  split; [|split; [|split]].
  - apply (C105_predicates_partial 11 demo_st demo_hs 31 (-7) demo_consistent demo_b').
  - apply (C105_predicates_partial 11 demo_st demo_hs 31 (-7) demo_consistent demo_b').
  - assert (consistent 11 demo_st (5 :: [0; 31; 38])) as H.
    { destruct demo_consistent as [Hs Hr Hv Hsz Hsm]. constructor; auto.
      - intros k Hk. rewrite (Hr k Hk). do 2 f_equal. unfold uses, demo_hs. cbn [filter].
        destruct (refers k 5), (refers k 0), (refers k 31), (refers k 38); reflexivity.
      - rewrite Forall_forall in *. intros h Hh. apply Hv. cbn in *. tauto. }
    destruct (C105_abs 11 demo_st [0; 31; 38] 5 _ H (proj2 demo_c)) as (_ & D & _). exact D.
  - apply (C105_representation 11 demo_st demo_hs 5 _ demo_consistent demo_c).
Qed.
Print Assumptions C105_constants.
Print Assumptions C105_predicates_partial.
Print Assumptions C105_abs.
Print Assumptions C105_representation.

(** What fails: [-BigInt::from(0)] has value 0, but [is_zero()] is false, [is_positive()] is
    false and [is_negative()] is true. *)
Theorem C105_predicates_refuted : exists e st p h,
  run false [From I32 0; NegRef 0] [] interner_new 0 = Ok (e, st, p) /\
  nth_error e 1 = Some (Some h) /\ denotes st h 0 /\
  bi_is_zero h = false /\ is_positive h = false /\ is_negative h = true.
Proof.
  do 4 eexists. split; [vm_compute; reflexivity|]. split; [reflexivity|]. split; [reflexivity|].
  split; [reflexivity|]. split; reflexivity.
Qed.
Print Assumptions C105_predicates_refuted.

(** ** C106 *)

(** What holds, of every BigInt below [2^1024] in magnitude: the result is finite and within a
    relative error of [2^-51] of the magnitude, or infinite very near [2^1024]. *)
Theorem C106_approx_partial : forall P st hs a x,
  consistent P st hs -> is_int st hs a x -> Z.abs x < 2 ^ 1024 ->
  exists r, bi_approx_float st a = Ok r /\ approximates r (Z.abs x).
Proof.
  intros P st hs a x Hc (Ia & Da) Hx.
  destruct (info P st hs a x Hc Ia Da) as (l & Hl & Hw & Hcan & Hlen & Hv & _).
  exists (approx_limbs l). unfold bi_approx_float. rewrite (proj1 Hl). split; [reflexivity|].
  rewrite <- Hv in *. apply approx_low; auto. pose proof (canonical_len l Hw Hcan) as El.
  assert (Z.log2 (val 64 l) < 1024).
  { pose proof (val_nonneg 64 l Hw). destruct (Z.eq_dec (val 64 l) 0) as [->|]; [reflexivity|].
    apply Z.log2_lt_pow2; lia. }
  assert (Z.log2 (val 64 l) / 64 <= 15). { apply Z.lt_succ_r, Z.div_lt_upper_bound; lia. } lia.
Qed.

(** Magnitudes below [2^53] are returned exactly. *)
Theorem C106_exact_partial : forall P st hs a x,
  consistent P st hs -> is_int st hs a x -> Z.abs x < 2 ^ 53 ->
  bi_approx_float st a = Ok (Fin (Z.abs x)).
Proof.
  intros P st hs a x Hc (Ia & Da) Hx.
  destruct (info P st hs a x Hc Ia Da) as (l & Hl & Hw & Hcan & Hlen & Hv & _).
  assert (length l = 1%nat) as L by (apply canonical_one; auto; lia).
  destruct l as [|v [|]]; try discriminate L. cbn [val] in Hv.
  unfold bi_approx_float. rewrite (proj1 Hl). cbn [bind]. f_equal.
  unfold approx_limbs. cbn [approx_loop]. rewrite (proj2 (Z.ltb_lt _ _)) by lia.
  assert (v = Z.abs x) as -> by lia.
  rewrite (proj1 (as_f64_val (Z.abs x) ltac:(lia))), powi_low by lia.
  rewrite (round53_small (Z.abs x)) by lia.
  assert (mul_add (Fin (Z.abs x)) (Fin (2 ^ (64 * Z.of_nat 0))) (Fin 0) = round64 (Z.abs x)) as ->.
  { unfold mul_add. change (64 * Z.of_nat 0) with 0. rewrite Z.pow_0_r, Z.mul_1_r, Z.add_0_r.
    destruct (Z.abs x); reflexivity. }
  unfold round64. rewrite round53_small by lia. rewrite (proj2 (Z.ltb_lt _ _)); auto.
  apply Z.lt_trans with (2 ^ 53); [lia|]. apply Z.pow_lt_mono_r; lia.
Qed.

Lemma nth_skip (l : list Z) : forall n k d, nth k (skipn n l) d = nth (n + k) l d.
Proof. induction l as [|x l IH]; intros [|n] k d; cbn [skipn]; auto; [destruct k; reflexivity|]. cbn [Nat.add nth]. apply IH. Qed.

Lemma existsb_limb l : wf 64 l -> existsb (Z.eqb 0) (skipn 16 l) = true <->
  exists i, 16 <= i < Z.of_nat (length l) /\ limb i (val 64 l) = 0.
Proof.
  intros Hw.
  assert (forall i, (i < length l)%nat -> limb (Z.of_nat i) (val 64 l) = nth i l 0) as HL.
  { intros i Hi. unfold limb. replace (2 ^ (64 * Z.of_nat i)) with (cap 64 i).
    2:{ rewrite cap_bits. f_equal. lia. }
    rewrite <- val_skipn by (auto; lia).
    rewrite <- (Nat.add_0_r i) at 2. rewrite <- nth_skip.
    destruct (skipn i l) as [|v t] eqn:E.
    - pose proof (skipn_length i l) as Hs. rewrite E in Hs. cbn in Hs. lia.
    - cbn [nth]. change (2 ^ 64) with (base 64). apply val_mod_base.
      assert (wf 64 (v :: t)) as H by (rewrite <- E; apply wf_skipn; auto). inversion H; auto. }
  rewrite existsb_exists. split.
  - intros (v & Hin & E). apply Z.eqb_eq in E. subst v. apply (In_nth _ _ 0) in Hin.
    destruct Hin as (k & Hk & E). rewrite skipn_length in Hk. exists (Z.of_nat (16 + k)). split; [lia|].
    rewrite HL by lia. rewrite nth_skip in E. exact E.
  - intros (i & Hi & E). exists 0. split; [|reflexivity]. rewrite <- (Z2Nat.id i) in E by lia.
    rewrite HL in E by lia. rewrite <- E.
    replace (Z.to_nat i) with (16 + (Z.to_nat i - 16))%nat by lia. rewrite <- nth_skip.
    apply nth_In. rewrite skipn_length. lia.
Qed.

(** From [2^1024] on the result is infinity, unless a limb from the 17th on is zero: then it
    is a NaN. *)
Theorem C106_huge_partial : forall P st hs a x,
  consistent P st hs -> is_int st hs a x -> 2 ^ 1024 <= Z.abs x -> Z.log2 (Z.abs x) < 64 * 2 ^ 31 ->
  (bi_approx_float st a = Ok NaN /\ exists i, 16 <= i /\ 2 ^ (64 * i) <= Z.abs x /\ limb i (Z.abs x) = 0) \/
  (bi_approx_float st a = Ok Inf /\ forall i, 16 <= i -> 2 ^ (64 * i) <= Z.abs x -> limb i (Z.abs x) <> 0).
Proof.
  intros P st hs a x Hc (Ia & Da) Hx Hx2.
  destruct (info P st hs a x Hc Ia Da) as (l & Hl & Hw & Hcan & Hlen & Hv & _).
  unfold bi_approx_float. rewrite (proj1 Hl). cbn [bind]. rewrite <- Hv in *.
  pose proof (canonical_len l Hw Hcan) as El.
  assert (0 < val 64 l) as Hpos. { eapply Z.lt_le_trans; [|exact Hx]. apply Z.pow_pos_nonneg; lia. }
  assert (1024 <= Z.log2 (val 64 l)) as Hlog by (apply Z.log2_le_pow2; lia).
  assert (16 <= Z.log2 (val 64 l) / 64) by (apply Z.div_le_lower_bound; lia).
  assert (Z.log2 (val 64 l) / 64 < 2 ^ 31) by (apply Z.div_lt_upper_bound; lia).
  rewrite approx_high by (auto; lia). rewrite (proj2 (Z.leb_le _ _)) by lia. cbn [andb].
  assert (forall i, 0 <= i -> 2 ^ (64 * i) <= val 64 l <-> i < Z.of_nat (length l)) as HB.
  { intros i Hi. rewrite El. rewrite Z.log2_le_pow2 by lia. split; intros Q.
    - assert (i <= Z.log2 (val 64 l) / 64) by (apply Z.div_le_lower_bound; lia). lia.
    - assert (64 * (Z.log2 (val 64 l) / 64) <= Z.log2 (val 64 l)) by (apply Z.mul_div_le; lia). lia. }
  destruct (existsb (Z.eqb 0) (skipn 16 l)) eqn:E.
  - left. split; auto. apply existsb_limb in E; auto. destruct E as (i & Hi & E). exists i.
    split; [lia|]. split; auto. apply HB; lia.
  - right. split; auto. intros i Hi Hb E2.
    assert (existsb (Z.eqb 0) (skipn 16 l) = true) as E3.
    { apply existsb_limb; auto. exists i. split; auto. split; auto. apply HB; auto. lia. }
    congruence.
Qed.

Example C106_demo :
  (exists r, bi_approx_float demo_st 0 = Ok r /\ approximates r (2 ^ 100 + 3)) /\
  bi_approx_float demo_st 38 = Ok (Fin 9).
Proof.
  split.
  - apply (C106_approx_partial 11 demo_st demo_hs 0 (2 ^ 100 + 3) demo_consistent demo_a).
    apply Z.lt_trans with (2 ^ 101); [reflexivity|]. apply Z.pow_lt_mono_r; lia.
  - apply (C106_exact_partial 11 demo_st demo_hs 38 9 demo_consistent demo_d). reflexivity.
Qed.
Print Assumptions C106_approx_partial.
Print Assumptions C106_exact_partial.
Print Assumptions C106_huge_partial.

(** What fails: [BigInt::from(-5).approx_float()] is 5.0; and for 1 << 1088, whose limb 16 is
    zero, the result is a NaN rather than infinity. *)
Theorem C106_sign_refuted : exists e st p h,
  run false [From I32 (-5)] [] interner_new 0 = Ok (e, st, p) /\
  nth_error e 0 = Some (Some h) /\ denotes st h (-5) /\ bi_approx_float st h = Ok (Fin 5).
Proof.
  do 4 eexists. split; [vm_compute; reflexivity|]. split; [reflexivity|]. split; [reflexivity|].
  vm_compute. reflexivity.
Qed.
Theorem C106_infinity_refuted : exists e st p h,
  run false [From I32 1; From I32 1088; RefRef OShl 0 1] [] interner_new 0 = Ok (e, st, p) /\
  nth_error e 2 = Some (Some h) /\ denotes st h (2 ^ 1088) /\ bi_approx_float st h = Ok NaN.
Proof.
  do 4 eexists. split; [vm_compute; reflexivity|]. split; [reflexivity|].
  split; [eexists; split; vm_compute; reflexivity|]. vm_compute. reflexivity.
Qed.
Print Assumptions C106_sign_refuted.
Print Assumptions C106_infinity_refuted.

Example C106_huge_demo : exists e st p h,
  run false [From I32 1; From I32 1088; RefRef OShl 0 1] [] interner_new 0 = Ok (e, st, p) /\
  nth_error e 2 = Some (Some h) /\ consistent (Z.of_nat p + 8) st (handles e) /\ is_int st (handles e) h (2 ^ 1088).
Proof.
  do 4 eexists. split; [vm_compute; reflexivity|]. split; [reflexivity|].
  match goal with |- consistent _ ?st (handles ?e) /\ _ =>
    destruct (run_from_start false [From I32 1; From I32 1088; RefRef OShl 0 1] e st 1) as [C _]; [vm_compute; reflexivity|vm_compute; reflexivity|] end.
  split; [exact C|]. split; [vm_compute; tauto|]. eexists; split; vm_compute; reflexivity.
Qed.

(** ** C107 *)

Lemma bits_loop l : wf 64 l -> forall n out, (n <= bit_len 64 l)%nat ->
  foldR (fun out idx => do b <- get_bit 64 l idx ;; Ok (out ++ [if b : bool then 49 else 48])) (rev (seq 0 n)) out =
  Ok (out ++ map digit_char (map (fun i => Z.b2z (Z.testbit (val 64 l) (Z.of_nat i))) (rev (seq 0 n)))).
Proof.
  intros Hw. induction n as [|n IH]; intros out Hn.
  - cbn. rewrite app_nil_r. reflexivity.
  - rewrite seq_S, rev_app_distr. cbn [rev app foldR map Nat.add].
    rewrite get_bit_in by (auto; lia). cbn [bind]. rewrite IH by lia. rewrite <- app_assoc. cbn [app].
    do 3 f_equal. destruct (Z.testbit (val 64 l) (Z.of_nat n)); reflexivity.
Qed.

Lemma bits_val v : 0 <= v -> forall n acc,
  fold_left (fun acc d => acc * 2 + d) (map (fun i => Z.b2z (Z.testbit v (Z.of_nat i))) (rev (seq 0 n))) acc =
  acc * 2 ^ Z.of_nat n + v mod 2 ^ Z.of_nat n.
Proof.
  intros Hv. induction n as [|n IH]; intros acc.
  - cbn. rewrite Z.mod_1_r. lia.
  - rewrite seq_S, rev_app_distr. cbn [rev app map Nat.add fold_left]. rewrite IH.
    rewrite Nat2Z.inj_succ, Z.pow_succ_r by lia.
    assert (0 < 2 ^ Z.of_nat n) by (apply Z.pow_pos_nonneg; lia).
    rewrite (Z.mul_comm 2 (2 ^ Z.of_nat n)), Z.rem_mul_r by lia.
    rewrite Z.testbit_spec' by lia. ring.
Qed.

(** Binary formatting of every BigInt that is not a negated zero: the sign, "0b", and the binary
    digits of the magnitude, most significant first, in whole limbs of 64 digits.  It reads
    nothing but its argument. *)
Theorem C107_binary : forall P st hs a x,
  consistent P st hs -> proper st hs a x ->
  exists ds, returns P hs (bi_binary a) st ((if x <? 0 then [45] else []) ++ [48; 98] ++ map digit_char ds) /\
    Forall (fun d => 0 <= d < 2) ds /\ digits_val 2 ds = Z.abs x /\
    Z.of_nat (length ds) = 64 * (Z.log2 (Z.abs x) / 64 + 1).
Proof.
  intros P st hs a x Hc (Ia & Da & Na).
  destruct (info P st hs a x Hc Ia Da) as (l & Hl & Hw & Hcan & Hlen & Hv & _ & _ & Hs). specialize (Hs Na).
  exists (map (fun i => Z.b2z (Z.testbit (val 64 l) (Z.of_nat i))) (rev (seq 0 (bit_len 64 l)))). split; [|split; [|split]].
  - exists st. split; [|split; [auto|apply keeps_refl]].
    unfold bi_binary, mbind, reads, lift. rewrite (proj1 Hl). cbn [bind]. rewrite bits_loop by auto. cbn [bind app].
    unfold ret, minus. rewrite is_negative_odd, Hs. reflexivity.
  - apply Forall_forall. intros d Hd. apply in_map_iff in Hd. destruct Hd as (i & <- & _).
    destruct (Z.testbit (val 64 l) (Z.of_nat i)); cbn; lia.
  - unfold digits_val. rewrite bits_val by (apply val_nonneg; auto). rewrite Z.mul_0_l, Z.add_0_l, <- Hv.
    apply Z.mod_small. apply val_cap_bits; auto.
  - rewrite map_length, rev_length, seq_length. unfold bit_len. rewrite <- Hv.
    rewrite <- (canonical_len l Hw Hcan). lia.
Qed.

(** Those digits, parsed with radix 2, give a BigInt of the magnitude back. *)
Theorem C107_round_trip : forall dbg P st hs a x,
  consistent P st hs -> room P hs 3 -> proper st hs a x ->
  exists s, returns P hs (bi_binary a) st ((if x <? 0 then [45] else []) ++ [48; 98] ++ s) /\
    exists c st', bi_from_str_radix dbg s 2 st = Ok (inl c, st') /\ denotes st' c (Z.abs x).
Proof.
  intros dbg P st hs a x Hc Hr Hp. destruct (C107_binary P st hs a x Hc Hp) as (ds & R & F & V & _).
  exists (map digit_char ds). split; auto.
  assert (spells 2 (map digit_char ds) ds) as Hsp.
  { apply spells_map with (radix := 2); auto; try lia; intros; apply char_digit_char; lia. }
  destruct (from_str_ok dbg P st hs 2 (map digit_char ds) ds ltac:(lia) Hc Hr Hsp) as (c & st' & E & _ & _ & D & _).
  rewrite V in D. eauto.
Qed.

Example C107_demo : exists ds, returns 11 demo_hs (bi_binary 31) demo_st ([45; 48; 98] ++ map digit_char ds) /\
  digits_val 2 ds = 7 /\ length ds = 64%nat.
Proof.
  destruct (C107_binary 11 demo_st demo_hs 31 (-7) demo_consistent demo_b') as (ds & R & _ & V & L).
  exists ds. split; [exact R|]. split; [exact V|]. change (64 * (Z.log2 (Z.abs (-7)) / 64 + 1)) with 64 in L. lia.
Qed.
Print Assumptions C107_binary.
Print Assumptions C107_round_trip.
