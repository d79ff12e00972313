(** C143: the binary text of fixed-point numbers. *)
From Coq Require Import ZArith QArith List Bool Lia.
From Verif Require Import Base TextSpec BitSliceModel PrimModel PrimProofs FixedModel FixedTextModel RealSpec RealProofs PropPrim BigIntMore PropReals.
Import ListNotations.
Local Open Scope Z_scope.

(** ** The numeral of a number *)

Lemma bits_val v : forall n, 0 <= v -> digits_val 2 (map (fun i => Z.b2z (Z.testbit v (Z.of_nat i))) (rev (seq 0 n))) = v mod 2 ^ Z.of_nat n.
Proof.
  intros n Hv. unfold digits_val.
  assert (forall l acc, fold_left (fun acc d => acc * 2 + d) l acc = acc * 2 ^ Z.of_nat (length l) + fold_left (fun acc d => acc * 2 + d) l 0) as K.
  { induction l as [|x l IH]; intros acc; [cbn; lia|]. cbn [fold_left length]. rewrite IH, (IH (0 * 2 + x)). rewrite Nat2Z.inj_succ, Z.pow_succ_r by lia. lia. }
  induction n as [|n IH]; [cbn [seq rev map fold_left Z.of_nat]; rewrite Z.mod_1_r; reflexivity|].
  rewrite seq_S, rev_app_distr. cbn [rev app map fold_left Nat.add]. rewrite K, IH, map_length, rev_length, seq_length.
  rewrite Nat2Z.inj_succ. rewrite Z.pow_succ_r by lia. rewrite (Z.mul_comm 2), Z.rem_mul_r by (try lia; apply Z.pow_nonzero; lia).
  rewrite Z.testbit_spec' by lia. lia.
Qed.

Lemma binary_numeral v : 0 <= v -> is_numeral 2 v (unsigned_binary v).
Proof.
  intros Hv. set (n := S (Z.to_nat (Z.log2 v))). exists (map (fun i => Z.b2z (Z.testbit v (Z.of_nat i))) (rev (seq 0 n))).
  split; [|split; [|split]].
  - unfold unsigned_binary. fold n. rewrite map_map. apply map_ext. intros i. destruct (Z.testbit _ _); reflexivity.
  - apply Forall_map, Forall_forall. intros i _. destruct (Z.testbit _ _); cbn; lia.
  - rewrite bits_val by auto. apply Z.mod_small. split; auto. unfold n. rewrite Nat2Z.inj_succ, Z2Nat.id by apply Z.log2_nonneg.
    destruct (Z.eq_dec v 0) as [->|]; [cbn; lia|]. apply Z.log2_spec. lia.
  - unfold n. rewrite seq_S, rev_app_distr. cbn [rev app map Nat.add]. destruct (Z.eq_dec v 0) as [->|Nz]; [left; reflexivity|].
    right. split; [discriminate|]. cbn [hd]. rewrite Z2Nat.id by apply Z.log2_nonneg. rewrite Z.bit_log2 by lia. discriminate.
Qed.

Lemma numeral_value radix s v v' : 0 < radix -> is_numeral radix v s -> is_numeral radix v' s -> radix <= 36 -> v = v'.
Proof.
  intros H (ds & E & F & V & _) (ds' & E' & F' & V' & _) Hr. subst v v' s. f_equal. clear -E' F F' Hr.
  revert ds' E' F'. induction F as [|d ds Hd F IH]; intros [|d' ds'] E F'; try discriminate; auto.
  inversion F' as [|? ? Hd' F'']; subst. injection E as E1 E2. f_equal; [|apply IH; auto].
  unfold digit_char in E1. destruct (Z.ltb_spec d 10), (Z.ltb_spec d' 10); lia.
Qed.

Lemma numeral_no_point v s : is_numeral 2 v s -> ~ In 46 s.
Proof.
  intros (ds & -> & F & _) I. apply in_map_iff in I. destruct I as (d & E & I). rewrite Forall_forall in F. specialize (F d I).
  unfold digit_char in E. destruct (Z.ltb_spec d 10); lia.
Qed.

Lemma split_point (a b c d : list Z) : ~ In 46 a -> ~ In 46 c -> a ++ [46] ++ b = c ++ [46] ++ d -> a = c /\ b = d.
Proof.
  revert c. induction a as [|x a IH]; intros [|y c] Ha Hc E; cbn in *.
  - injection E. auto.
  - injection E as <- _. elim Hc. auto.
  - injection E as -> _. elim Ha. auto.
  - injection E as -> E. destruct (IH c) as [-> ->]; auto.
Qed.

(** ** C143 *)

(** The text [s] reads as the number [v]: a binary numeral, a point, and binary digits after the point. *)
Definition reads_as (s : list Z) (v : Q) : Prop := exists a b whole part,
  s = whole ++ [46] ++ map digit_char part /\ is_numeral 2 a whole /\ Forall (fun d => 0 <= d < 2) part /\ digits_val 2 part = b /\
  (v == inject_Z a + inject_Z b / inject_Z (2 ^ Z.of_nat (length part)))%Q.

(** What is printed: the numerals of the raw values of the two parts, in two's complement. *)
Theorem C143_text_partial : forall dbg t N x, (0 < ibits t)%nat -> one_fits t N -> fits t x ->
  let M := 2 ^ Z.of_nat (ibits t) in let P := 2 ^ Z.of_nat N in
  exists whole part, fx_binary dbg t N x = Ok (whole ++ [46] ++ part) /\
    is_numeral 2 ((Z.quot x P * P) mod M) whole /\ is_numeral 2 (Z.rem x P mod M) part.
Proof.
  intros dbg t N x Hb H1 Hx M P. pose proof (two_pow_pos N). pose proof (two_pow_pos (ibits t)).
  unfold fx_binary. rewrite trunc_ok by auto. cbn [bind]. rewrite fract_ok by auto. cbn [bind].
  eexists _, _. split; [reflexivity|]. split; apply binary_numeral; apply Z.mod_pos_bound; auto.
Qed.
Print Assumptions C143_text_partial.

(** Different numbers have different texts. *)
Theorem C143_injective_partial : forall dbg dbg' t N x y, (0 < ibits t)%nat -> one_fits t N -> fits t x -> fits t y ->
  fx_binary dbg t N x = fx_binary dbg' t N y -> x = y.
Proof.
  intros dbg dbg' t N x y Hb H1 Hx Hy E. pose proof (two_pow_pos N). pose proof (two_pow_pos (ibits t)).
  destruct (C143_text_partial dbg t N x Hb H1 Hx) as (a & b & Ex & A & B).
  destruct (C143_text_partial dbg' t N y Hb H1 Hy) as (c & d & Ey & C & D).
  rewrite Ex, Ey in E. injection E as E. apply split_point in E; [|eapply numeral_no_point; eauto|eapply numeral_no_point; eauto].
  destruct E as [-> ->]. pose proof (numeral_value 2 c _ _ ltac:(lia) A C ltac:(lia)) as V1. pose proof (numeral_value 2 d _ _ ltac:(lia) B D ltac:(lia)) as V2.
  set (P := 2 ^ Z.of_nat N) in *. set (M := 2 ^ Z.of_nat (ibits t)) in *.
  assert (x mod M = y mod M) as Q.
  { rewrite (Z.quot_rem' x P), (Z.quot_rem' y P). rewrite (Z.mul_comm P), (Z.mul_comm P).
    rewrite Z.add_mod, V1, V2, <- Z.add_mod by lia. reflexivity. }
  rewrite <- (wrap_id t x), <- (wrap_id t y) by auto. rewrite <- (wrap_mod_eq t x y); auto.
Qed.
Print Assumptions C143_injective_partial.

(** When the text of a non-negative number reads as the number: exactly if there is no whole part (or no fraction bits), and the
    fraction is zero or at least a half. *)
Theorem C143_right_partial : forall dbg t N x, (0 < ibits t)%nat -> one_fits t N -> fits t x -> 0 <= x ->
  exists s, fx_binary dbg t N x = Ok s /\
  (reads_as s (fixed_val N x) <-> (N = 0%nat \/ x < 2 ^ Z.of_nat N) /\ (x mod 2 ^ Z.of_nat N = 0 \/ 2 ^ Z.of_nat N <= 2 * (x mod 2 ^ Z.of_nat N))).
Proof.
  intros dbg t N x Hb H1 Hx H0. pose proof (two_pow_pos N) as HP. pose proof (two_pow_pos (ibits t)).
  unfold fx_binary. rewrite trunc_ok by auto. cbn [bind]. rewrite fract_ok by auto. cbn [bind].
  eexists. split; [reflexivity|]. rewrite Z.quot_div_nonneg, Z.rem_mod_nonneg by lia.
  assert (forall P, 0 < P -> P = 2 ^ Z.of_nat N -> 0 <= x mod P < P /\ 0 <= x / P * P <= x) as K.
  { intros P HP' _. pose proof (Z.mod_pos_bound x P HP'). pose proof (Z.div_mod x P). pose proof (Z.div_pos x P H0 HP'). nia. }
  specialize (K _ HP eq_refl). destruct K as [Kb Ka].
  assert (x < 2 ^ Z.of_nat (ibits t)) as Hxm.
  { destruct Hx as [_ Hx]. apply Z.le_lt_trans with (1 := Hx). unfold imax. destruct (isigned t); [|lia].
    apply Z.le_lt_trans with (2 ^ (Z.of_nat (ibits t) - 1)); [lia|]. apply Z.pow_lt_mono_r; lia. }
  unfold prim_binary. rewrite (Z.mod_small (_ * _)), (Z.mod_small (_ mod _)) by (pose proof (Z.mod_le x (2 ^ Z.of_nat N)); lia).
  set (b := x mod 2 ^ Z.of_nat N) in *. set (q := x / 2 ^ Z.of_nat N) in *.
  assert (x = q * 2 ^ Z.of_nat N + b) as Ex by (unfold q, b; rewrite (Z.div_mod x (2 ^ Z.of_nat N)) at 1; lia).
  set (L := S (Z.to_nat (Z.log2 b))).
  assert (reads_as (unsigned_binary (q * 2 ^ Z.of_nat N) ++ [46] ++ unsigned_binary b) (fixed_val N x) <->
    (q * 2 ^ Z.of_nat N * 2 ^ Z.of_nat L + b) * 2 ^ Z.of_nat N = x * 2 ^ Z.of_nat L) as ->.
  { pose proof (two_pow_pos L) as HL.
    assert (forall v, (v == inject_Z (q * 2 ^ Z.of_nat N) + inject_Z b / inject_Z (2 ^ Z.of_nat L))%Q -> (fixed_val N x == v)%Q <->
      (q * 2 ^ Z.of_nat N * 2 ^ Z.of_nat L + b) * 2 ^ Z.of_nat N = x * 2 ^ Z.of_nat L) as V.
    { intros v ->. unfold fixed_val.
      assert (inject_Z (q * 2 ^ Z.of_nat N) + inject_Z b / inject_Z (2 ^ Z.of_nat L) == inject_Z (q * 2 ^ Z.of_nat N * 2 ^ Z.of_nat L + b) / inject_Z (2 ^ Z.of_nat L))%Q as ->.
      { rewrite !inject_Z_plus, !inject_Z_mult. field. apply inj_nz. lia. }
      assert (forall p d p' d', 0 < d -> 0 < d' -> (inject_Z p / inject_Z d == inject_Z p' / inject_Z d')%Q <-> p' * d = p * d') as C.
      { intros p d p' d' Hd Hd'. split; intros C.
        - assert (inject_Z (p' * d) == inject_Z (p * d'))%Q as Y.
          { rewrite !inject_Z_mult. setoid_replace (inject_Z p)%Q with ((inject_Z p / inject_Z d) * inject_Z d)%Q by (field; apply inj_nz; lia).
            rewrite C. field. apply inj_nz; lia. }
          unfold Qeq in Y. cbn in Y. lia.
        - assert (inject_Z (p' * d) == inject_Z (p * d'))%Q as Y by (rewrite C; reflexivity).
          rewrite !inject_Z_mult in Y.
          setoid_replace (inject_Z p / inject_Z d)%Q with ((inject_Z p * inject_Z d') / (inject_Z d * inject_Z d'))%Q by (field; split; apply inj_nz; lia).
          rewrite <- Y. field. split; apply inj_nz; lia. }
      apply C; auto. }
    split.
    - intros (a' & b' & whole & part & E & A & F & D & R).
      pose proof (binary_numeral (q * 2 ^ Z.of_nat N) ltac:(lia)) as B1. pose proof (binary_numeral b ltac:(lia)) as B2.
      apply split_point in E; [|eapply numeral_no_point; eauto|eapply numeral_no_point; eauto]. destruct E as [<- E].
      pose proof (numeral_value 2 _ _ _ ltac:(lia) A B1 ltac:(lia)) as ->.
      assert (length part = L) as Lp.
      { apply (f_equal (@length Z)) in E. rewrite map_length in E. unfold unsigned_binary in E. rewrite map_length, rev_length, seq_length in E. auto. }
      assert (b' = b) as ->.
      { destruct B2 as (ds & E2 & F2 & V2 & _). rewrite E2 in E.
        assert (ds = part) as <-; [|congruence]. clear -E F F2. revert part E F. induction F2 as [|d ds Hd F2 IH]; intros [|d' part] E F; try discriminate; auto.
        inversion F; subst. injection E as E1 E2. f_equal; [|apply IH; auto]. unfold digit_char in E1. destruct (Z.ltb_spec d 10), (Z.ltb_spec d' 10); lia. }
      rewrite Lp in R. apply (V _ (Qeq_refl _)). exact R.
    - intros E. destruct (binary_numeral b ltac:(lia)) as (ds & E2 & F2 & V2 & _).
      assert (length ds = L) as Lp.
      { apply (f_equal (@length Z)) in E2. rewrite map_length in E2. unfold unsigned_binary in E2. rewrite map_length, rev_length, seq_length in E2. auto. }
      exists (q * 2 ^ Z.of_nat N), b, (unsigned_binary (q * 2 ^ Z.of_nat N)), ds. rewrite <- E2, Lp. split; auto.
      split; [apply binary_numeral; lia|]. split; auto. split; auto. apply (V _ (Qeq_refl _)). exact E. }
  assert (0 <= q) by (unfold q; apply Z.div_pos; lia).
  assert (N = 0%nat <-> 2 ^ Z.of_nat N = 1) as N1.
  { split; [intros ->; reflexivity|]. intros E. destruct N; auto. rewrite Nat2Z.inj_succ, Z.pow_succ_r in E by lia. lia. }
  assert (b = 0 /\ 2 ^ Z.of_nat L = 2 \/ 0 < b /\ 2 ^ Z.of_nat L <= 2 * b /\ b < 2 ^ Z.of_nat L /\ (2 ^ Z.of_nat L <= 2 ^ Z.of_nat N) /\
    (2 ^ Z.of_nat N <= 2 * b -> 2 ^ Z.of_nat L = 2 ^ Z.of_nat N)) as BL.
  { destruct (Z.eq_dec b 0) as [E|E]; [left; split; auto; unfold L; rewrite E; reflexivity|]. right. split; [lia|].
    assert (Z.of_nat L = Z.succ (Z.log2 b)) as -> by (unfold L; rewrite Nat2Z.inj_succ, Z2Nat.id by apply Z.log2_nonneg; reflexivity).
    pose proof (Z.log2_spec b ltac:(lia)) as S. rewrite Z.pow_succ_r in * by apply Z.log2_nonneg. split; [lia|]. split; [lia|].
    assert (Z.log2 b < Z.of_nat N) as Lt by (apply Z.log2_lt_pow2; lia).
    rewrite <- Z.pow_succ_r by apply Z.log2_nonneg. split; [apply Z.pow_le_mono_r; lia|]. intros G.
    f_equal. assert (Z.of_nat N <= Z.succ (Z.log2 b)); [|lia].
    destruct (Z_le_gt_dec (Z.of_nat N) (Z.succ (Z.log2 b))) as [|Gt]; auto. exfalso.
    assert (2 ^ Z.succ (Z.succ (Z.log2 b)) <= 2 ^ Z.of_nat N) as Y by (apply Z.pow_le_mono_r; lia).
    pose proof (Z.log2_nonneg b). rewrite !Z.pow_succ_r in Y by lia. lia. }
  rewrite N1. pose proof (two_pow_pos L) as HL. clearbody b q L. set (P := 2 ^ Z.of_nat N) in *. set (T := 2 ^ Z.of_nat L) in *. clearbody P T.
  assert ((q * P * T + b) * P = x * T <-> q * P * T * (P - 1) = b * (T - P)) as -> by (subst x; split; intros; nia).
  assert (x < P <-> q = 0) as XQ by (subst x; split; intros; nia). rewrite XQ.
  destruct BL as [[-> BT]|(B0 & B1 & B2 & B3 & B4)].
  - rewrite BT. split.
    + intros E. split; auto. destruct (Z.eq_dec q 0); auto. left. destruct (Z.eq_dec P 1); auto. exfalso.
      assert (0 < q * P * 2 * (P - 1)) by (repeat apply Z.mul_pos_pos; lia). lia.
    + intros [[->| ->] _]; nia.
  - split.
    + intros E. assert (0 <= q * P * T * (P - 1)) by (repeat apply Z.mul_nonneg_nonneg; lia).
      assert (T = P) as TP by nia. rewrite TP in *. split; [|right; lia].
      destruct (Z.eq_dec q 0); auto. left. destruct (Z.eq_dec P 1); auto. exfalso.
      assert (0 < q * P * P * (P - 1)) by (repeat apply Z.mul_pos_pos; lia). nia.
    + intros [Hq [->|Hb2]]; [lia|]. rewrite (B4 Hb2). destruct Hq as [->| ->]; nia.
Qed.
Print Assumptions C143_right_partial.

(** 1.5 with four fraction bits prints as 10000.1000, that is 16.5. *)
Theorem C143_refuted : exists s, fx_binary true {| ibits := 32; isigned := true |} 4 24 = Ok s /\
  s = [49; 48; 48; 48; 48; 46; 49; 48; 48; 48] /\ (fixed_val 4 24 == 3 # 2)%Q /\ ~ reads_as s (3 # 2).
Proof.
  destruct (C143_right_partial true {| ibits := 32; isigned := true |} 4 24) as (s & E & R); [cbn; lia|unfold one_fits, fits; cbn; lia|unfold fits; cbn; lia|lia|].
  exists s. split; auto. split; [vm_compute in E; congruence|]. split; [reflexivity|]. intros X.
  assert (reads_as s (fixed_val 4 24)) as Y.
  { destruct X as (a & b & w & p & X1 & X2 & X3 & X4 & X5). exists a, b, w, p. do 4 (split; [assumption|]). rewrite <- X5. reflexivity. }
  apply R in Y. destruct Y as [[Y|Y] _]; [discriminate|]. vm_compute in Y. discriminate.
Qed.
Print Assumptions C143_refuted.

Example C143_demo : fx_binary true {| ibits := 32; isigned := true |} 4 8 = Ok [48; 46; 49; 48; 48; 48] /\
  fx_binary false {| ibits := 8; isigned := true |} 2 (-1) = Ok [48; 46; 49; 49; 49; 49; 49; 49; 49; 49].
Proof. vm_compute. split; reflexivity. Qed.

(** ** C104 continued *)

Lemma debug_loop_digits t N : forall fuel W idx buf, 0 <= W < Z.of_nat fuel ->
  exists ds, fx_debug_loop t N fuel W idx buf = Ok ((idx + length ds)%nat, buf ++ emit N idx ds) /\
    Forall (fun d => 0 <= d < 10) ds /\ digits_val 10 (rev ds) = W /\ (W = 0 -> ds = []) /\ (0 < W -> hd 0 (rev ds) <> 0).
Proof.
  induction fuel as [|fuel IH]; intros W idx buf H; [lia|]. cbn [fx_debug_loop].
  destruct (Z.ltb_spec 0 W) as [P|P].
  - rewrite prim_rem_ok, prim_div_ok by (intros; lia). cbn [bind].
    rewrite Z.rem_mod_nonneg, Z.quot_div_nonneg by lia.
    pose proof (Z.div_lt W 10 P ltac:(lia)). pose proof (Z.div_pos W 10). pose proof (Z.mod_pos_bound W 10).
    pose proof (Z.div_mod W 10 ltac:(lia)).
    destruct (IH (W / 10) (S idx) ((if Nat.eqb idx N then buf ++ [46] else buf) ++ [48 + W mod 10]))
      as (ds & E & F & V & Z0 & Zp); [lia|].
    exists (W mod 10 :: ds). rewrite E. split; [|split; [|split; [|split]]].
    + f_equal. f_equal; [cbn [length]; lia|]. cbn [emit]. destruct (Nat.eqb idx N); rewrite <- !app_assoc; auto.
    + constructor; auto. lia.
    + cbn [rev]. rewrite digits_snoc, V. lia.
    + lia.
    + intros _. cbn [rev]. destruct (Z.eq_dec (W / 10) 0) as [Q|Q].
      * rewrite (Z0 Q). cbn. lia.
      * specialize (Zp ltac:(lia)). destruct (rev ds); [elim Zp; reflexivity|exact Zp].
  - exists []. cbn [length emit rev]. rewrite app_nil_r, Nat.add_0_r. repeat split; auto; try lia. cbn. lia.
Qed.

Section Small.
Context (dbg : bool) (t : ity) (N : nat) (x : Z) (fuel : nat) (Hb : (0 < ibits t)%nat) (HN : Z.of_nat N < 2 ^ 32).
Context (H10 : fits t 10) (HP : fits t (10 ^ Z.of_nat N)) (Hf : fits t (x * 10 ^ Z.of_nat N)).

Lemma debug_start : fx_debug dbg t N fuel x =
  do r <- fx_debug_loop t N fuel (x * 5 ^ Z.of_nat N) 0 [] ;;
  let '(idx, buf) := r in Ok (rev (if Nat.eqb idx N then buf ++ [46] else buf)).
Proof.
  pose proof (imin_le0 t Hb) as Hm. pose proof (two_pow_pos N) as P2.
  assert (10 ^ Z.of_nat N = 5 ^ Z.of_nat N * 2 ^ Z.of_nat N) as E10 by (rewrite <- Z.pow_mul_l; auto).
  assert (0 < 5 ^ Z.of_nat N) as P5 by (apply Z.pow_pos_nonneg; lia).
  assert (Z.of_nat N < 10 ^ Z.of_nat N) as NP by (apply Z.pow_gt_lin_r; lia).
  assert (2 ^ Z.of_nat N <= 10 ^ Z.of_nat N) as LP by nia.
  unfold fits in *. unfold fx_debug, truncate_from.
  rewrite !(wrap_id t) by (auto; lia). unfold prim_pow. rewrite as_u32_small by lia.
  rewrite !arith_in by lia. cbn [bind]. rewrite arith_in by lia. cbn [bind]. rewrite prim_div_ok by (try lia; intros; lia).
  cbn [bind]. rewrite E10. replace (x * (5 ^ Z.of_nat N * 2 ^ Z.of_nat N)) with (x * 5 ^ Z.of_nat N * 2 ^ Z.of_nat N) by ring.
  rewrite Z.quot_mul by lia. reflexivity.
Qed.
End Small.

(** Positive values below 1/10: the decimals after their leading zeros, and no point. *)
Theorem C104_small_partial : forall dbg t N x fuel, (0 < ibits t)%nat -> Z.of_nat N < 2 ^ 32 ->
  fits t 10 -> fits t (10 ^ Z.of_nat N) -> 0 < x -> fits t (x * 10 ^ Z.of_nat N) -> x * 10 ^ Z.of_nat N < Z.of_nat fuel ->
  (fixed_val N x < 1 # 10)%Q ->
  exists s, fx_debug dbg t N fuel x = Ok s /\ is_numeral 10 (x * 5 ^ Z.of_nat N) s.
Proof.
  intros dbg t N x fuel Hb HN H10 HP Hx Hf Hfuel Hs. rewrite debug_start by auto.
  pose proof (two_pow_pos N) as P2. assert (10 ^ Z.of_nat N = 5 ^ Z.of_nat N * 2 ^ Z.of_nat N) as E10 by (rewrite <- Z.pow_mul_l; auto).
  assert (0 < 5 ^ Z.of_nat N) as P5 by (apply Z.pow_pos_nonneg; lia).
  destruct (debug_loop_digits t N fuel (x * 5 ^ Z.of_nat N) 0 []) as (ds & E & F & V & _ & Zp); [nia|]. specialize (Zp ltac:(nia)).
  rewrite E. cbn [bind Nat.add app].
  assert (length ds < N)%nat as L.
  { assert (1 # 10 == frac 1 10)%Q as Eq by reflexivity. rewrite Eq, fixed_frac, frac_lt in Hs by lia.
    destruct N as [|n]; [cbn in Hs; lia|].
    apply Nat2Z.inj_lt. destruct (Z_lt_ge_dec (Z.of_nat (length ds)) (Z.of_nat (S n))) as [|G]; auto. exfalso.
    destruct (rev ds) as [|d r] eqn:R; [elim Zp; reflexivity|].
    assert (length ds = S (length r)) as Ld by (rewrite <- rev_length, R; reflexivity).
    assert (10 ^ Z.of_nat (length r) <= digits_val 10 (d :: r)) as Big.
    { assert (0 < d) by (assert (0 <= d < 10) by (apply Forall_rev in F; rewrite R in F; inversion F; auto); cbn in Zp; lia).
      assert (forall l acc, Forall (fun d => 0 <= d < 10) l -> acc * 10 ^ Z.of_nat (length l) <= fold_left (fun a d => a * 10 + d) l acc) as K.
      { clear. induction l as [|e l IH]; intros acc Fl; [cbn; lia|]. inversion Fl; subst. cbn [fold_left length]. rewrite Nat2Z.inj_succ, Z.pow_succ_r by lia.
        specialize (IH (acc * 10 + e) ltac:(auto)). pose proof (Z.pow_nonneg 10 (Z.of_nat (length l)) ltac:(lia)). nia. }
      unfold digits_val. cbn [fold_left]. specialize (K r (0 * 10 + d)). apply Forall_rev in F. rewrite R in F. inversion F; subst.
      specialize (K ltac:(auto)). pose proof (Z.pow_pos_nonneg 10 (Z.of_nat (length r)) ltac:(lia) ltac:(lia)). nia. }
    rewrite V in Big. assert (10 ^ Z.of_nat n <= 10 ^ Z.of_nat (length r)) by (apply Z.pow_le_mono_r; lia).
    rewrite Nat2Z.inj_succ, !Z.pow_succ_r in * by lia.
    assert (10 ^ Z.of_nat n = 5 ^ Z.of_nat n * 2 ^ Z.of_nat n) as E' by (rewrite <- Z.pow_mul_l; auto).
    assert (0 < 5 ^ Z.of_nat n) by (apply Z.pow_pos_nonneg; lia). nia. }
  rewrite (proj2 (Nat.eqb_neq _ _)) by lia. eexists. split; [reflexivity|].
  rewrite emit_at, Nat.sub_0_r, (proj2 (Nat.ltb_ge _ _)), firstn_all2, skipn_all2 by lia. cbn [map app]. rewrite app_nil_r.
  exists (rev ds). rewrite <- map_rev. split; [apply digit_chars, Forall_rev, F|]. split; [apply Forall_rev, F|]. split; auto.
  right. split; auto. intros R. rewrite R in Zp. apply Zp. reflexivity.
Qed.
Print Assumptions C104_small_partial.

(** Zero and negative values: nothing, or a lone point without fraction bits. *)
Theorem C104_negative_partial : forall dbg t N x fuel, (0 < ibits t)%nat -> Z.of_nat N < 2 ^ 32 ->
  fits t 10 -> fits t (10 ^ Z.of_nat N) -> x <= 0 -> fits t (x * 10 ^ Z.of_nat N) -> (0 < fuel)%nat ->
  fx_debug dbg t N fuel x = Ok (if Nat.eqb N 0 then [46] else []).
Proof.
  intros dbg t N x fuel Hb HN H10 HP Hx Hf Hfuel. rewrite debug_start by auto.
  assert (0 < 5 ^ Z.of_nat N) as P5 by (apply Z.pow_pos_nonneg; lia).
  destruct fuel as [|fuel]; [lia|]. cbn [fx_debug_loop]. rewrite (proj2 (Z.ltb_ge _ _)) by nia. cbn [bind]. destruct N; reflexivity.
Qed.
Print Assumptions C104_negative_partial.

(** [10^N] itself does not fit: a panic for every value, with overflow checks. *)
Theorem C104_power_partial : forall t N x fuel, (0 < ibits t)%nat -> Z.of_nat N < 2 ^ 32 ->
  fits t 10 -> fits t (Z.of_nat N) -> ~ fits t (10 ^ Z.of_nat N) -> fx_debug true t N fuel x = Panic.
Proof.
  intros t N x fuel Hb HN H10 HNf HP. unfold fits in *. unfold fx_debug, truncate_from.
  pose proof (imin_le0 t Hb) as Hm.
  rewrite !(wrap_id t) by (auto; lia). unfold prim_pow. rewrite as_u32_small by lia.
  assert (forall v, ~ (imin t <= v <= imax t) -> arith true t v = Panic) as A by (intros v Hv; rewrite arith_out by lia; reflexivity).
  rewrite (A _ HP). reflexivity.
Qed.
Print Assumptions C104_power_partial.

Example C104_small_demo : fx_debug true {| ibits := 32; isigned := true |} 4 1000 1 = Ok [54; 50; 53] /\ 1 * 5 ^ 4 = 625 /\
  fx_debug true {| ibits := 8; isigned := true |} 3 1000 1 = Panic /\ ~ fits {| ibits := 8; isigned := true |} (10 ^ 3).
Proof. unfold fits. repeat split; try reflexivity. cbn. lia. Qed.
