(** C40 continued: [I<N>] division for all signs.  Both operands lose their sign bit first, so a negative operand [x] is divided as
    [x + 2^(8N-1)]; the sign of the result is that of the product.  Specification: DivSpec.v. *)
From Coq Require Import ZArith List Bool Lia.
From Verif Require Import Base Words Spec Arith BitSliceModel BitSliceProofs ElementModel
  BitwiseModel BitwiseProofs BitDivMod PropBits ElemDivMod UModel UProofs IModel IProofs
  PropI PropDiv DivSpec DivExact PropDivExact.
Import ListNotations.
Local Open Scope Z_scope.

Lemma cleared a x : (0 < length a)%nat -> wf 8 a -> 0 <= val 8 x -> 2 * val 8 x < cap 8 (length a) ->
  2 * val 8 x = 2 * sval a + (if sval a <? 0 then cap 8 (length a) else 0) ->
  val 8 x = sval a mod 2 ^ (8 * Z.of_nat (length a) - 1).
Proof.
  intros Hp Wa H0 H1 H2. destruct (half_cap (length a) Hp) as [EC HH].
  set (H := 2 ^ (8 * Z.of_nat (length a) - 1)) in *. rewrite EC in *. clearbody H. clear EC Wa Hp.
  destruct (sval a <? 0).
  - apply Z.mod_unique_pos with (-1); lia.
  - apply Z.mod_unique_pos with 0; lia.
Qed.

Lemma signed_value q n s Q : wf 8 q -> length q = n -> (0 < n)%nat -> 0 <= Q -> 2 * Q < cap 8 n ->
  s = true \/ s = false ->
  (sval (if s then i_neg q else q) = (if s then -1 else 1) * Q <-> val 8 q = Q).
Proof.
  intros Wq Lq Hp HQ HC [-> | ->].
  - destruct (i_neg_spec q Wq ltac:(lia)) as (Wn & Ln & Vn). pose proof (val_bound 8 q Wq) as Bq. rewrite Lq in *.
    unfold sval. rewrite Ln, Vn.
    destruct (Z.eq_dec (val 8 q) 0) as [E|E].
    + rewrite E. change (- 0) with 0. rewrite Z.mod_0_l by lia. rewrite (proj2 (Z.ltb_lt _ _)) by lia. lia.
    + assert ((- val 8 q) mod cap 8 n = cap 8 n - val 8 q) as -> by (symmetry; apply Z.mod_unique_pos with (-1); lia).
      destruct (Z.ltb_spec (2 * (cap 8 n - val 8 q)) (cap 8 n)); lia.
  - pose proof (val_bound 8 q Wq) as Bq. rewrite Lq in *. unfold sval. rewrite Lq.
    destruct (Z.ltb_spec (2 * val 8 q) (cap 8 n)); lia.
Qed.

(** Division by anything but 0 and [MIN], all signs. *)
Theorem C40_signs_partial : forall dbg a b, wf 8 a -> wf 8 b -> length b = length a ->
  (0 < length a)%nat -> Z.of_nat (8 * length a) < 2 ^ 64 ->
  let H := 2 ^ (8 * Z.of_nat (length a) - 1) in
  let x := sval a mod H in let y := sval b mod H in
  let s := if xorb (sval a <? 0) (sval b <? 0) then -1 else 1 in
  sval b <> 0 -> sval b <> - H ->
  exists q r, i_div dbg a b = Ok q /\ i_rem dbg a b = Ok r /\
    (sval q = s * (x / y) <-> agreeing 8 (8 * length a) x y) /\
    (sval q = s * (x / y) -> sval r = s * (x mod y)).
Proof.
  intros dbg a b Ha Hb Hl Hpos H64 H x y s Nb Nm. unfold i_div, i_rem.
  rewrite (proj1 (sign_spec a Ha Hpos)), (proj1 (sign_spec b Hb ltac:(lia))). cbn [bind].
  destruct (i_abs_spec a Ha Hpos) as (la & Ex & Wx & Lx & Ox & Bx & Vx).
  destruct (i_abs_spec b Hb ltac:(lia)) as (lb & Ey & Wy & Ly & Oy & By & Vy).
  rewrite Ex, Ey. cbn [bind]. rewrite <- Lx.
  pose proof (cleared a la Hpos Ha Ox Bx Vx) as Xa.
  pose proof (cleared b lb ltac:(lia) Hb Oy By Vy) as Yb. rewrite Hl in Yb, By. fold H in Xa, Yb. fold x in Xa. fold y in Yb.
  destruct (half_cap (length a) Hpos) as [EC HH]. fold H in EC, HH.
  assert (- H <= sval b < H) as Rb.
  { pose proof (val_bound 8 b Hb) as B. rewrite Hl in B. unfold sval. rewrite Hl, EC in *. destruct (Z.ltb_spec (2 * val 8 b) (2 * H)); lia. }
  assert (0 < y) as Py.
  { unfold y. destruct (Z_lt_le_dec (sval b) 0); [rewrite <- (Z.mod_unique_pos (sval b) H (-1) (sval b + H)); lia|rewrite Z.mod_small; lia]. }
  destruct (C16_congruence_partial dbg 8 la lb) as (q & r & E0 & W1 & W2 & L1 & L2 & V & _ & _ & E2 & _ & _ & E4); auto; try lia.
  destruct (C16_exact_partial dbg 8 la lb) as (q' & r' & E' & _ & _ & H1 & H2); auto; try lia.
  assert (q' = q /\ r' = r) as [-> ->] by (split; congruence). rewrite E2, E4. cbn [bind].
  exists (if xorb (sval a <? 0) (sval b <? 0) then i_neg q else q), (if xorb (sval a <? 0) (sval b <? 0) then i_neg r else r).
  split; [destruct (xorb _ _); reflexivity|]. split; [destruct (xorb _ _); reflexivity|].
  rewrite Lx in *. rewrite Xa, Yb in *. rewrite EC in *.
  assert (0 <= x < H) as Rx by (apply Z.mod_pos_bound; lia).
  assert (0 <= x / y) by (apply Z.div_pos; lia).
  assert (x / y <= x) by (apply Z.div_le_upper_bound; nia).
  assert (0 <= x mod y <= x) by (split; [apply Z.mod_pos_bound; lia|apply Z.mod_le; lia]).
  assert (sval (if xorb (sval a <? 0) (sval b <? 0) then i_neg q else q) = s * (x / y) <-> val 8 q = x / y) as SQ.
  { unfold s. apply signed_value with (length a); auto; try lia. destruct (xorb _ _); auto. }
  assert (sval (if xorb (sval a <? 0) (sval b <? 0) then i_neg r else r) = s * (x mod y) <-> val 8 r = x mod y) as SR.
  { unfold s. apply signed_value with (length a); auto; try lia. destruct (xorb _ _); auto. }
  rewrite SQ, SR. auto.
Qed.
Print Assumptions C40_signs_partial.

(** -7 / 2 is -(121 / 2), -3 % -2 is 125 % 126. *)
Example C40_signs_demo : sval [249] mod 2 ^ 7 = 121 /\ i_div true [249] [2] = Ok [196] /\ sval [196] = - (121 / 2) /\
  sval [253] = -3 /\ sval [254] = -2 /\ i_rem true [253] [254] = Ok [125] /\ 125 = 125 mod 126.
Proof. vm_compute. repeat split. Qed.

Lemma digit_S w x i : digit w x (S i) = digit w (x / 2 ^ Z.of_nat w) i.
Proof.
  unfold digit. rewrite Z.div_div by (apply Z.pow_nonzero || apply Z.pow_pos_nonneg; lia). rewrite <- Z.pow_add_r by lia.
  do 3 f_equal. lia.
Qed.

Lemma zero_below y : 0 < y -> lowest_first_lt 8 0 y.
Proof.
  intros H. assert (0 <= y) as H0 by lia. revert H. pattern y. apply Z_lt_induction; [|exact H0]. clear y H0. intros y IH H.
  assert (forall i, digit 8 0 i = 0) as D0 by (intros i; unfold digit; rewrite Z.div_0_l by (apply Z.pow_nonzero; lia); reflexivity).
  pose proof (Z.div_mod y 256 ltac:(lia)) as D. pose proof (Z.mod_pos_bound y 256 ltac:(lia)) as B.
  destruct (Z.eq_dec (y mod 256) 0) as [E|E].
  - destruct (IH (y / 256)) as (i & L & F); [lia|lia|]. exists (S i). rewrite D0 in *. rewrite digit_S. split; [exact L|].
    intros [|j] Hj; [rewrite D0; unfold digit; rewrite Z.mul_0_r, Z.div_1_r; symmetry; exact E|].
    rewrite (digit_S _ y). rewrite (D0 (S j)), <- (D0 j). apply F. lia.
  - exists 0%nat. split; [|intros; lia]. rewrite D0. unfold digit. rewrite Z.mul_0_r, Z.div_1_r. change (2 ^ Z.of_nat 8) with 256. lia.
Qed.

(** The least number divided by anything but 0 and itself is 0, and dividing by 0 or by the least number gives 1 or -1, whatever the
    dividend: no divisor is right for every dividend. *)
Theorem C40_divisors_partial : forall dbg b, wf 8 b -> (0 < length b)%nat -> Z.of_nat (8 * length b) < 2 ^ 64 ->
  let H := 2 ^ (8 * Z.of_nat (length b) - 1) in
  (sval b <> 0 -> sval b <> - H ->
   exists q, i_div dbg (i_min (length b)) b = Ok q /\ sval (i_min (length b)) = - H /\ sval q = 0) /\
  (sval b = 0 \/ sval b = - H -> forall a, wf 8 a -> length a = length b ->
   exists q, i_div dbg a b = Ok q /\ sval q = if xorb (sval a <? 0) (sval b <? 0) then 1 else -1) /\
  (sval b <> 0 -> exists a q, wf 8 a /\ length a = length b /\ i_div dbg a b = Ok q /\ sval q <> Z.quot (sval a) (sval b)).
Proof.
  intros dbg b Wb Hp H64 H. destruct (half_cap (length b) Hp) as [EC HH]. fold H in EC, HH.
  assert (- H <= sval b < H) as Rb.
  { pose proof (val_bound 8 b Wb) as B. unfold sval. rewrite EC in *. destruct (Z.ltb_spec (2 * val 8 b) (2 * H)); lia. }
  assert (1 < H) as H1 by (unfold H; apply Z.pow_gt_1; lia).
  assert (wf 8 (i_min (length b)) /\ length (i_min (length b)) = length b /\ sval (i_min (length b)) = - H) as (Wm & Lm & Sm).
  { pose proof (C39_bounds_signs (length b) b Hp Wb eq_refl) as (E & _). rewrite EC in E.
    assert (length (i_min (length b)) = length b) as Lm by (unfold i_min; rewrite map_length, seq_length; reflexivity).
    split; [|split; [exact Lm|lia]]. apply Forall_forall. intros z Hz. apply in_map_iff in Hz. destruct Hz as (i & <- & _).
    cbv beta. destruct (Nat.eqb _ _); change (2 ^ Z.of_nat 8) with 256; lia. }
  assert (sval b <> 0 -> sval b <> - H -> exists q, i_div dbg (i_min (length b)) b = Ok q /\ sval q = 0) as P1.
  { intros N0 N1. destruct (C40_signs_partial dbg (i_min (length b)) b Wm Wb) as (q & r & E & _ & X & _); try (rewrite Lm; assumption); try congruence.
    rewrite Lm in X. fold H in X. rewrite Sm in X.
    assert (- H mod H = 0) as Z0 by (symmetry; apply Z.mod_unique_pos with (-1); lia). rewrite Z0 in X.
    assert (0 < sval b mod H) as Py
      by (destruct (Z_lt_le_dec (sval b) 0); [rewrite <- (Z.mod_unique_pos (sval b) H (-1) (sval b + H)); lia|rewrite Z.mod_small; lia]).
    rewrite Z.div_0_l in X by lia.
    rewrite Z.mul_0_r in X. exists q. split; [exact E|]. apply X. intros k _.
    assert (partial_dividend 0 (sval b mod H) k = 0) as ->.
    { unfold partial_dividend. rewrite !Z.div_0_l by (apply Z.pow_nonzero; lia). rewrite Z.mod_0_l; [reflexivity|]. lia. }
    split; [intros _; exact Py|intros _; apply zero_below, Py]. }
  assert (sval b = 0 \/ sval b = - H -> forall a, wf 8 a -> length a = length b ->
    exists q, i_div dbg a b = Ok q /\ sval q = if xorb (sval a <? 0) (sval b <? 0) then 1 else -1) as P2.
  { intros Z0 a Wa La. unfold i_div. rewrite (proj1 (sign_spec a Wa ltac:(lia))), (proj1 (sign_spec b Wb ltac:(lia))). cbn [bind].
    destruct (i_abs_spec a Wa ltac:(lia)) as (la & Ex & Wx & Lx & Ox & Bx & Vx).
    destruct (i_abs_spec b Wb ltac:(lia)) as (lb & Ey & Wy & Ly & Oy & By & Vy).
    rewrite Ex, Ey. cbn [bind]. rewrite EC in *.
    assert (val 8 lb = 0) as V0 by (destruct (Z.ltb_spec (sval b) 0); lia).
    destruct (bit_div_overflowing_zero dbg 8 la lb (zeros (length a))) as (q & r & E & W & L & V);
      auto using wf_zeros, val_zeros; rewrite ?length_zeros, ?length_zeros_bitlen; try lia.
    unfold bit_div_wrapping. rewrite E. cbn [bind].
    eexists. split; [reflexivity|].
    destruct (xorb _ _).
    - destruct (i_neg_spec q W ltac:(lia)) as (Wn & Ln & Vn). unfold sval. rewrite Ln, Vn, V, L, Lx, La, EC.
      rewrite <- (Z.mod_unique_pos (- (2 * H - 1)) (2 * H) (-1) 1) by lia. rewrite (proj2 (Z.ltb_lt _ _)); auto. lia.
    - unfold sval. rewrite V, L, Lx, La, EC. rewrite (proj2 (Z.ltb_ge _ _)); lia. }
  split; [intros; destruct P1 as (q & E & S); auto; exists q; auto|]. split; [exact P2|].
  intros N0. destruct (Z.eq_dec (sval b) (- H)) as [N1|N1].
  - destruct (P2 (or_intror N1) (i_zero (length b))) as (q & E & S).
    { apply wf_zeros. }
    { apply length_zeros. }
    exists (i_zero (length b)), q. split; [apply wf_zeros|]. split; [apply length_zeros|]. split; [exact E|]. rewrite S.
    assert (sval (i_zero (length b)) = 0) as -> by (apply (C39_bounds_signs (length b) b Hp Wb eq_refl)).
    rewrite Z.quot_0_l by lia. match goal with |- context [if ?c then _ else _] => destruct c end; discriminate.
  - destruct P1 as (q & E & S); auto. exists (i_min (length b)), q. repeat (split; [assumption|]). rewrite S, Sm.
    intros Q. symmetry in Q. apply Z.quot_small_iff in Q; [|exact N0]. lia.
Qed.
Print Assumptions C40_divisors_partial.

(** [I<1>]: -128 / 5 is 0, 77 / -128 is 1, 77 / 0 is -1. *)
Example C40_divisors_demo : sval (i_min 1) = -128 /\ i_div true (i_min 1) [5] = Ok [0] /\ i_div true [77] [128] = Ok [1] /\ i_div false [77] [0] = Ok [255].
Proof. vm_compute. repeat split. Qed.
