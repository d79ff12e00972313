(** C185: algebraic laws of [U<N>] and [I<N>] (LawSpec.v).  The ring laws hold modulo 2^(8N) and the laws of the bit operators hold; with
    overflow checks sums stay lawful, panics included, but products are not even commutative; the division identity holds for [U<N>]
    without overflow checks, whatever the quotient, and for [I<N>] in few cases besides non-negative operands. *)
From Coq Require Import ZArith List Bool Lia.
From Verif Require Import Base Words Spec LawSpec Arith BitSliceModel BitSliceProofs ElementModel
  BitwiseModel ElemAddSub ElemMul BitwiseProofs BitDivMod PropBits UModel UProofs IModel IProofs PropU PropI PropI2 PropDiv PropMulFlag.
From Verif Require Import Spec.
Import ListNotations.
Local Open Scope Z_scope.

(** The values of [U<N>] and [I<N>]. *)
Definition bytes (n : nat) (a : list Z) : Prop := wf 8 a /\ length a = n.

(** [a] stands for [x] modulo 2^(8n). *)
Definition stands (n : nat) (a : list Z) (x : Z) : Prop := bytes n a /\ val 8 a = x mod cap 8 n.

Lemma stands_self n a : bytes n a -> stands n a (val 8 a).
Proof. intros [W L]. split; [split; auto|]. pose proof (val_bound 8 a W). rewrite L in *. symmetry. apply Z.mod_small. lia. Qed.
Lemma stands_eq n a b x y : stands n a x -> stands n b y -> (a = b <-> x mod cap 8 n = y mod cap 8 n).
Proof.
  intros [[Wa La] Va] [[Wb Lb] Vb]. split; [intros ->; congruence|]. intros E. apply (val_inj 8); auto; congruence.
Qed.
Lemma stands_same n a b x y : stands n a x -> stands n b y -> x = y -> a = b.
Proof. intros Sa Sb ->. apply (stands_eq n a b y y Sa Sb). reflexivity. Qed.
Lemma stands_add n a b x y : stands n a x -> stands n b y -> stands n (i_add a b) (x + y).
Proof.
  intros [[Wa La] Va] [[Wb Lb] Vb]. destruct (i_add_spec a b Wa Wb ltac:(congruence)) as (W & L & V). split; [split; congruence || auto|].
  rewrite V, La, Va, Vb. symmetry. apply Zplus_mod.
Qed.
Lemma stands_sub n a b x y : stands n a x -> stands n b y -> stands n (i_sub a b) (x - y).
Proof.
  intros [[Wa La] Va] [[Wb Lb] Vb]. destruct (i_sub_spec a b Wa Wb ltac:(congruence)) as (W & L & V). split; [split; congruence || auto|].
  rewrite V, La, Va, Vb. symmetry. apply Zminus_mod.
Qed.
Lemma stands_mul n a b x y : stands n a x -> stands n b y -> stands n (i_mul a b) (x * y).
Proof.
  intros [[Wa La] Va] [[Wb Lb] Vb]. destruct (i_mul_spec a b Wa Wb ltac:(congruence)) as (W & L & V). split; [split; congruence || auto|].
  rewrite V, La, Va, Vb. symmetry. apply Zmult_mod.
Qed.
Lemma stands_neg n a x : (0 < n)%nat -> stands n a x -> stands n (i_neg a) (- x).
Proof.
  intros Hn [[Wa La] Va]. destruct (i_neg_spec a Wa ltac:(congruence)) as (W & L & V). split; [split; congruence || auto|].
  rewrite V, La, Va. replace (- (x mod cap 8 n)) with (0 - x mod cap 8 n) by ring. rewrite Zminus_mod_idemp_r. reflexivity.
Qed.
Lemma stands_zero n : stands n (i_zero n) 0.
Proof. split; [split; [apply wf_zeros|apply length_zeros]|]. unfold i_zero. rewrite val_zeros. symmetry. apply Z.mod_0_l. pose proof (cap_pos 8 n). lia. Qed.
Lemma stands_one n : (0 < n)%nat -> stands n (i_one n) 1.
Proof.
  intros Hn. split; [split; [apply wf_u_one|apply length_u_one]|]. unfold i_one. rewrite val_u_one by auto. symmetry. apply Z.mod_small.
  destruct n as [|m]; [lia|]. pose proof (cap_pos 8 m). rewrite cap_S. change (base 8) with 256. lia.
Qed.
Lemma stands_bytes n a x : stands n a x -> bytes n a.
Proof. intros [H _]. exact H. Qed.

Local Ltac st := repeat ((apply stands_neg; [assumption|]) || apply stands_add || apply stands_sub || apply stands_mul);
  try apply stands_zero; try (apply stands_one; assumption); eauto.

Lemma ring_i n : (0 < n)%nat -> ring_laws (bytes n) i_add i_sub i_mul (i_zero n) (i_one n).
Proof.
  intros Hn. split; [eapply stands_bytes, stands_zero|]. split; [eapply stands_bytes, stands_one; auto|].
  intros a b c Ba Bb Bc. apply stands_self in Ba, Bb, Bc.
  split; [eapply stands_bytes; st|]. split; [eapply stands_bytes; st|]. split; [eapply stands_bytes; st|].
  repeat split; eapply (stands_same n); try (st; fail); ring.
Qed.

(** [I<N>], in every build, and the wrapping functions of [U<N>] with the product of a build without overflow checks. *)
Theorem C185_rings : forall n, (0 < n)%nat ->
  ring_laws (bytes n) i_add i_sub i_mul (i_zero n) (i_one n) /\
  negation_laws (bytes n) i_add i_sub i_mul i_neg (i_zero n) /\
  exists mul, (forall a b, u_mul false a b = Ok (mul a b)) /\
    (forall a b, bytes n a -> bytes n b -> u_add false a b = Ok (u_wrapping_add a b) /\ u_sub false a b = Ok (u_wrapping_sub a b)) /\
    ring_laws (bytes n) u_wrapping_add u_wrapping_sub mul (u_zero n) (u_one n).
Proof.
  intros n Hn. split; [apply ring_i; auto|]. split.
  - intros a b Ba Bb. apply stands_self in Ba, Bb. split; [eapply stands_bytes; st|].
    repeat split; eapply (stands_same n); try (st; fail); ring.
  - exists i_mul. split; [reflexivity|]. split; [|apply ring_i; auto]. intros a b _ _. split; reflexivity.
Qed.
Print Assumptions C185_rings.

Example C185_rings_demo : i_mul (i_add [200; 1] [100; 2]) [3; 255] = i_add (i_mul [200; 1] [3; 255]) (i_mul [100; 2] [3; 255]) /\
  i_mul [200; 1] [3; 255] = [88; 61] /\ u_sub false [1; 0] [2; 0] = Ok [255; 255].
Proof. vm_compute. repeat split. Qed.

(** ** Bit operators *)

Lemma bits_eq n a b : bytes n a -> bytes n b -> (forall i, (i < 8 * n)%nat -> Z.testbit (val 8 a) (Z.of_nat i) = Z.testbit (val 8 b) (Z.of_nat i)) -> a = b.
Proof.
  intros [Wa La] [Wb Lb] H. apply (val_inj 8); auto; [congruence|]. apply Z.bits_inj'. intros k Hk.
  pose proof (val_bound 8 a Wa) as Ba. pose proof (val_bound 8 b Wb) as Bb. rewrite La in Ba. rewrite Lb in Bb. unfold cap in *.
  destruct (Z.lt_ge_cases k (Z.of_nat 8 * Z.of_nat n)) as [L|L].
  - specialize (H (Z.to_nat k) ltac:(lia)). rewrite Z2Nat.id in H by lia. exact H.
  - rewrite <- (Z.mod_small (val 8 a) (2 ^ (Z.of_nat 8 * Z.of_nat n))), <- (Z.mod_small (val 8 b) (2 ^ (Z.of_nat 8 * Z.of_nat n))) by lia.
    rewrite !Z.mod_pow2_bits_high by lia. reflexivity.
Qed.

Section Bits.
Variable n : nat.
Let bit (a : list Z) (i : nat) := Z.testbit (val 8 a) (Z.of_nat i).
Lemma and_bits a b : bytes n a -> bytes n b -> bytes n (u_bitand a b) /\ forall i, bit (u_bitand a b) i = bit a i && bit b i.
Proof.
  intros [Wa La] [Wb Lb]. destruct (C32_bitops a b 0%nat Wa Wb ltac:(congruence)) as (W & L & _).
  split; [split; congruence || auto|]. intros i. apply (C32_bitops a b i Wa Wb). congruence.
Qed.
Lemma or_bits a b : bytes n a -> bytes n b -> bytes n (u_bitor a b) /\ forall i, bit (u_bitor a b) i = bit a i || bit b i.
Proof.
  intros [Wa La] [Wb Lb]. destruct (C32_bitops a b 0%nat Wa Wb ltac:(congruence)) as (_ & _ & _ & W & L & _).
  split; [split; congruence || auto|]. intros i. apply (C32_bitops a b i Wa Wb). congruence.
Qed.
Lemma xor_bits a b : bytes n a -> bytes n b -> bytes n (u_bitxor a b) /\ forall i, bit (u_bitxor a b) i = xorb (bit a i) (bit b i).
Proof.
  intros [Wa La] [Wb Lb]. destruct (C32_bitops a b 0%nat Wa Wb ltac:(congruence)) as (_ & _ & _ & _ & _ & _ & W & L & _).
  split; [split; congruence || auto|]. intros i. apply (C32_bitops a b i Wa Wb). congruence.
Qed.
Lemma not_bits a : bytes n a -> bytes n (u_not a) /\ forall i, (i < 8 * n)%nat -> bit (u_not a) i = negb (bit a i).
Proof.
  intros [Wa La]. destruct (C32_bitops a a 0%nat Wa Wa eq_refl) as (_ & _ & _ & _ & _ & _ & _ & _ & _ & W & L & _).
  split; [split; congruence || auto|]. intros i Hi. destruct (C32_bitops a a i Wa Wa eq_refl) as (_ & _ & _ & _ & _ & _ & _ & _ & _ & _ & _ & _ & H).
  apply H. rewrite La. exact Hi.
Qed.
Lemma none_bits : bytes n (u_zero n) /\ forall i, bit (u_zero n) i = false.
Proof. split; [split; [apply wf_zeros|apply length_zeros]|]. intros i. unfold bit, u_zero. rewrite val_zeros. apply Z.testbit_0_l. Qed.
Lemma all_bits : bytes n (u_max n) /\ forall i, (i < 8 * n)%nat -> bit (u_max n) i = true.
Proof.
  split; [split; [apply wf_repeat255|apply repeat_length]|]. intros i Hi. unfold bit. rewrite val_u_max. unfold cap. rewrite Z.sub_1_r, <- Z.ones_equiv.
  apply Z.ones_spec_low. lia.
Qed.

Local Ltac bt := match goal with
  | H : bytes n ?a |- bytes n ?a => exact H
  | |- bytes n (u_bitand _ _) => apply and_bits; bt | |- bytes n (u_bitor _ _) => apply or_bits; bt
  | |- bytes n (u_bitxor _ _) => apply xor_bits; bt | |- bytes n (u_not _) => apply not_bits; bt
  | |- bytes n (u_zero _) => apply none_bits | |- bytes n (u_max _) => apply all_bits end.
Local Ltac ev := repeat match goal with
  | |- context [bit (u_bitand ?a ?b) ?i] => rewrite (proj2 (and_bits a b ltac:(bt) ltac:(bt)) i)
  | |- context [bit (u_bitor ?a ?b) ?i] => rewrite (proj2 (or_bits a b ltac:(bt) ltac:(bt)) i)
  | |- context [bit (u_bitxor ?a ?b) ?i] => rewrite (proj2 (xor_bits a b ltac:(bt) ltac:(bt)) i)
  | Hi : (?i < 8 * n)%nat |- context [bit (u_not ?a) ?i] => rewrite (proj2 (not_bits a ltac:(bt)) i Hi)
  | |- context [bit (u_zero n) ?i] => rewrite (proj2 none_bits i)
  | Hi : (?i < 8 * n)%nat |- context [bit (u_max n) ?i] => rewrite (proj2 all_bits i Hi) end.

Lemma boolean_u : boolean_laws (bytes n) u_bitand u_bitor u_bitxor u_not (u_zero n) (u_max n).
Proof.
  split; [apply none_bits|]. split; [apply all_bits|]. intros a b c Ba Bb Bc.
  repeat (split; [bt|]).
  repeat split; (apply (bits_eq n); [bt|bt|]; intros i Hi;
    repeat match goal with |- context [Z.testbit (val 8 ?x) (Z.of_nat i)] => change (Z.testbit (val 8 x) (Z.of_nat i)) with (bit x i) end; ev;
    destruct (bit a i), (bit b i); try destruct (bit c i); reflexivity).
Qed.
End Bits.

Lemma lor_land_sums x y : x + y = Z.lor x y + Z.land x y /\ Z.lor x y - Z.land x y = Z.lxor x y.
Proof.
  assert (x - Z.land x y = Z.ldiff x y) as A.
  { rewrite Z.sub_nocarry_ldiff; apply Z.bits_inj'; intros k _; rewrite ?Z.ldiff_spec, ?Z.land_spec, ?Z.bits_0; destruct (Z.testbit x k), (Z.testbit y k); reflexivity. }
  assert (Z.lor x y - y = Z.ldiff x y) as B.
  { rewrite Z.sub_nocarry_ldiff; apply Z.bits_inj'; intros k _; rewrite ?Z.ldiff_spec, ?Z.lor_spec, ?Z.bits_0; destruct (Z.testbit x k), (Z.testbit y k); reflexivity. }
  split; [lia|]. rewrite Z.sub_nocarry_ldiff; apply Z.bits_inj'; intros k _; rewrite ?Z.ldiff_spec, ?Z.lor_spec, ?Z.land_spec, ?Z.lxor_spec, ?Z.bits_0;
    destruct (Z.testbit x k), (Z.testbit y k); reflexivity.
Qed.

Theorem C185_bits : forall n, (0 < n)%nat ->
  boolean_laws (bytes n) u_bitand u_bitor u_bitxor u_not (u_zero n) (u_max n) /\
  boolean_laws (bytes n) i_bitand i_bitor i_bitxor i_not (i_zero n) (i_max_negative n) /\
  forall a b, bytes n a -> bytes n b ->
    i_neg a = i_add (i_not a) (i_one n) /\ i_not a = i_sub (i_max_negative n) a /\ u_sub true (u_max n) a = Ok (u_not a) /\
    i_add a b = i_add (i_bitor a b) (i_bitand a b) /\ i_sub (i_bitor a b) (i_bitand a b) = i_bitxor a b.
Proof.
  intros n Hn. split; [apply boolean_u|]. split; [apply boolean_u|]. intros a b Ba Bb.
  destruct (boolean_u n) as (_ & Bm & BL). destruct (BL a b a Ba Bb Ba) as (Bn & Bo & Bx & Bt & _).
  assert (val 8 (u_not a) = cap 8 n - 1 - val 8 a) as Vn.
  { destruct Ba as [Wa La]. destruct (C32_bitops a a 0%nat Wa Wa eq_refl) as (_ & _ & _ & _ & _ & _ & _ & _ & _ & _ & _ & H & _). rewrite La in H. exact H. }
  assert (val 8 (i_max_negative n) = cap 8 n - 1) as Vm by apply (val_u_max n).
  assert (val 8 a + val 8 b = val 8 (i_bitor a b) + val 8 (i_bitand a b) /\ val 8 (i_bitor a b) - val 8 (i_bitand a b) = val 8 (i_bitxor a b)) as [VO VX].
  { assert (val 8 (i_bitor a b) = Z.lor (val 8 a) (val 8 b) /\ val 8 (i_bitand a b) = Z.land (val 8 a) (val 8 b) /\ val 8 (i_bitxor a b) = Z.lxor (val 8 a) (val 8 b)) as (-> & -> & ->).
    { destruct Ba as [Wa La], Bb as [Wb Lb]. pose proof (fun i => C32_bitops a b i Wa Wb ltac:(congruence)) as H.
      repeat split; apply Z.bits_inj'; intros k Hk; destruct (H (Z.to_nat k)) as (_ & _ & H1 & _ & _ & H2 & _ & _ & H3 & _); rewrite Z2Nat.id in * by lia;
        rewrite ?Z.lor_spec, ?Z.land_spec, ?Z.lxor_spec; assumption. }
    apply lor_land_sums. }
  apply stands_self in Bn, Bo, Bx, Bt. pose proof (stands_self n a Ba) as Sa. pose proof (stands_self n b Bb) as Sb. pose proof (stands_self n _ Bm) as Sm.
  split; [unfold i_neg; destruct Ba as [_ ->]; reflexivity|]. split.
  { apply (stands_same n _ _ _ _ Bt (stands_sub n _ _ _ _ Sm Sa)). change (val 8 (u_max n)) with (val 8 (i_max_negative n)). lia. }
  split.
  { destruct Ba as [Wa La]. destruct Bm as [Wm Lm]. pose proof (val_bound 8 a Wa) as VB. rewrite La in VB.
    destruct (C26_sub true (u_max n) a Wm Wa ltac:(congruence)) as [H _]. destruct H as (c & E & _ & _ & Wc & Lc & Vc); [rewrite val_u_max; lia|].
    rewrite E. f_equal. apply (val_inj 8); auto; [apply Bt|destruct Bt as [[_ ->] _]; congruence|]. rewrite Vc, val_u_max, Vn. lia. }
  split; apply (stands_same n _ _ _ _ (stands_add n _ _ _ _ Sa Sb) (stands_add n _ _ _ _ Bo Bn)) || apply (stands_same n _ _ _ _ (stands_sub n _ _ _ _ Bo Bn) Bx); assumption.
Qed.
Print Assumptions C185_bits.

Example C185_bits_demo : i_add [200; 1] [100; 2] = i_add (i_bitor [200; 1] [100; 2]) (i_bitand [200; 1] [100; 2]) /\
  i_bitand [200; 1] [100; 2] = [64; 0] /\ u_not [200; 1] = [55; 254] /\ i_neg [200; 1] = [56; 254].
Proof. vm_compute. repeat split. Qed.

(** ** [U<N>] with overflow checks *)

Lemma bytes_eq n a b : bytes n a -> bytes n b -> val 8 a = val 8 b -> a = b.
Proof. intros [Wa La] [Wb Lb] E. apply (val_inj 8); auto. congruence. Qed.
Lemma bytes_bound n a : bytes n a -> 0 <= val 8 a < cap 8 n.
Proof. intros [W L]. rewrite <- L. apply val_bound, W. Qed.

Lemma add_cases n a b : bytes n a -> bytes n b ->
  (val 8 a + val 8 b < cap 8 n /\ exists s, (forall dbg, u_add dbg a b = Ok s) /\ u_checked_add a b = Some s /\ u_saturating_add a b = s /\ bytes n s /\ val 8 s = val 8 a + val 8 b) \/
  (cap 8 n <= val 8 a + val 8 b /\ u_add true a b = Panic /\ u_checked_add a b = None /\ val 8 (u_saturating_add a b) = cap 8 n - 1 /\ bytes n (u_saturating_add a b)).
Proof.
  intros [Wa La] [Wb Lb]. destruct (C26_add true a b Wa Wb ltac:(congruence)) as (H1 & H2 & _). rewrite La in *.
  destruct (Z.lt_ge_cases (val 8 a + val 8 b) (cap 8 n)) as [L|L].
  - left. split; [exact L|]. destruct (H1 L) as (s & E & E1 & E2 & W & Ls & V). exists s.
    split; [|repeat split; auto]. intros [|]; [exact E|].
    destruct (C26_add false a b Wa Wb ltac:(congruence)) as (F & _ & _). rewrite La in F. destruct (F L) as (t & Et & Et1 & _). congruence.
  - right. split; [exact L|]. destruct (H2 L) as (P & N0 & V & _). split; [exact P|]. split; [exact N0|]. split; [exact V|].
    unfold u_saturating_add. unfold u_checked_add in N0. rewrite N0. cbn. rewrite La. split; [apply wf_repeat255|apply repeat_length].
Qed.
Lemma sub_cases n a b : bytes n a -> bytes n b ->
  (val 8 b <= val 8 a /\ exists s, (forall dbg, u_sub dbg a b = Ok s) /\ bytes n s /\ val 8 s = val 8 a - val 8 b) \/
  (val 8 a < val 8 b /\ u_sub true a b = Panic).
Proof.
  intros [Wa La] [Wb Lb]. destruct (C26_sub true a b Wa Wb ltac:(congruence)) as (H1 & H2 & _).
  destruct (Z.le_gt_cases (val 8 b) (val 8 a)) as [L|L].
  - left. split; [exact L|]. destruct (H1 ltac:(lia)) as (s & E & E1 & _ & W & Ls & V). exists s.
    split; [|split; [split; congruence || auto|auto]]. intros [|]; [exact E|].
    destruct (C26_sub false a b Wa Wb ltac:(congruence)) as (F & _ & _). destruct (F ltac:(lia)) as (t & Et & Et1 & _). congruence.
  - right. split; [exact L|]. apply H2. lia.
Qed.

(** Sums and differences, panics included ([bind] runs the second operation on the result of the first, and stops at a panic). *)
Theorem C185_checked_sums : forall dbg n a b c, (0 < n)%nat -> bytes n a -> bytes n b -> bytes n c ->
  u_add dbg a b = u_add dbg b a /\
  bind (u_add dbg a b) (fun s => u_add dbg s c) = bind (u_add dbg b c) (fun s => u_add dbg a s) /\
  bind (u_sub dbg a b) (fun s => u_sub dbg s c) = bind (u_add dbg b c) (fun s => u_sub dbg a s) /\
  (forall s, u_add dbg a b = Ok s -> u_sub dbg s b = Ok a) /\
  (forall s, u_sub dbg a b = Ok s -> u_add dbg s b = Ok a) /\
  u_checked_add a b = u_checked_add b a /\ u_saturating_add a b = u_saturating_add b a /\
  u_saturating_add (u_saturating_add a b) c = u_saturating_add a (u_saturating_add b c).
Proof.
  intros dbg n a b c Hn Ba Bb Bc.
  assert (u_checked_add a b = u_checked_add b a /\ u_saturating_add a b = u_saturating_add b a /\
    u_saturating_add (u_saturating_add a b) c = u_saturating_add a (u_saturating_add b c) /\ u_add true a b = u_add true b a) as (X1 & X2 & X3 & X4).
  { assert (forall x y, bytes n x -> bytes n y -> bytes n (u_saturating_add x y) /\ val 8 (u_saturating_add x y) = Z.min (val 8 x + val 8 y) (cap 8 n - 1)) as Sat.
    { intros x y Bx By. destruct (add_cases n x y Bx By) as [(L & s & _ & _ & E & Bs & V)|(L & _ & _ & V & Bs)].
      - rewrite E. split; [exact Bs|]. lia.
      - split; [exact Bs|]. lia. }
    assert (u_checked_add a b = u_checked_add b a /\ u_add true a b = u_add true b a) as [Y1 Y2].
    { destruct (add_cases n a b Ba Bb) as [(L & s & E & E1 & _ & Bs & V)|(L & E & E1 & _)],
        (add_cases n b a Bb Ba) as [(L' & s' & E' & E1' & _ & Bs' & V')|(L' & E' & E1' & _)]; try lia.
      - assert (s = s') as <- by (apply (bytes_eq n); auto; lia). rewrite E1, E1', E, E'. auto.
      - rewrite E1, E1', E, E'. auto. }
    split; [exact Y1|]. split; [|split; [|exact Y2]].
    - apply (bytes_eq n); try (apply Sat; assumption). rewrite (proj2 (Sat a b Ba Bb)), (proj2 (Sat b a Bb Ba)). f_equal. lia.
    - destruct (Sat a b Ba Bb) as [Bab Vab]. destruct (Sat b c Bb Bc) as [Bbc Vbc]. destruct (Sat _ c Bab Bc) as [Bl Vl]. destruct (Sat a _ Ba Bbc) as [Br Vr].
      apply (bytes_eq n); auto. rewrite Vl, Vr, Vab, Vbc. pose proof (bytes_bound n a Ba). pose proof (bytes_bound n c Bc). lia. }
  destruct dbg.
  - split; [exact X4|]. split; [|split; [|split; [|split; [|auto]]]].
    + destruct (add_cases n a b Ba Bb) as [(L & s & E & _ & _ & Bs & V)|(L & E & _)]; rewrite E; cbn [bind].
      * destruct (add_cases n b c Bb Bc) as [(L' & s' & E' & _ & _ & Bs' & V')|(L' & E' & _)]; rewrite E'; cbn [bind].
        -- destruct (add_cases n s c Bs Bc) as [(L1 & t & E1 & _ & _ & Bt & Vt)|(L1 & E1 & _)]; rewrite E1;
             destruct (add_cases n a s' Ba Bs') as [(L2 & t' & E2 & _ & _ & Bt' & Vt')|(L2 & E2 & _)]; rewrite E2; try lia; try reflexivity.
           f_equal. apply (bytes_eq n); auto. lia.
        -- destruct (add_cases n s c Bs Bc) as [(L1 & t & E1 & _ & _ & Bt & Vt)|(L1 & E1 & _)]; rewrite E1; [|reflexivity].
           pose proof (bytes_bound n a Ba). lia.
      * destruct (add_cases n b c Bb Bc) as [(L' & s' & E' & _ & _ & Bs' & V')|(L' & E' & _)]; rewrite E'; cbn [bind]; [|reflexivity].
        destruct (add_cases n a s' Ba Bs') as [(L2 & t' & E2 & _ & _ & Bt' & Vt')|(L2 & E2 & _)]; rewrite E2; [|reflexivity].
        pose proof (bytes_bound n c Bc). lia.
    + pose proof (bytes_bound n a Ba) as Va. pose proof (bytes_bound n b Bb) as Vb. pose proof (bytes_bound n c Bc) as Vc.
      destruct (sub_cases n a b Ba Bb) as [(L & s & E & Bs & V)|(L & E)]; rewrite E; cbn [bind];
        destruct (add_cases n b c Bb Bc) as [(L' & s' & E' & _ & _ & Bs' & V')|(L' & E' & _)]; rewrite E'; cbn [bind]; try reflexivity.
      * destruct (sub_cases n s c Bs Bc) as [(L1 & t & E1 & Bt & Vt)|(L1 & E1)]; rewrite E1;
          destruct (sub_cases n a s' Ba Bs') as [(L2 & t' & E2 & Bt' & Vt')|(L2 & E2)]; rewrite E2; try lia; try reflexivity.
        f_equal. apply (bytes_eq n); auto. lia.
      * destruct (sub_cases n s c Bs Bc) as [(L1 & t & E1 & Bt & Vt)|(L1 & E1)]; rewrite E1; [lia|reflexivity].
      * destruct (sub_cases n a s' Ba Bs') as [(L2 & t' & E2 & Bt' & Vt')|(L2 & E2)]; rewrite E2; [lia|reflexivity].
    + intros s Es. destruct (add_cases n a b Ba Bb) as [(L & s' & E & _ & _ & Bs & V)|(L & E & _)]; [|congruence].
      assert (s = s') as -> by (rewrite E in Es; congruence). pose proof (bytes_bound n a Ba).
      destruct (sub_cases n s' b Bs Bb) as [(L1 & t & E1 & Bt & Vt)|(L1 & E1)]; [|lia]. rewrite E1. f_equal. apply (bytes_eq n); auto. lia.
    + intros s Es. destruct (sub_cases n a b Ba Bb) as [(L & s' & E & Bs & V)|(L & E)]; [|congruence].
      assert (s = s') as -> by (rewrite E in Es; congruence). pose proof (bytes_bound n a Ba).
      destruct (add_cases n s' b Bs Bb) as [(L1 & t & E1 & _ & _ & Bt & Vt)|(L1 & E1)]; [|lia]. rewrite E1. f_equal. apply (bytes_eq n); auto. lia.
  - destruct (ring_i n Hn) as (_ & _ & R).
    pose proof (R a b c Ba Bb Bc) as (_ & _ & _ & Q1 & Q2 & _ & _ & Q3 & Q4 & Q5 & _).
    change (u_add false) with (fun x y => Ok (i_add x y)). change (u_sub false) with (fun x y => Ok (i_sub x y)). cbn [bind].
    split; [f_equal; exact Q1|]. split; [f_equal; exact Q2|]. split; [f_equal; symmetry; exact Q5|].
    split; [intros s [= <-]; f_equal; exact Q3|]. split; [intros s [= <-]; f_equal; exact Q4|]. auto.
Qed.
Print Assumptions C185_checked_sums.

Example C185_checked_sums_demo : bind (u_add true [200; 1] [100; 2]) (fun s => u_add true s [0; 252]) = Panic /\
  bind (u_add true [100; 2] [0; 252]) (fun s => u_add true [200; 1] s) = Panic /\
  u_saturating_add (u_saturating_add [200; 1] [100; 2]) [0; 252] = [255; 255] /\
  bind (u_add true [200; 1] [100; 2]) (fun s => u_sub true s [0; 4]) = Ok [44; 0].
Proof. vm_compute. repeat split. Qed.

(** Products of a build with overflow checks, when the exact products fit. *)
Theorem C185_products_partial : forall dbg n a b c, (0 < n)%nat -> bytes n a -> bytes n b -> bytes n c ->
  let A := val 8 a in let B := val 8 b in let C := val 8 c in let M := cap 8 n in
  (A * B < M -> exists p, u_mul dbg a b = Ok p /\ u_mul dbg b a = Ok p) /\
  (A * B < M -> B * C < M -> A * B * C < M ->
     exists p, bind (u_mul dbg a b) (fun s => u_mul dbg s c) = Ok p /\ bind (u_mul dbg b c) (fun s => u_mul dbg a s) = Ok p) /\
  (B + C < M -> A * (B + C) < M ->
     exists p, bind (u_add dbg b c) (fun s => u_mul dbg a s) = Ok p /\
       bind (u_mul dbg a b) (fun s => bind (u_mul dbg a c) (fun t => u_add dbg s t)) = Ok p).
Proof.
  intros dbg n a b c Hn Ba Bb Bc. cbv zeta.
  assert (forall x y, bytes n x -> bytes n y -> val 8 x * val 8 y < cap 8 n -> exists p, u_mul dbg x y = Ok p /\ bytes n p /\ val 8 p = val 8 x * val 8 y) as Mul.
  { intros x y [Wx Lx] [Wy Ly] F. destruct (C27_mul x y Wx Wy ltac:(congruence)) as [_ H]. rewrite Lx in H. destruct (H F) as (p & E & _ & _ & W & L & V).
    exists p. split; [apply E|]. split; [split; auto|auto]. }
  pose proof (bytes_bound n a Ba) as Va. pose proof (bytes_bound n b Bb) as Vb. pose proof (bytes_bound n c Bc) as Vc. split; [|split].
  - intros F. destruct (Mul a b Ba Bb F) as (p & E & Bp & Vp). destruct (Mul b a Bb Ba ltac:(lia)) as (p' & E' & Bp' & Vp').
    exists p. split; [exact E|]. rewrite E'. f_equal. apply (bytes_eq n); auto. lia.
  - intros F1 F2 F3. destruct (Mul a b Ba Bb F1) as (p & E & Bp & Vp). destruct (Mul b c Bb Bc F2) as (p' & E' & Bp' & Vp').
    destruct (Mul p c Bp Bc) as (t & Et & Bt & Vt); [rewrite Vp; exact F3|]. destruct (Mul a p' Ba Bp') as (t' & Et' & Bt' & Vt'); [rewrite Vp', Z.mul_assoc; exact F3|].
    exists t. rewrite E, E'. cbn [bind]. split; [exact Et|]. rewrite Et'. f_equal. apply (bytes_eq n); auto. rewrite Vt, Vt', Vp, Vp'. ring.
  - intros F1 F2. assert (val 8 a * val 8 b < cap 8 n /\ val 8 a * val 8 c < cap 8 n) as [F3 F4].
    { rewrite Z.mul_add_distr_l in F2. assert (0 <= val 8 a * val 8 b) by (apply Z.mul_nonneg_nonneg; lia). assert (0 <= val 8 a * val 8 c) by (apply Z.mul_nonneg_nonneg; lia). lia. }
    destruct (add_cases n b c Bb Bc) as [(_ & s & Es & _ & _ & Bs & Vs)|(L & _)]; [|lia].
    destruct (Mul a s Ba Bs) as (t & Et & Bt & Vt); [rewrite Vs; exact F2|].
    destruct (Mul a b Ba Bb F3) as (p & E & Bp & Vp). destruct (Mul a c Ba Bc F4) as (p' & E' & Bp' & Vp').
    exists t. rewrite (Es dbg), E, E'. cbn [bind]. split; [exact Et|].
    destruct (add_cases n p p' Bp Bp') as [(_ & u & Eu & _ & _ & Bu & Vu)|(L & _)].
    + rewrite (Eu dbg). f_equal. apply (bytes_eq n); auto. rewrite Vt, Vu, Vs, Vp, Vp'. ring.
    + rewrite Vp, Vp', <- Z.mul_add_distr_l in L. lia.
Qed.
Print Assumptions C185_products_partial.

Example C185_products_demo : bind (u_mul true [200; 1] [3; 0]) (fun s => u_mul true s [40; 0]) = Ok [192; 213] /\
  bind (u_mul true [3; 0] [40; 0]) (fun s => u_mul true [200; 1] s) = Ok [192; 213] /\ val 8 [200; 1] * val 8 [3; 0] * val 8 [40; 0] = 54720 /\ cap 8 2 = 65536.
Proof. vm_compute. repeat split. Qed.

(** The division identity of [U<N>]. *)
Theorem C185_division_partial : forall dbg n a b, (0 < n)%nat -> Z.of_nat (8 * n) < 2 ^ 64 -> bytes n a -> bytes n b ->
  let back d := bind (u_div dbg a b) (fun q => bind (u_rem dbg a b) (fun r => bind (u_mul d q b) (fun p => u_add d p r))) in
  back false = Ok a /\ (back true = Ok a \/ back true = Panic) /\
  (0 < val 8 b <= 128 -> back true = Ok a).
Proof.
  intros dbg n a b Hn H64 Ba Bb. pose proof Ba as [Wa La]. pose proof Bb as [Wb Lb]. cbv zeta.
  destruct (C29_congruence_partial dbg a b Wa Wb ltac:(congruence) ltac:(lia) ltac:(rewrite La; exact H64)) as (q & r & Eq & _ & Er & Lq & Lr & Wq & Wr & V).
  rewrite Eq, Er. cbn [bind]. rewrite La in *.
  assert (bytes n q) as Bq by (split; auto). assert (bytes n r) as Br by (split; auto).
  pose proof (cap_pos 8 n) as HC.
  split; [|split].
  - change (u_mul false q b) with (Ok (i_mul q b)). cbn [bind]. change (u_add false (i_mul q b) r) with (Ok (i_add (i_mul q b) r)). f_equal.
    apply (stands_eq n _ _ _ _ (stands_add n _ _ _ _ (stands_mul n _ _ _ _ (stands_self n q Bq) (stands_self n b Bb)) (stands_self n r Br)) (stands_self n a Ba)).
    rewrite V. symmetry. apply Z.mod_small, bytes_bound, Ba.
  - destruct (C28_flag_exact_partial q b Wq Wb ltac:(congruence)) as (_ & P & F). cbv zeta in P, F. rewrite Lq in P, F.
    destruct (u_mul true q b) as [p| |] eqn:Em; cbn [bind]; [|right; reflexivity|].
    + destruct F as (p' & _ & Ep & _ & Vp); [intros R; apply P in R; discriminate|]. assert (p = p') as -> by congruence.
      assert (bytes n p') as Bp.
      { assert (p' = i_mul q b) as ->.
        { clear - Em Ep. unfold u_mul, elem_mul_checked in Em. unfold i_mul, elem_mul_wrapping. destruct (elem_mul_overflowing 8 q b) as [x o].
          destruct o; cbn in *; congruence. }
        eapply stands_bytes. apply stands_mul; apply stands_self; assumption. }
      destruct (add_cases n p' r Bp Br) as [(L & s & Es & _ & _ & Bs & Vs)|(L & E & _)]; [left|right; exact E].
      rewrite Es. f_equal. apply (bytes_eq n); auto. rewrite Vs, Vp. rewrite <- V, <- Zplus_mod_idemp_l. symmetry. apply Z.mod_small.
      rewrite <- Vp, <- Vs. apply bytes_bound, Bs.
    + exfalso. clear - Em. unfold u_mul in Em. destruct (elem_mul_checked 8 q b); discriminate.
  - intros Hb. destruct (C29_div_partial dbg a b Wa Wb ltac:(congruence) ltac:(lia) ltac:(rewrite La; exact H64) ltac:(lia) ltac:(lia)) as (q' & r' & Eq' & _ & Er' & _ & _ & _ & _ & V' & Vr).
    assert (q' = q) as -> by congruence. assert (r' = r) as -> by congruence.
    pose proof (bytes_bound n a Ba) as Va. pose proof (bytes_bound n r Br) as Vr'.
    destruct (C185_products_partial true n q b b Hn Bq Bb Bb) as [M _]. cbv zeta in M.
    destruct (C27_mul q b Wq Wb ltac:(congruence)) as [_ H]. rewrite Lq in H. destruct (H ltac:(lia)) as (p & E & _ & _ & W & L & Vp).
    rewrite E. cbn [bind]. assert (bytes n p) as Bp by (split; auto).
    destruct (add_cases n p r Bp Br) as [(_ & s & Es & _ & _ & Bs & Vs)|(L1 & _)]; [|lia]. rewrite Es. f_equal. apply (bytes_eq n); auto. lia.
Qed.
Print Assumptions C185_division_partial.

(** A wrong quotient and remainder (23333 / 32003 "is" 7679 with remainder 32296) still add up without overflow checks; with them
    the product wraps around unnoticed and the sum panics. *)
Example C185_division_demo : u_div true [37; 91] [3; 125] = Ok [255; 29] /\ u_rem true [37; 91] [3; 125] = Ok [40; 126] /\
  bind (u_mul false [255; 29] [3; 125]) (fun p => u_add false p [40; 126]) = Ok [37; 91] /\ u_mul true [255; 29] [3; 125] = Ok [253; 220] /\ u_add true [253; 220] [40; 126] = Panic /\
  u_div true [37; 91] [100; 0] = Ok [233; 0] /\ u_rem true [37; 91] [100; 0] = Ok [33; 0].
Proof. vm_compute. repeat split. Qed.

Lemma both_negative H q x : 0 < H -> ((exists k, 1 * (q * (- H) + x) - (x - H) = k * (2 * H)) <-> Z.odd q = true).
Proof.
  intros HH. rewrite Zodd_bool_iff, Zodd_ex_iff. split.
  - intros [k E]. exists (- k). assert ((1 - q - 2 * k) * H = 0) as F by lia. apply Z.mul_eq_0 in F. lia.
  - intros [m ->]. exists (- m). ring.
Qed.
Lemma negative_dividend H q x : 0 <= x < H -> ((exists k, -1 * (q * 0 + x) - (x - H) = k * (2 * H)) <-> 2 * x = H).
Proof.
  intros HH. split; [|intros E; exists 0; lia]. intros [k E]. assert (k = 0) as -> by nia. lia.
Qed.
Lemma negative_divisor H q x : 0 <= x < H ->
  ((exists k, -1 * (q * (- H) + x) - x = k * (2 * H)) <-> (x = 0 /\ Z.even q = true) \/ (2 * x = H /\ Z.odd q = true)).
Proof.
  intros HH. rewrite Zeven_bool_iff, Zeven_ex_iff, Zodd_bool_iff, Zodd_ex_iff. split.
  - intros [k E]. assert ((q - 2 * k) * H = 2 * x) as F by lia. assert (q - 2 * k = 0 \/ q - 2 * k = 1) as [G|G] by nia; rewrite G in F.
    + left. split; [lia|]. exists k. lia.
    + right. split; [lia|]. exists k. lia.
  - intros [[-> [m ->]]|[E [m ->]]]; exists m; [ring|]. rewrite <- E. ring.
Qed.
Lemma parity_class C v s x : Z.even C = true -> (s = 1 \/ s = -1) -> (exists e, v = s * x + e * C) -> Z.even v = Z.even x.
Proof.
  intros EC Hs [e ->]. rewrite Z.even_add, !Z.even_mul, EC, orb_true_r. destruct Hs as [-> | ->]; cbn [Z.even orb]; destruct (Z.even x); reflexivity.
Qed.

(** The division identity of [I<N>], exactly. *)
Theorem C185_signed_division_partial : forall dbg n a b, (0 < n)%nat -> Z.of_nat (8 * n) < 2 ^ 64 -> bytes n a -> bytes n b ->
  exists q r, i_div dbg a b = Ok q /\ i_rem dbg a b = Ok r /\ bytes n q /\ bytes n r /\
    (i_add (i_mul q b) r = a <->
     if sval a <? 0 then if sval b <? 0 then Z.odd (sval q) = true else 4 * sval a = - cap 8 n
     else if sval b <? 0 then (sval a = 0 /\ Z.even (sval q) = true) \/ (4 * sval a = cap 8 n /\ Z.odd (sval q) = true) else True).
Proof.
  intros dbg n a b Hn H64 Ba Bb. pose proof Ba as [Ha La]. pose proof Bb as [Hb Lb]. unfold i_div, i_rem.
  rewrite (proj1 (sign_spec a Ha ltac:(lia))), (proj1 (sign_spec b Hb ltac:(lia))). cbn [bind].
  destruct (i_abs_spec a Ha ltac:(lia)) as (x & Ex & Wx & Lx & Px & Rx & Vx).
  destruct (i_abs_spec b Hb ltac:(lia)) as (y & Ey & Wy & Ly & _ & _ & Vy).
  rewrite Ex, Ey. cbn [bind]. rewrite <- Lx.
  destruct (C16_congruence_partial dbg 8 x y) as (q & r & _ & W1 & W2 & L1 & L2 & V & _ & _ & E2 & _ & _ & E4);
    auto; try lia.
  rewrite E2, E4. cbn [bind]. clear E2 E4 Ex Ey. rewrite Lx, La in *. rewrite Lb in *.
  destruct (half_cap n Hn) as [EC HH]. set (H := 2 ^ (8 * Z.of_nat n - 1)) in *. clearbody H.
  assert (Z.even (cap 8 n) = true) as EH by (rewrite EC, Z.even_mul; reflexivity).
  assert (bytes n q) as Bq by (split; auto). assert (bytes n r) as Br by (split; auto).
  (* the sum of the product and the remainder, as an equation modulo the capacity *)
  assert (forall q' r' s, (s = 1 \/ s = -1) -> stands n q' (s * val 8 q) -> stands n r' (s * val 8 r) ->
     Z.even (sval q') = Z.even (val 8 q) /\
     (i_add (i_mul q' b) r' = a <-> exists k, s * (val 8 q * (sval b - val 8 y) + val 8 x) - sval a = k * cap 8 n)) as Sum.
  { clear Rx Vx Vy. intros q' r' s Hs Sq Sr. split.
    { destruct Sq as [[_ Lq] Vq]. destruct (sval_congruent q' n (s * val 8 q) Lq Vq) as [e E]. apply (parity_class (cap 8 n) _ s _ EH Hs). exists e. exact E. }
    rewrite (stands_eq n _ _ _ _ (stands_add n _ _ _ _ (stands_mul n _ _ _ _ Sq (stands_self n b Bb)) Sr) (stands_self n a Ba)).
    destruct (sval_congruent a n (val 8 a) La) as [ea Ea]; [apply (stands_self n a Ba)|].
    destruct (sval_congruent b n (val 8 b) Lb) as [eb Eb]; [apply (stands_self n b Bb)|].
    assert (cap 8 n <> 0) as C0 by lia. clear - C0 V Ea Eb Hs.
    pose proof (Z.div_mod (val 8 q * val 8 y + val 8 r) (cap 8 n) C0) as D. rewrite V in D.
    set (C := cap 8 n) in *. set (e := (val 8 q * val 8 y + val 8 r) / C) in *. clearbody C e.
    rewrite Ea, Eb. clear Ea Eb V. generalize dependent (val 8 x). intros X D. assert (X = val 8 q * val 8 y + val 8 r - C * e) as -> by lia. clear D.
    generalize (val 8 q) (val 8 y) (val 8 r) (val 8 a) (val 8 b). intros Q Y R A B. split.
    - intros E. assert ((s * Q * B + s * R - A) mod C = 0) as F by (rewrite Zminus_mod, E, Z.sub_diag; apply Z.mod_0_l; exact C0).
      apply Z.mod_divide in F; [|exact C0]. destruct F as [k F]. exists (k + s * Q * eb - s * e - ea).
      replace (s * (Q * (B + eb * C - Y) + (Q * Y + R - C * e)) - (A + ea * C)) with ((s * Q * B + s * R - A) + (s * Q * eb - s * e - ea) * C) by ring.
      rewrite F. ring.
    - intros [k E]. replace (s * Q * B + s * R) with (A + (k - s * Q * eb + s * e + ea) * C); [apply Z.mod_add, C0|].
      replace (s * Q * B + s * R) with (A + (s * (Q * (B + eb * C - Y) + (Q * Y + R - C * e)) - (A + ea * C)) - (s * Q * eb - s * e - ea) * C) by ring.
      rewrite E. ring. }
  assert (stands n q (1 * val 8 q)) as Sq by (rewrite Z.mul_1_l; apply stands_self, Bq).
  assert (stands n r (1 * val 8 r)) as Sr by (rewrite Z.mul_1_l; apply stands_self, Br).
  assert (stands n (i_neg q) (-1 * val 8 q)) as Nq by (replace (-1 * val 8 q) with (- val 8 q) by ring; apply stands_neg, stands_self; auto).
  assert (stands n (i_neg r) (-1 * val 8 r)) as Nr by (replace (-1 * val 8 r) with (- val 8 r) by ring; apply stands_neg, stands_self; auto).
  destruct (Sum q r 1 (or_introl eq_refl) Sq Sr) as [PE PS]. destruct (Sum _ _ (-1) (or_intror eq_refl) Nq Nr) as [NE NS].
  assert (forall z, Z.odd z = negb (Z.even z)) as OE by (intros z; rewrite <- Z.negb_odd, negb_involutive; reflexivity).
  clear Sum V. rewrite EC in *.
  destruct (sval a <? 0), (sval b <? 0); cbn [xorb].
  - exists q, r. repeat (split; [reflexivity || assumption|]). rewrite PS, OE, PE, <- OE.
    replace (sval b - val 8 y) with (- H) by lia. replace (sval a) with (val 8 x - H) by lia. apply both_negative. exact HH.
  - exists (i_neg q), (i_neg r). repeat (split; [reflexivity || (eapply stands_bytes; eassumption)|]). rewrite NS.
    replace (sval b - val 8 y) with 0 by lia. replace (sval a) with (val 8 x - H) by lia. rewrite negative_dividend by lia. lia.
  - exists (i_neg q), (i_neg r). repeat (split; [reflexivity || (eapply stands_bytes; eassumption)|]). rewrite NS, OE, NE, <- OE.
    replace (sval b - val 8 y) with (- H) by lia. replace (sval a) with (val 8 x) by lia. rewrite negative_divisor by lia.
    replace (4 * val 8 x = 2 * H) with (2 * (2 * val 8 x) = 2 * H) by (f_equal; ring). rewrite Z.mul_cancel_l by lia. reflexivity.
  - exists q, r. split; [reflexivity|]. split; [reflexivity|]. split; [assumption|]. split; [assumption|]. split; [constructor|].
    intros _. apply PS. replace (sval b - val 8 y) with 0 by lia. replace (sval a) with (val 8 x) by lia. exists 0. ring.
Qed.
Print Assumptions C185_signed_division_partial.

(** -7 / 2 is -16380 with remainder -1, which add up to -32761; -16384 / 3 is -5461 with remainder -1, which add up. *)
Example C185_signed_division_demo :
  i_div true [249; 255] [2; 0] = Ok [4; 192] /\ i_rem true [249; 255] [2; 0] = Ok [255; 255] /\ sval (i_add (i_mul [4; 192] [2; 0]) [255; 255]) = -32761 /\
  i_div true [0; 192] [3; 0] = Ok [171; 234] /\ i_rem true [0; 192] [3; 0] = Ok [255; 255] /\ sval (i_add (i_mul [171; 234] [3; 0]) [255; 255]) = -16384.
Proof. vm_compute. repeat split. Qed.

(** The laws a user expects, and fails to get: products of [U<N>] with overflow checks commute, and quotients and remainders add up to the dividend. *)
Theorem C185_refuted :
  (exists a b, bytes 2 a /\ bytes 2 b /\ u_mul true a b = Panic /\ exists c, u_mul true b a = Ok c /\ val 8 c <> val 8 a * val 8 b) /\
  (exists a b q r, bytes 2 a /\ bytes 2 b /\ 0 < val 8 b /\ u_div true a b = Ok q /\ u_rem true a b = Ok r /\ bind (u_mul true q b) (fun p => u_add true p r) = Panic) /\
  (exists a b q r, bytes 2 a /\ bytes 2 b /\ sval a = -7 /\ sval b = 2 /\ i_div true a b = Ok q /\ i_rem true a b = Ok r /\ i_add (i_mul q b) r <> a) /\
  (exists a b q r, bytes 2 a /\ bytes 2 b /\ sval a = 7 /\ sval b = -2 /\ i_div true a b = Ok q /\ i_rem true a b = Ok r /\ i_add (i_mul q b) r <> a).
Proof.
  split; [|split; [|split]].
  - exists [255; 1], [255; 0]. split; [split; [wf_tac|reflexivity]|]. split; [split; [wf_tac|reflexivity]|]. split; [vm_compute; reflexivity|].
    exists [1; 253]. split; [vm_compute; reflexivity|vm_compute; discriminate].
  - exists [37; 91], [3; 125], [255; 29], [40; 126]. split; [split; [wf_tac|reflexivity]|]. split; [split; [wf_tac|reflexivity]|]. vm_compute. repeat split.
  - exists [249; 255], [2; 0], [4; 192], [255; 255]. split; [split; [wf_tac|reflexivity]|]. split; [split; [wf_tac|reflexivity]|].
    repeat (split; [vm_compute; reflexivity|]). vm_compute. discriminate.
  - exists [7; 0], [254; 255], [0; 0], [249; 255]. split; [split; [wf_tac|reflexivity]|]. split; [split; [wf_tac|reflexivity]|].
    repeat (split; [vm_compute; reflexivity|]). vm_compute. discriminate.
Qed.
Print Assumptions C185_refuted.
