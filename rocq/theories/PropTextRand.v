(** C144, C145: the text of rationals; random byte-array integers. *)
From Coq Require Import ZArith List Bool Lia.
From Verif Require Import Base Words Spec Arith TextSpec RatModel TextRandModel BigIntMore PropReals PropFixedText.
Import ListNotations.
Local Open Scope Z_scope.

(** ** C144 *)

Lemma decimal_digits : forall fuel v, 0 <= v -> v < 2 ^ Z.of_nat fuel -> (0 < fuel)%nat -> is_numeral 10 v (decimal fuel v).
Proof.
  induction fuel as [|fuel IH]; intros v Hv Hl Hf; [lia|]. cbn [decimal]. destruct (Z.ltb_spec v 10) as [L|L].
  - exists [v]. split; [cbn; unfold digit_char; rewrite (proj2 (Z.ltb_lt _ _)) by lia; reflexivity|]. split; [repeat constructor; lia|].
    split; [reflexivity|]. destruct (Z.eq_dec v 0) as [->|]; auto. right. split; [discriminate|]. auto.
  - rewrite Nat2Z.inj_succ, Z.pow_succ_r in Hl by lia. pose proof (Z.div_mod v 10 ltac:(lia)). pose proof (Z.mod_pos_bound v 10 ltac:(lia)).
    destruct (IH (v / 10)) as (ds & E & F & V & Hh).
    { apply Z.div_pos; lia. } { lia. } { destruct fuel; [cbn in Hl; lia|lia]. }
    exists (ds ++ [v mod 10]). rewrite E, map_app. split; [|split; [|split]].
    + f_equal. cbn. unfold digit_char. rewrite (proj2 (Z.ltb_lt _ _)) by lia. reflexivity.
    + apply Forall_app. split; auto.
    + rewrite digits_snoc, V. lia.
    + right. split; [destruct ds; discriminate|]. destruct Hh as [->|[H1 H2]].
      * exfalso. cbn in V. lia.
      * destruct ds; [congruence|]. exact H2.
Qed.

Lemma int_debug_text v : exists s, int_debug v = (if v <? 0 then [45] else []) ++ s /\ is_numeral 10 (Z.abs v) s.
Proof.
  eexists. split; [reflexivity|]. apply decimal_digits; try lia. rewrite Nat2Z.inj_succ, Z2Nat.id by apply Z.log2_nonneg.
  destruct (Z.eq_dec v 0) as [->|]; [cbn; lia|]. apply Z.log2_spec. lia.
Qed.

Lemma numeral_chars v s c : is_numeral 10 v s -> In c s -> 48 <= c < 58.
Proof.
  intros (ds & -> & F & _) I. apply in_map_iff in I. destruct I as (d & <- & I). rewrite Forall_forall in F. specialize (F d I). cbn beta in F.
  unfold digit_char. rewrite (proj2 (Z.ltb_lt _ _)) by lia. lia.
Qed.

Lemma int_debug_inj v v' : int_debug v = int_debug v' -> v = v'.
Proof.
  destruct (int_debug_text v) as (s & -> & H), (int_debug_text v') as (s' & -> & H'). intros E.
  assert (forall s v, is_numeral 10 v (45 :: s) -> False) as K.
  { intros l u X. pose proof (numeral_chars _ _ 45 X ltac:(left; auto)). lia. }
  destruct (Z.ltb_spec v 0), (Z.ltb_spec v' 0); cbn in E.
  - injection E as ->. pose proof (numeral_value 10 _ _ _ ltac:(lia) H H' ltac:(lia)). lia.
  - exfalso. rewrite <- E in H'. eapply K; eauto.
  - exfalso. rewrite E in H. eapply K; eauto.
  - subst s'. pose proof (numeral_value 10 _ _ _ ltac:(lia) H H' ltac:(lia)). lia.
Qed.

Lemma split_at (c : Z) : forall a b d e, ~ In c a -> ~ In c d -> a ++ c :: b = d ++ c :: e -> a = d /\ b = e.
Proof.
  induction a as [|x a IH]; intros b [|y d] e Ha Hd E; cbn in *.
  - injection E. auto.
  - injection E as <- _. elim Hd. auto.
  - injection E as -> _. elim Ha. auto.
  - injection E as -> E. destruct (IH b d e) as [-> ->]; auto.
Qed.

(** Sign and numeral of the stored numerator, " / ", sign and numeral of the stored denominator. *)
Theorem C144_text : forall n d, exists a b,
  rat_debug (mkRat n d) = (if n <? 0 then [45] else []) ++ a ++ [32; 47; 32] ++ (if d <? 0 then [45] else []) ++ b /\
  is_numeral 10 (Z.abs n) a /\ is_numeral 10 (Z.abs d) b.
Proof.
  intros n d. destruct (int_debug_text n) as (a & E & A), (int_debug_text d) as (b & E' & B). exists a, b.
  unfold rat_debug. cbn [num denom]. rewrite E, E', <- app_assoc. auto.
Qed.
Print Assumptions C144_text.

(** The text determines the stored fraction: rationals print alike exactly if they compare equal. *)
Theorem C144_injective : forall r r', rat_debug r = rat_debug r' <-> rat_eq r r' = true.
Proof.
  intros [n d] [n' d']. unfold rat_eq, rat_debug. cbn [num denom]. rewrite andb_true_iff, !Z.eqb_eq. split; [|intros [-> ->]; reflexivity].
  intros E. cbn [app] in E.
  assert (forall v, ~ In 32 (int_debug v)) as K.
  { intros v I. destruct (int_debug_text v) as (s & Es & H). rewrite Es in I. apply in_app_or in I. destruct I as [I|I].
    - destruct (v <? 0); [|contradiction]. destruct I as [I|[]]. discriminate.
    - pose proof (numeral_chars _ _ _ H I). lia. }
  apply split_at in E; auto. destruct E as [E1 E2]. injection E2 as E2. split; apply int_debug_inj; auto.
Qed.
Print Assumptions C144_injective.

Example C144_demo : rat_debug (mkRat (-12) 7) = [45; 49; 50; 32; 47; 32; 55].
Proof. reflexivity. Qed.

(** ** C145 *)

Lemma bytes_of n : forall v, 0 <= v < cap 8 n -> exists l, wf 8 l /\ length l = n /\ val 8 l = v.
Proof.
  induction n as [|n IH]; intros v Hv.
  - exists []. split; [constructor|]. split; auto. unfold cap in Hv. cbn in *. lia.
  - assert (cap 8 (S n) = 256 * cap 8 n) as E.
    { unfold cap. change (Z.of_nat 8) with 8. replace (8 * Z.of_nat (S n)) with (8 + 8 * Z.of_nat n) by lia. rewrite Z.pow_add_r by lia. reflexivity. }
    rewrite E in Hv. destruct (IH (v / 256)) as (l & W & L & V).
    { split; [apply Z.div_pos; lia|apply Z.div_lt_upper_bound; lia]. }
    exists (v mod 256 :: l). split; [constructor; auto; apply Z.mod_pos_bound; lia|]. split; [cbn; lia|].
    rewrite val_cons, V. change (base 8) with 256. pose proof (Z.div_mod v 256 ltac:(lia)). lia.
Qed.

(** Every value is sampled from exactly one array of bytes. *)
Theorem C145_unsigned : forall n,
  (forall bytes, wf 8 bytes -> length bytes = n -> 0 <= val 8 (u_sample bytes) < 2 ^ (8 * Z.of_nat n)) /\
  (forall v, 0 <= v < 2 ^ (8 * Z.of_nat n) -> exists! bytes, wf 8 bytes /\ length bytes = n /\ val 8 (u_sample bytes) = v).
Proof.
  intros n. assert (cap 8 n = 2 ^ (8 * Z.of_nat n)) as E by (unfold cap; f_equal; lia). rewrite <- E. split.
  - intros bytes W <-. apply val_bound. auto.
  - intros v Hv. destruct (bytes_of n v Hv) as (l & W & L & V). exists l. split; auto. intros l' (W' & L' & V'). unfold u_sample in V'.
    apply (val_inj 8); auto; congruence.
Qed.
Print Assumptions C145_unsigned.

Theorem C145_signed : forall n, (0 < n)%nat ->
  (forall bytes, wf 8 bytes -> length bytes = n -> - 2 ^ (8 * Z.of_nat n - 1) <= sval (i_sample bytes) < 2 ^ (8 * Z.of_nat n - 1)) /\
  (forall v, - 2 ^ (8 * Z.of_nat n - 1) <= v < 2 ^ (8 * Z.of_nat n - 1) ->
     exists! bytes, wf 8 bytes /\ length bytes = n /\ sval (i_sample bytes) = v).
Proof.
  intros n Hn. assert (cap 8 n = 2 * 2 ^ (8 * Z.of_nat n - 1)) as E.
  { unfold cap. rewrite <- Z.pow_succ_r by lia. f_equal. lia. }
  set (H := 2 ^ (8 * Z.of_nat n - 1)) in *. split.
  - intros bytes W L. pose proof (val_bound 8 bytes W) as B. unfold i_sample, sval. rewrite L in *. rewrite E in *.
    destruct (Z.ltb_spec (2 * val 8 bytes) (2 * H)); lia.
  - intros v Hv. destruct (bytes_of n (v mod cap 8 n)) as (l & W & L & V); [apply Z.mod_pos_bound; lia|].
    assert (forall l, wf 8 l -> length l = n -> sval l = v <-> val 8 l = v mod cap 8 n) as K.
    { intros k Wk Lk. pose proof (val_bound 8 k Wk) as B. unfold sval. rewrite Lk in *. rewrite E in *.
      assert (v mod (2 * H) = if v <? 0 then v + 2 * H else v) as ->.
      { destruct (Z.ltb_spec v 0); [|apply Z.mod_small; lia]. rewrite <- (Z.mod_small (v + 2 * H) (2 * H)) by lia.
        rewrite <- (Z_mod_plus_full v 1 (2 * H)). f_equal. lia. }
      destruct (Z.ltb_spec (2 * val 8 k) (2 * H)), (Z.ltb_spec v 0); lia. }
    exists l. unfold i_sample. split; [split; auto; split; auto; apply K; auto|]. intros l' (W' & L' & V').
    apply (val_inj 8); auto; [congruence|]. rewrite V. symmetry. apply K; auto.
Qed.
Print Assumptions C145_signed.

Example C145_demo : sval (i_sample [0; 255]) = -256 /\ val 8 (u_sample [0; 255]) = 65280 /\ wf 8 [0; 255].
Proof. split; [reflexivity|]. split; [reflexivity|]. repeat constructor; lia. Qed.
