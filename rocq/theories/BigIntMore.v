(** BigInt bitwise operators, saturating and truncating conversions, parsing. *)
From Coq Require Import ZArith List Bool Lia Permutation.
From Verif Require Import Base Words Spec TextSpec Arith BitSliceModel BitSliceProofs ElementModel ElemAddSub
  InternModel InternProofs
  BigIntModel BigIntSpec BigIntProofs BigIntOps BigIntConv BigIntText BigIntSafe.
Import ListNotations.
Local Open Scope Z_scope.

Lemma bitop_val op bop la lb : wf 64 la -> wf 64 lb ->
  (forall a b, 0 <= a < base 64 -> 0 <= b < base 64 -> 0 <= op a b < base 64) ->
  (forall a b n, Z.testbit (op a b) n = bop (Z.testbit a n) (Z.testbit b n)) ->
  bop false false = false ->
  wf 64 (elem_bitop op la lb) /\ val 64 (elem_bitop op la lb) = op (val 64 la) (val 64 lb).
Proof.
  intros Wa Wb Hr Hb H0.
  destruct (elem_bitop_testbit 64 op bop la lb ltac:(lia) Wa Wb Hr Hb H0) as [W T]. split; auto.
  apply Z.bits_inj'. intros n Hn. rewrite <- (Z2Nat.id n Hn). rewrite T, Hb. auto.
Qed.

Lemma bi_bitop_spec dbg op bop P st hs a b x y : consistent P st hs -> room P hs 0 -> In a hs -> In b hs ->
  denotes st a x -> denotes st b y ->
  (forall a b, 0 <= a < base 64 -> 0 <= b < base 64 -> 0 <= op a b < base 64) ->
  (forall a b n, Z.testbit (op a b) n = bop (Z.testbit a n) (Z.testbit b n)) ->
  bop false false = false ->
  yields P hs (bi_bitop dbg op a b) st (signed (Z.odd a) (op (Z.abs x) (Z.abs y))).
Proof.
  intros Hc Hr Ha Hb Hx Hy R T F.
  destruct (info _ _ _ _ _ Hc Ha Hx) as (la & Sa & Wa & Ca & La & Va & _).
  destruct (info _ _ _ _ _ Hc Hb Hy) as (lb & Sb & Wb & Cb & Lb & Vb & _).
  unfold bi_bitop. destruct (bitop_val op bop la lb Wa Wb R T F) as [W V].
  unfold yields. rewrite (mbind_ok _ _ st (elem_bitop op la lb) st).
  - rewrite is_negative_odd. rewrite <- Va, <- Vb, <- V. apply new_slice_spec; auto.
    apply bitop_ne. intros ->. cbn in La. lia.
  - rewrite (with_slices_ok _ _ _ _ _ _ Sa Sb). reflexivity.
Qed.

Lemma try_from_val_of {A} (f : Z + side -> A) dbg t P st hs a r : consistent P st (a :: hs) ->
  returns P (a :: hs) (bi_try_from dbg t a) st r ->
  returns P hs (let! r := bi_try_from_val dbg t a in ret (f r)) st (f r).
Proof.
  intros Hc (st1 & E1 & C1 & K1). destruct (drop_spec P st1 hs a C1) as (st2 & E2 & C2 & K2).
  exists st2. split; [|split; auto].
  - unfold bi_try_from_val. rewrite mbind_assoc. rewrite (mbind_ok _ _ _ _ _ E1).
    rewrite mbind_assoc. rewrite (mbind_ok _ _ _ _ _ E2). reflexivity.
  - intros h v Hh Hv. apply K2; auto. apply K1; cbn; auto.
Qed.

Lemma saturate_unsigned dbg t P st hs a x : consistent P st (a :: hs) -> room P (a :: hs) 0 -> denotes st a x ->
  std_ty t -> isigned t = false -> a <> neg_zero ->
  returns P hs (bi_saturate dbg t a) st (Z.max 0 (Z.min x (imax t))).
Proof.
  intros Hc Hr Hx Ht Hu Na. unfold bi_saturate.
  pose proof (try_from_unsigned dbg t P st (a :: hs) a x Hc Hr ltac:(cbn; auto) Hx Ht Hu Na) as R.
  apply (try_from_val_of (fun r => match r with inl v => v | inr Above => imax t | inr Below => imin t end)) in R; auto.
  assert (0 <= imax t). { unfold imax. rewrite Hu. pose proof (Z.pow_pos_nonneg 2 (Z.of_nat (ibits t)) ltac:(lia) ltac:(lia)). lia. }
  assert (imin t = 0) as Hmin by (unfold imin; rewrite Hu; auto).
  replace (Z.max 0 (Z.min x (imax t))) with
    (match (if x <? 0 then inr Below else if imax t <? x then inr Above else inl x) with inl v => v | inr Above => imax t | inr Below => imin t end); auto.
  destruct (Z.ltb_spec x 0); [lia|]. destruct (Z.ltb_spec (imax t) x); lia.
Qed.

Lemma saturate_signed64 dbg t P st hs a x : consistent P st (a :: hs) -> room P (a :: hs) 0 -> denotes st a x ->
  std_ty t -> isigned t = true -> (ibits t <= 64)%nat -> a <> neg_zero ->
  returns P hs (bi_saturate dbg t a) st
    (if x <? imin t then imin t else Z.min (Z.abs x) (imax t)).
Proof.
  intros Hc Hr Hx Ht Hu Hb Na. unfold bi_saturate.
  pose proof (try_from_signed64 dbg t P st (a :: hs) a x Hc Hr ltac:(cbn; auto) Hx Ht Hu Hb Na) as R.
  apply (try_from_val_of (fun r => match r with inl v => v | inr Above => imax t | inr Below => imin t end)) in R; auto.
  destruct (signed_bounds t Ht Hu) as (B1 & B2 & _).
  assert ((if x <? imin t then imin t else Z.min (Z.abs x) (imax t)) =
    (match (if imax t <? x then inr Above else if x <? imin t then inr Below
     else if Z.abs x <=? imax t then inl (Z.abs x) else inr Above) with inl v => v | inr Above => imax t | inr Below => imin t end)) as ->; auto.
  destruct (Z.ltb_spec (imax t) x); destruct (Z.ltb_spec x (imin t)); try lia.
  destruct (Z.leb_spec (Z.abs x) (imax t)); lia.
Qed.

Lemma truncate_small dbg t P st hs a x : consistent P st (a :: hs) -> denotes st a x ->
  std_ty t -> Z.abs x <= imax t ->
  returns P hs (bi_truncate dbg t a) st (if isigned t then x else Z.abs x).
Proof.
  intros Hc Hx Ht Hm.
  destruct (info _ _ _ _ _ Hc ltac:(left; reflexivity) Hx) as (la & Sa & Wa & Ca & La & Va & _).
  pose proof (denotes_sign _ _ _ _ _ _ Hc ltac:(left; reflexivity) Sa Hx) as Ex.
  destruct (drop_spec P st hs a Hc) as (st2 & E2 & C2 & K2).
  exists st2. split; [|split; auto].
  unfold bi_truncate. rewrite (mbind_ok _ _ st la st) by (apply reads_ok, Sa).
  assert (arr_to_int dbg 64 t la = Ok (Some (Z.abs x))) as Ea.
  { destruct (isigned t) eqn:Es; [apply arr_to_int_signed; auto|apply arr_to_int_unsigned; auto]. }
  rewrite (mbind_ok _ _ st (Some (Z.abs x)) st) by (apply lift_ok; auto). cbn [unwrap_or].
  rewrite (mbind_ok _ _ st (if isigned t then x else Z.abs x) st).
  - rewrite (mbind_ok _ _ _ _ _ E2). reflexivity.
  - apply lift_ok. destruct (isigned t) eqn:Es; auto. rewrite is_negative_odd.
    assert (Z.abs x * (if Z.odd a then -1 else 1) = x) as ->.
    { rewrite <- Va. rewrite Ex. destruct (Z.odd a); lia. }
    assert (in_range t x = true) as ->; auto. apply in_range_iff. destruct (signed_bounds t Ht Es). lia.
Qed.

(** A string is a numeral of the radix, or has a first character that is not a digit. *)
Lemma spells_dec radix s : (exists ds, spells radix s ds) \/
  exists s1 c s2 ds, s = s1 ++ c :: s2 /\ spells radix s1 ds /\ (forall d, char_digit c = Some d -> radix <= d).
Proof.
  induction s as [|c s IH].
  - left. exists []. constructor.
  - assert ((exists d, char_digit c = Some d /\ d < radix) \/ (forall d, char_digit c = Some d -> radix <= d)) as [(d & Hd & Hr)|Hb].
    { destruct (char_digit c) as [d|]; [|right; discriminate].
      destruct (Z.ltb_spec d radix); [left; eauto|]. right. intros d' Q. assert (d = d') by congruence. lia. }
    + destruct IH as [[ds Hs]|(s1 & c1 & s2 & ds & -> & Hs & Hb)].
      * left. exists (d :: ds). constructor; auto.
      * right. exists (c :: s1), c1, s2, (d :: ds). split; auto. split; auto. constructor; auto.
    + right. exists [], c, s, []. split; auto. split; auto. constructor.
Qed.

Lemma from_str_ok dbg P st hs radix s ds : 0 <= radix <= 36 -> consistent P st hs -> room P hs 3 -> spells radix s ds ->
  exists c st', bi_from_str_radix dbg s radix st = Ok (inl c, st') /\ consistent P st' (c :: hs) /\ keeps st st' hs /\
    denotes st' c (digits_val radix ds) /\ c <> neg_zero.
Proof.
  intros Hr Hc Hm Hs. destruct (bi_new_spec P st hs Hc) as (z & Ez & Cz & Dz & Nz).
  destruct (parse_ok dbg P hs radix Hr Hm s ds st z 0 Hs Cz Dz Nz ltac:(lia)) as (c & st' & E & C & K & D & N).
  exists c, st'. split; auto. unfold bi_from_str_radix. rewrite (mbind_ok _ _ st z st) by (apply lift_ok; auto). auto.
Qed.

Lemma from_str_err dbg P st hs radix s1 c s2 ds : 0 <= radix <= 36 -> consistent P st hs -> room P hs 3 ->
  spells radix s1 ds -> (forall d, char_digit c = Some d -> radix <= d) ->
  returns P hs (bi_from_str_radix dbg (s1 ++ c :: s2) radix) st (inr (InvalidChar c)).
Proof.
  intros Hr Hc Hm Hs Hb. destruct (bi_new_spec P st hs Hc) as (z & Ez & Cz & Dz & Nz).
  pose proof (parse_err dbg P hs radix Hr Hm s1 c s2 ds st z 0 Hs Hb Cz Dz Nz ltac:(lia)) as R.
  unfold returns, bi_from_str_radix. rewrite (mbind_ok _ _ st z st) by (apply lift_ok; auto). exact R.
Qed.

Lemma spells_map radix f ds : radix <= 36 -> Forall (fun d => 0 <= d < radix) ds ->
  (forall d, 0 <= d < 36 -> char_digit (f d) = Some d) -> spells radix (map f ds) ds.
Proof.
  intros Hr Hd Hf. unfold spells. induction Hd as [|d ds H Hd IH]; cbn [map]; constructor; auto.
  split; [apply Hf; lia|lia].
Qed.

(** ** A number has one numeral *)

Lemma digits_snoc radix ds d : digits_val radix (ds ++ [d]) = digits_val radix ds * radix + d.
Proof. unfold digits_val. rewrite fold_left_app. reflexivity. Qed.

Lemma hd_snoc (ds : list Z) d : ds <> [] -> hd 0 (ds ++ [d]) = hd 0 ds.
Proof. destruct ds; [congruence|reflexivity]. Qed.

Lemma digits_nonneg radix ds : 2 <= radix -> Forall (fun d => 0 <= d < radix) ds ->
  0 <= digits_val radix ds /\ (ds <> [] -> hd 0 ds <> 0 -> 0 < digits_val radix ds).
Proof.
  intros Hr. induction ds as [|d ds IH] using rev_ind; intros F.
  - split; [cbn; lia|congruence].
  - apply Forall_app in F. destruct F as [F1 F2]. apply Forall_inv in F2. cbv beta in F2.
    rewrite digits_snoc. destruct (IH F1) as [I1 I2]. split; [nia|].
    intros _ Hh. destruct ds as [|e ds].
    + cbn in Hh. cbn. lia.
    + rewrite hd_snoc in Hh by discriminate. specialize (I2 ltac:(discriminate) Hh). nia.
Qed.

Lemma digits_unique radix ds : 2 <= radix -> forall ds', Forall (fun d => 0 <= d < radix) ds ->
  Forall (fun d => 0 <= d < radix) ds' -> (ds = [] \/ hd 0 ds <> 0) -> (ds' = [] \/ hd 0 ds' <> 0) ->
  digits_val radix ds = digits_val radix ds' -> ds = ds'.
Proof.
  intros Hr. induction ds as [|d ds IH] using rev_ind; intros ds' F F' H H' E.
  - destruct ds' as [|e ds']; auto. destruct H' as [H'|H']; [discriminate|].
    destruct (digits_nonneg radix (e :: ds') Hr F') as [_ P]. specialize (P ltac:(discriminate) H'). cbn in E. cbn in P. lia.
  - destruct ds' as [|e ds' _] using rev_ind.
    + destruct H as [H|H]; [destruct ds; discriminate|].
      destruct (digits_nonneg radix (ds ++ [d]) Hr F) as [_ P]. specialize (P ltac:(destruct ds; discriminate) H).
      rewrite E in P. cbn in P. lia.
    + rewrite !digits_snoc in E.
      apply Forall_app in F. destruct F as [F1 F2]. apply Forall_inv in F2. cbv beta in F2.
      apply Forall_app in F'. destruct F' as [F1' F2']. apply Forall_inv in F2'. cbv beta in F2'.
      assert (digits_val radix ds = digits_val radix ds').
      { pose proof (Z.div_unique (digits_val radix ds * radix + d) radix (digits_val radix ds) d ltac:(lia) ltac:(lia)).
        pose proof (Z.div_unique (digits_val radix ds * radix + d) radix (digits_val radix ds') e ltac:(lia) ltac:(lia)). lia. }
      assert (d = e) by nia. subst e. f_equal. apply IH; auto.
      * destruct ds; auto. right. destruct H as [H|H]; [discriminate|]. rewrite hd_snoc in H by discriminate. auto.
      * destruct ds'; auto. right. destruct H' as [H'|H']; [discriminate|]. rewrite hd_snoc in H' by discriminate. auto.
Qed.

Lemma numeral_unique radix v s s' : 2 <= radix -> is_numeral radix v s -> is_numeral radix v s' -> s = s'.
Proof.
  intros Hr (ds & -> & F & V & H) (ds' & -> & F' & V' & H'). f_equal.
  assert (digits_val radix [0] = 0) as Z0 by reflexivity.
  destruct H as [->|[H1 H2]], H' as [->|[H1' H2']]; auto.
  - destruct (digits_nonneg radix ds' Hr F') as [_ P]. specialize (P H1' H2'). lia.
  - destruct (digits_nonneg radix ds Hr F) as [_ P]. specialize (P H1 H2). lia.
  - eapply digits_unique; eauto. congruence.
Qed.
