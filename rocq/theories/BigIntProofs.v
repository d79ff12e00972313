(** Proofs about the BigInt model: store accounting, then one lemma per operation. *)
From Coq Require Import ZArith List Bool Lia Permutation.
From Verif Require Import Base Words Spec Arith BitSliceModel BitSliceProofs ElementModel
  BitwiseModel ElemAddSub ElemMul ElemShift BitwiseProofs InternModel InternProofs BigIntModel BigIntSpec.
Import ListNotations.
Local Open Scope Z_scope.

(** ** Words *)

Lemma land3 a : Z.land a 3 = a mod 4.
Proof. exact (Z.land_ones a 2 ltac:(lia)). Qed.

Lemma mod4_cases a : a mod 4 = 0 \/ a mod 4 = 1 \/ a mod 4 = 2 \/ a mod 4 = 3.
Proof. pose proof (Z.mod_pos_bound a 4 ltac:(lia)). lia. Qed.

Lemma testbit1_mod4 a : Z.testbit a 1 = Z.testbit (a mod 4) 1.
Proof. change 4 with (2 ^ 2). rewrite Z.mod_pow2_bits_low by lia. auto. Qed.

Lemma odd_mod4 a : Z.odd a = Z.odd (a mod 4).
Proof. rewrite <- !Z.bit0_odd. change 4 with (2 ^ 2). rewrite Z.mod_pow2_bits_low by lia. auto. Qed.

Lemma is_inline_bit a : is_inline a = Z.testbit a 1.
Proof.
  unfold is_inline, tag_of. rewrite land3, testbit1_mod4.
  destruct (mod4_cases a) as [->|[->|[->| ->]]]; reflexivity.
Qed.

Lemma is_negative_odd a : is_negative a = Z.odd a.
Proof.
  unfold is_negative, tag_of. rewrite land3, odd_mod4.
  destruct (mod4_cases a) as [->|[->|[->| ->]]]; reflexivity.
Qed.

Lemma is_positive_neg a : is_positive a = negb (is_negative a).
Proof. reflexivity. Qed.

Lemma to_offset_div a : to_offset a = a / 4.
Proof. unfold to_offset. rewrite Z.shiftr_div_pow2 by lia. reflexivity. Qed.

Lemma max_offset_val : max_offset = 2 ^ 62 - 1.
Proof. reflexivity. Qed.

Lemma tag_usize_range t : 0 <= tag_usize t < 4.
Proof. destruct t; cbn; lia. Qed.

Lemma to_new_ok k t : 0 <= k <= max_offset -> to_new k t = Ok (4 * k + tag_usize t).
Proof.
  intros Hk. unfold to_new. rewrite (proj2 (Z.leb_le _ _)) by lia. f_equal.
  rewrite max_offset_val in Hk. pose proof (tag_usize_range t) as Ht.
  rewrite Z.shiftl_mul_pow2 by lia. rewrite Z.mod_small by lia.
  rewrite lor_add; [lia|].
  apply Z.bits_inj'. intros n Hn. rewrite Z.land_spec, Z.bits_0.
  destruct (Z_lt_ge_dec n 2).
  - rewrite Z.mul_pow2_bits_low by lia. auto.
  - rewrite (testbit_small (tag_usize t) 2 n) by lia. apply andb_false_r.
Qed.

Lemma word_parts k t : 0 <= k -> let h := 4 * k + tag_usize t in
  h / 4 = k /\ tag_of h = t /\ Z.testbit h 1 = tag_inline t /\ Z.odd h = tag_negative t.
Proof.
  intros Hk. cbn zeta. pose proof (tag_usize_range t).
  assert ((4 * k + tag_usize t) mod 4 = tag_usize t) as Hm.
  { rewrite Z.add_comm, Z.mul_comm, Z.mod_add by lia. apply Z.mod_small. lia. }
  split; [|split; [|split]].
  - rewrite Z.mul_comm, Z.div_add_l by lia. rewrite Z.div_small by lia. lia.
  - unfold tag_of. rewrite land3, Hm. destruct t; reflexivity.
  - rewrite testbit1_mod4, Hm. destruct t; reflexivity.
  - rewrite odd_mod4, Hm. destruct t; reflexivity.
Qed.

Lemma word_split h : 0 <= h -> h = 4 * (h / 4) + tag_usize (tag_of h).
Proof.
  intros Hh. rewrite (Z.div_mod h 4) at 1 by lia. f_equal. unfold tag_of. rewrite land3.
  destruct (mod4_cases h) as [->|[->|[->| ->]]]; reflexivity.
Qed.

Lemma invert_neg_spec h : 0 <= h -> invert_neg h = if Z.odd h then h - 1 else h + 1.
Proof.
  intros Hh. unfold invert_neg.
  assert (h = 2 * (h / 2) + (if Z.odd h then 1 else 0)) as E.
  { rewrite <- Zmod_odd. apply Z.div_mod. lia. }
  assert (forall b, 0 <= b -> Z.lxor (2 * b + 1) 1 = 2 * b) as H1.
  { intros [|b|b] Hb; try reflexivity. lia. }
  assert (forall b, 0 <= b -> Z.lxor (2 * b + 0) 1 = 2 * b + 1) as H0.
  { intros [|b|b] Hb; try reflexivity. lia. }
  pose proof (Z.div_pos h 2 Hh ltac:(lia)).
  destruct (Z.odd h); rewrite E at 1; [rewrite H1 by lia|rewrite H0 by lia]; lia.
Qed.

Lemma invert_neg_parts h : 0 <= h -> 0 <= invert_neg h /\ invert_neg h / 4 = h / 4 /\
  Z.testbit (invert_neg h) 1 = Z.testbit h 1 /\ Z.odd (invert_neg h) = negb (Z.odd h).
Proof.
  intros Hh. rewrite invert_neg_spec by auto. pose proof (word_split h Hh) as E.
  pose proof (Z.div_pos h 4 Hh ltac:(lia)) as Hd.
  assert (forall t, h = 4 * (h / 4) + tag_usize t -> tag_of h = t) as Ht.
  { intros t E'. rewrite E'. destruct (word_parts (h / 4) t Hd) as (_ & H & _). auto. }
  set (k := h / 4) in *. destruct (tag_of h) eqn:Et; cbn [tag_usize] in E.
  - destruct (word_parts k TNone Hd) as (A & B & C & D). cbn [tag_usize tag_inline tag_negative] in *.
    destruct (word_parts k TNeg Hd) as (A' & B' & C' & D'). cbn [tag_usize tag_inline tag_negative] in *.
    rewrite <- E in C, D. rewrite C, D. replace (h + 1) with (4 * k + 1) by lia. rewrite A', C', D'. repeat split; lia.
  - destruct (word_parts k TNone Hd) as (A & B & C & D). cbn [tag_usize tag_inline tag_negative] in *.
    destruct (word_parts k TNeg Hd) as (A' & B' & C' & D'). cbn [tag_usize tag_inline tag_negative] in *.
    rewrite <- E in C', D'. rewrite C', D'. replace (h - 1) with (4 * k + 0) by lia. rewrite A, C, D. repeat split; lia.
  - destruct (word_parts k TInline Hd) as (A & B & C & D). cbn [tag_usize tag_inline tag_negative] in *.
    destruct (word_parts k TInlineNeg Hd) as (A' & B' & C' & D'). cbn [tag_usize tag_inline tag_negative] in *.
    rewrite <- E in C, D. rewrite C, D. replace (h + 1) with (4 * k + 3) by lia. rewrite A', C', D'. repeat split; lia.
  - destruct (word_parts k TInline Hd) as (A & B & C & D). cbn [tag_usize tag_inline tag_negative] in *.
    destruct (word_parts k TInlineNeg Hd) as (A' & B' & C' & D'). cbn [tag_usize tag_inline tag_negative] in *.
    rewrite <- E in C', D'. rewrite C', D'. replace (h - 1) with (4 * k + 2) by lia. rewrite A, C, D. repeat split; lia.
Qed.

(** ** Lists of handles *)

Lemma list_eqb_ok l : forall r, list_eqb l r = true <-> l = r.
Proof.
  induction l as [|x l IH]; intros [|y r]; cbn; split; intros H; try discriminate; auto.
  - apply andb_true_iff in H. destruct H as [H1 H2]. apply Z.eqb_eq in H1. apply IH in H2. congruence.
  - assert (x = y /\ l = r) as [-> ->] by (split; congruence). rewrite Z.eqb_refl. cbn. apply IH. auto.
Qed.

Lemma list_eqb_refl l : list_eqb l l = true.
Proof. apply list_eqb_ok. auto. Qed.

Lemma filter_perm_length {A} (f : A -> bool) l l' : Permutation l l' -> length (filter f l) = length (filter f l').
Proof.
  induction 1; cbn [filter]; auto.
  - destruct (f x); cbn; auto.
  - destruct (f x), (f y); cbn; auto.
  - congruence.
Qed.

Lemma live_perm l l' : Permutation l l' -> live l = live l'.
Proof. apply filter_perm_length. Qed.
Lemma uses_perm k l l' : Permutation l l' -> uses k l = uses k l'.
Proof. apply filter_perm_length. Qed.

Lemma live_cons h hs : live (h :: hs) = (if Z.testbit h 1 then live hs else S (live hs)).
Proof. unfold live. cbn [filter]. destruct (Z.testbit h 1); reflexivity. Qed.
Lemma live_cons_le h hs : (live hs <= live (h :: hs) <= S (live hs))%nat.
Proof. rewrite live_cons. destruct (Z.testbit h 1); lia. Qed.
Lemma uses_cons k h hs : uses k (h :: hs) = (if refers k h then S (uses k hs) else uses k hs).
Proof. unfold uses. cbn [filter]. destruct (refers k h); reflexivity. Qed.
Lemma uses_le_live k hs : (uses k hs <= live hs)%nat.
Proof.
  induction hs as [|h hs IH]; [cbn; lia|]. rewrite uses_cons, live_cons. unfold refers.
  destruct (Z.testbit h 1); cbn [negb andb]; [auto|]. destruct (h / 4 =? k); lia.
Qed.

Lemma uses_in k h hs : In h hs -> Z.testbit h 1 = false -> h / 4 = k -> (0 < uses k hs)%nat.
Proof.
  intros Hin Hb Hk. unfold uses. assert (In h (filter (refers k) hs)) as H.
  { apply filter_In. split; auto. unfold refers. rewrite Hb, Hk, Z.eqb_refl. auto. }
  destruct (filter (refers k) hs); [destruct H|cbn; lia].
Qed.

Lemma uses_pos k hs : (0 < uses k hs)%nat -> exists h, In h hs /\ Z.testbit h 1 = false /\ h / 4 = k.
Proof.
  unfold uses. intros H. destruct (filter (refers k) hs) as [|h l] eqn:E; [cbn in H; lia|].
  assert (In h (filter (refers k) hs)) as Hi by (rewrite E; cbn; auto).
  apply filter_In in Hi. destruct Hi as [Hi Hr]. exists h. split; auto.
  unfold refers in Hr. apply andb_true_iff in Hr. destruct Hr as [H1 H2].
  apply negb_true_iff in H1. apply Z.eqb_eq in H2. auto.
Qed.

Lemma all_used_le n hs : (forall k, (k < n)%nat -> (0 < uses (Z.of_nat k) hs)%nat) -> (n <= live hs)%nat.
Proof.
  intros H. set (l := map (fun h => h / 4) (filter (fun h => negb (Z.testbit h 1)) hs)).
  assert (length l = live hs) as <- by (unfold l, live; apply map_length).
  rewrite <- (seq_length n 0), <- (map_length Z.of_nat).
  apply NoDup_incl_length.
  - apply FinFun.Injective_map_NoDup; [intros x y; lia|apply seq_NoDup].
  - intros x Hx. apply in_map_iff in Hx. destruct Hx as (k & <- & Hk). apply in_seq in Hk.
    destruct (uses_pos _ _ (H k ltac:(lia))) as (h & Hi & Hb & Hd).
    unfold l. apply in_map_iff. exists h. split; auto. apply filter_In. rewrite Hb. auto.
Qed.

(** ** Consistency in terms of slots *)

Lemma refcount_slot (st : istore) k n : shape st -> 0 <= k ->
  (refcount st k = Ok n <-> exists s, slot_of st k = Some s /\ refs s = n).
Proof.
  intros Hs Hk. unfold refcount. pose proof (slot_at_offset st k Hs Hk) as H.
  destruct (offset_to_idx k) as [i j]. rewrite H. destruct (slot_of st k) as [s|]; cbn [unwrap bind].
  - split; [intros [= <-]; eauto|]. intros (s' & [= <-] & <-). auto.
  - split; [discriminate|]. intros (s' & ? & _). discriminate.
Qed.

Lemma try_get_slot (st : istore) k l : shape st -> 0 <= k ->
  (try_get st k = Ok (Some l) <-> exists s, slot_of st k = Some s /\ refs s <> 0 /\ cont s = Some l).
Proof.
  intros Hs Hk. unfold try_get. pose proof (slot_at_offset st k Hs Hk) as H.
  destruct (offset_to_idx k) as [i j]. rewrite H. destruct (slot_of st k) as [s|]; cbn [unwrap bind].
  - destruct (Z.eqb_spec (refs s) 0) as [E|E].
    + split; [discriminate|]. intros (s' & [= <-] & H1 & _). lia.
    + destruct (cont s) as [l'|] eqn:Ec.
      * split; [intros [= <-]; eauto|]. intros (s' & [= <-] & _ & H2). congruence.
      * split; [discriminate|]. intros (s' & [= <-] & _ & H2). congruence.
  - split; [discriminate|]. intros (s' & ? & _). discriminate.
Qed.

Lemma con_refs_slot P st hs k s : consistent P st hs -> 0 <= k -> slot_of st k = Some s ->
  refs s = Z.of_nat (uses k hs).
Proof.
  intros [Hs Hr Hv Hsz Hp] Hk E.
  assert (k < 32 * Z.of_nat (length st)) as Hlt by (apply slot_of_range; auto; congruence).
  specialize (Hr k ltac:(lia)). apply refcount_slot in Hr; auto. destruct Hr as (s' & E' & R). congruence.
Qed.

Lemma con_perm P st hs hs' : Permutation hs hs' -> consistent P st hs -> consistent P st hs'.
Proof.
  intros Hp [Hs Hr Hv Hsz Hsm]. constructor; auto.
  - intros k Hk. rewrite <- (uses_perm k _ _ Hp). auto.
  - rewrite Forall_forall in *. intros h Hh. apply Hv. eapply Permutation_in; [symmetry|]; eauto.
Qed.

Lemma con_weaken P P' st hs : P <= P' < 2 ^ 61 -> consistent P st hs -> consistent P' st hs.
Proof. intros H [Hs Hr Hv Hsz Hsm]. constructor; auto; lia. Qed.

(** What reading handle [h] gives. *)
Definition has_slice (st : istore) (h : Z) (l : list Z) : Prop :=
  bi_slice st h = Ok l /\ wf 64 l /\ canonical l /\
  (forall v, denotes st h v <-> v = (if Z.odd h then -1 else 1) * val 64 l) /\
  (Z.testbit h 1 = true -> l = [h / 4] /\ h / 4 < 2 ^ 62) /\
  (Z.testbit h 1 = false -> 2 ^ 62 <= val 64 l) /\ 0 <= h.

Lemma valid_slice (st : istore) h : shape st -> valid st h -> exists l, has_slice st h l.
Proof.
  intros Hs (Hh & [Hi|(l & Hr & Hg & Hw & Hc & Hb)]).
  - exists [h / 4].
    assert (0 <= h / 4 < 2 ^ 62) as Hd.
    { split; [apply Z.div_pos; lia|]. apply Z.div_lt_upper_bound; lia. }
    unfold has_slice, bi_slice. rewrite is_inline_bit, Hi, to_offset_div.
    split; auto. split.
    { constructor; [|constructor]. change (Z.of_nat 64) with 64. lia. }
    split; [split; [discriminate|auto]|]. split; [|split; [intros; split; [auto|lia]|split; [congruence|lia]]].
    intros v. unfold denotes. rewrite Hi. cbn [val]. rewrite Z.mul_0_r, Z.add_0_r. tauto.
  - destruct (Z.testbit h 1) eqn:Hi.
    + exists [h / 4].
      assert (0 <= h / 4 < 2 ^ 62) as Hd.
      { split; [apply Z.div_pos; lia|]. apply Z.div_lt_upper_bound; lia. }
      unfold has_slice, bi_slice. rewrite is_inline_bit, Hi, to_offset_div.
      split; auto. split.
      { constructor; [|constructor]. change (Z.of_nat 64) with 64. lia. }
      split; [split; [discriminate|auto]|]. split; [|split; [intros; split; [auto|lia]|split; [congruence|lia]]].
      intros v. unfold denotes. rewrite Hi. cbn [val]. rewrite Z.mul_0_r, Z.add_0_r. tauto.
    + exists l. unfold has_slice, bi_slice. rewrite is_inline_bit, Hi, to_offset_div.
      split; [unfold intern_get; rewrite Hg; reflexivity|]. split; auto. split; auto.
      split; [|split; [congruence|split; [auto|lia]]].
      intros v. unfold denotes. rewrite Hi. split.
      * intros (l' & Hg' & ->). assert (l' = l) as -> by congruence. auto.
      * intros ->. eauto.
Qed.

Lemma con_slice P st hs h : consistent P st hs -> In h hs -> exists l, has_slice st h l.
Proof.
  intros Hc Hin. apply valid_slice; [apply (con_shape _ _ _ Hc)|].
  pose proof (con_valid _ _ _ Hc) as Hv. rewrite Forall_forall in Hv. auto.
Qed.

Lemma denotes_fun P st hs h v v' : consistent P st hs -> In h hs -> denotes st h v -> denotes st h v' -> v = v'.
Proof.
  intros Hc Hin H H'. destruct (con_slice _ _ _ _ Hc Hin) as (l & _ & _ & _ & D & _).
  apply D in H, H'. congruence.
Qed.

Lemma denotes_ex P st hs h : consistent P st hs -> In h hs -> exists v, denotes st h v.
Proof.
  intros Hc Hin. destruct (con_slice _ _ _ _ Hc Hin) as (l & _ & _ & _ & D & _).
  eexists. apply D. reflexivity.
Qed.

Lemma keeps_refl st hs : keeps st st hs.
Proof. intros h v _ H. auto. Qed.
Lemma keeps_trans st1 st2 st3 hs : keeps st1 st2 hs -> keeps st2 st3 hs -> keeps st1 st3 hs.
Proof. intros H1 H2 h v Hi Hd. auto. Qed.
Lemma keeps_incl st st' hs hs' : keeps st st' hs -> incl hs' hs -> keeps st st' hs'.
Proof. intros H1 H2 h v Hi Hd. auto. Qed.

(** A store change that leaves the content of every referenced slot alone. *)
Lemma valid_transfer (st st' : istore) hs h : shape st -> shape st' -> In h hs ->
  (length st <= length st')%nat ->
  (forall k s, 0 <= k -> slot_of st k = Some s -> refs s <> 0 -> (0 < uses k hs)%nat ->
     exists s', slot_of st' k = Some s' /\ refs s' <> 0 /\ cont s' = cont s) ->
  valid st h -> valid st' h /\ (forall v, denotes st h v -> denotes st' h v).
Proof.
  intros Hs Hs' Hin Hlen Htr (Hh & Hv).
  assert (0 <= h / 4) as Hd by (apply Z.div_pos; lia).
  assert (Z.testbit h 1 = false -> forall l, try_get st (h / 4) = Ok (Some l) -> try_get st' (h / 4) = Ok (Some l)) as Hget.
  { intros Hb l Hg. apply try_get_slot in Hg; auto. destruct Hg as (s & E & R & C).
    destruct (Htr _ _ Hd E R) as (s' & E' & R' & C'); [eapply uses_in; eauto|].
    apply try_get_slot; auto. exists s'. rewrite C' by auto. auto. }
  split.
  - split; auto. destruct (Z.testbit h 1) eqn:Hb; auto. right.
    destruct Hv as [|(l & H1 & H2 & H3)]; [discriminate|]. exists l. split; [lia|]. split; auto.
  - intros v. unfold denotes. destruct (Z.testbit h 1) eqn:Hb; auto.
    intros (l & Hg & ->). eauto.
Qed.

(** ** Creating, cloning and dropping handles *)

Lemma intern_spec dbg P st hs l neg : consistent P st hs -> room P hs 0 -> wf 64 l -> canonical l ->
  2 ^ 62 <= val 64 l ->
  yields P hs (new_intern dbg l neg) st ((if neg then -1 else 1) * val 64 l).
Proof.
  intros Hc Hroom Hw Hcan Hbig. pose proof Hc as [Hs Hr Hv Hsz Hsm].
  destruct (intern_add_spec list_eqb list_eqb_ok dbg l st Hs) as (k & st' & E & Hk & Hs' & Hp & H).
  { intros k s Hk Es. rewrite (con_refs_slot _ _ _ _ _ Hc Hk Es). unfold room in Hroom.
    pose proof (uses_le_live k hs). lia. }
  unfold yields, new_intern, mbind. rewrite E. cbn [bind].
  set (t := if neg then TNeg else TNone).
  assert (k <= max_offset /\ 32 * Z.of_nat (length st') <= P + 32 /\ (length st <= length st')%nat /\
    k < 32 * Z.of_nat (length st') /\
    (forall k', 0 <= k' -> slot_of st' k' =
       if k =? k' then Some (Slot (Z.of_nat (uses k hs) + 1) (Some l))
       else if k' <? 32 * Z.of_nat (length st) then slot_of st k'
       else if k' <? 32 * Z.of_nat (length st') then Some new_uninit else None) /\
    (forall s, slot_of st k = Some s -> refs s <> 0 -> cont s = Some l) /\
    (slot_of st k = None -> uses k hs = 0%nat)) as (Hmax & Hsz' & Hlen & Hkr & Hslots & Hcont & Hnone).
  { unfold room in Hroom. rewrite max_offset_val. destruct (slot_of st k) as [s|] eqn:Es.
    - destruct H as (H1 & H2 & H3).
      assert (k < 32 * Z.of_nat (length st)) by (apply slot_of_range; auto; congruence).
      rewrite H2. repeat split; try lia.
      + intros k' Hk'. rewrite H3 by auto. rewrite (con_refs_slot _ _ _ _ _ Hc Hk Es).
        destruct (k =? k'); auto. destruct (Z.ltb_spec k' (32 * Z.of_nat (length st))); auto.
        destruct (slot_of st k') eqn:Q; auto.
        assert (slot_of st k' <> None) as Q' by congruence. apply slot_of_range in Q'; auto. lia.
      + intros s' [= <-] Hne. destruct H1; auto. congruence.
      + discriminate.
    - destruct H as (-> & H2 & H3).
      assert (32 * length st <= live hs)%nat as Hall.
      { apply all_used_le. intros k' Hk'.
        assert (slot_of st (Z.of_nat k') <> None) as Q by (apply slot_of_range; auto; lia).
        destruct (slot_of st (Z.of_nat k')) as [s'|] eqn:Es'; [|congruence].
        destruct (Hp (Z.of_nat k') s' ltac:(lia) Es') as [_ Hne].
        rewrite (con_refs_slot _ _ _ (Z.of_nat k') _ Hc (Nat2Z.is_nonneg k') Es') in Hne. lia. }
      assert (uses (32 * Z.of_nat (length st)) hs = 0%nat) as H0.
      { destruct (uses (32 * Z.of_nat (length st)) hs) eqn:Q; auto.
        destruct (uses_pos (32 * Z.of_nat (length st)) hs ltac:(lia)) as (h & Hi & Hb & Hd).
        rewrite Forall_forall in Hv. destruct (Hv h Hi) as (_ & [?|(l' & Hl' & _)]); [congruence|]. lia. }
      rewrite H2. repeat split; try lia; auto.
      + intros k' Hk'. rewrite H3 by auto. rewrite H0.
        destruct (32 * Z.of_nat (length st) =? k'); auto.
        destruct (Z.ltb_spec k' (32 * Z.of_nat (length st))).
        * rewrite (proj2 (Z.ltb_lt k' (32 * Z.of_nat (length st) + 32))) by lia. auto.
        * replace (32 * Z.of_nat (S (length st))) with (32 * Z.of_nat (length st) + 32) by lia. auto.
      + discriminate. }
  clear H. rewrite to_new_ok by lia. unfold lift. cbn [bind].
  destruct (word_parts k t Hk) as (W1 & W2 & W3 & W4). set (c := 4 * k + tag_usize t) in *.
  assert (Z.testbit c 1 = false) as W3' by (rewrite W3; unfold t; destruct neg; reflexivity).
  assert (Z.odd c = neg) as W4' by (rewrite W4; unfold t; destruct neg; reflexivity).
  assert (try_get st' k = Ok (Some l)) as Hget.
  { apply try_get_slot; auto. rewrite Hslots, Z.eqb_refl by auto. eexists. split; [reflexivity|]. cbn [refs cont]. split; [lia|auto]. }
  assert (forall h, In h hs -> valid st' h /\ (forall v, denotes st h v -> denotes st' h v)) as Htr.
  { intros h Hin. apply (valid_transfer st st' hs); auto.
    - intros k' s Hk' Es Hne0 _. rewrite Hslots by auto.
      destruct (Z.eqb_spec k k') as [<-|Hne].
      + eexists. split; [reflexivity|]. cbn [refs cont]. split; [lia|]. symmetry. auto.
      + assert (k' < 32 * Z.of_nat (length st)) by (apply slot_of_range; auto; congruence).
        rewrite (proj2 (Z.ltb_lt _ _)) by lia. exists s. auto.
    - rewrite Forall_forall in Hv. auto. }
  exists c, st'. split; auto. split; [|split; [|split]].
  - constructor; auto.
    + intros k' Hk'. apply refcount_slot; auto; [lia|]. rewrite Hslots by lia.
      rewrite uses_cons. unfold refers. rewrite W3', W1. cbn [negb andb].
      destruct (Z.eqb_spec k k') as [<-|Hne].
      * eexists. split; [reflexivity|]. cbn [refs]. lia.
      * destruct (Z.ltb_spec k' (32 * Z.of_nat (length st))).
        -- assert (slot_of st k' <> None) as Q by (apply slot_of_range; auto; lia).
           destruct (slot_of st k') as [s|] eqn:Es; [|congruence]. exists s. split; auto.
           apply (con_refs_slot _ _ _ _ _ Hc); auto; lia.
        -- rewrite (proj2 (Z.ltb_lt _ _)) by lia. eexists. split; [reflexivity|]. cbn [refs new_uninit].
           destruct (uses k' hs) eqn:Q; auto.
           destruct (uses_pos k' hs ltac:(lia)) as (h & Hi & Hb & Hd).
           rewrite Forall_forall in Hv. destruct (Hv h Hi) as (_ & [?|(l' & Hl' & _)]); [congruence|]. lia.
    + constructor.
      * split.
        { unfold c. pose proof (tag_usize_range t). rewrite max_offset_val in Hmax. lia. }
        right. exists l. rewrite W1. auto.
      * rewrite Forall_forall. intros h Hin. apply Htr. auto.
  - intros h v Hin. apply Htr. auto.
  - unfold denotes. rewrite W3', W1, W4'. eauto.
  - intros Heq. rewrite Heq in W3'. discriminate.
Qed.

Lemma sgn_match (neg : bool) (m : Z) : (if neg then -1 else 1) * m = if neg then - m else m.
Proof. destruct neg; lia. Qed.

Lemma inline_spec P st hs v neg : consistent P st hs -> 0 <= v <= max_offset ->
  exists c, new_inline v neg = Ok c /\ consistent P st (c :: hs) /\
    denotes st c ((if neg then -1 else 1) * v) /\ c <> neg_zero.
Proof.
  intros [Hs Hr Hv Hsz Hsm] Hb. unfold new_inline. rewrite to_new_ok by auto.
  set (t := if negb (v =? 0) && neg then TInlineNeg else TInline).
  destruct (word_parts v t ltac:(lia)) as (W1 & W2 & W3 & W4). cbv zeta in *.
  set (c := 4 * v + tag_usize t) in *.
  assert (Z.testbit c 1 = true) as W3' by (rewrite W3; unfold t; destruct (negb (v =? 0) && neg); reflexivity).
  exists c. split; auto. split; [|split].
  - constructor; auto.
    + intros k Hk. rewrite Hr by auto. rewrite uses_cons. unfold refers. rewrite W3'. reflexivity.
    + constructor; auto. split; auto. unfold c. pose proof (tag_usize_range t). rewrite max_offset_val in Hb. lia.
  - unfold denotes. rewrite W3', W1, W4. unfold t. destruct (Z.eqb_spec v 0) as [->|Hne]; cbn [negb andb].
    + destruct neg; reflexivity.
    + destruct neg; reflexivity.
  - unfold neg_zero, c, t. destruct (Z.eqb_spec v 0) as [->|Hne]; cbn [negb andb tag_usize]; [lia|].
    destruct neg; cbn [tag_usize]; lia.
Qed.

Lemma mbind_ok {A B} (m : M A) (f : A -> M B) st a st' : m st = Ok (a, st') -> mbind m f st = f a st'.
Proof. intros E. unfold mbind. rewrite E. reflexivity. Qed.
Lemma mbind_panic {A B} (m : M A) (f : A -> M B) st : m st = Panic -> mbind m f st = Panic.
Proof. intros E. unfold mbind. rewrite E. reflexivity. Qed.
Lemma lift_ok {A} (r : res A) a st : r = Ok a -> lift r st = Ok (a, st).
Proof. intros ->. reflexivity. Qed.
Lemma lift_panic {A} (r : res A) st : r = Panic -> lift r st = Panic.
Proof. intros ->. reflexivity. Qed.
Lemma reads_ok {A} (f : istore -> res A) a st : f st = Ok a -> reads f st = Ok (a, st).
Proof. intros E. unfold reads. rewrite E. reflexivity. Qed.

Lemma new_slice_spec dbg P st hs l neg : consistent P st hs -> room P hs 0 -> wf 64 l -> l <> [] ->
  yields P hs (new_slice dbg l neg) st ((if neg then -1 else 1) * val 64 l).
Proof.
  intros Hc Hr Hw Hne. destruct (shrink_ok 64 l Hw) as (l' & E & Hw' & Hc' & Hval).
  { destruct l; [congruence|cbn; lia]. }
  unfold yields, new_slice. rewrite (mbind_ok _ _ _ _ _ (lift_ok _ _ _ E)). rewrite <- Hval.
  destruct (Nat.eqb (length l') 1 && (zget l' 0 <=? max_offset)) eqn:Ei.
  - apply andb_true_iff in Ei. destruct Ei as [E1 E2]. apply Nat.eqb_eq in E1. apply Z.leb_le in E2.
    destruct l' as [|x [|? ?]]; try discriminate. change (zget [x] 0) with x in *.
    assert (0 <= x) by (inversion Hw'; lia).
    destruct (inline_spec P st hs x neg Hc ltac:(lia)) as (c & Ec & Hcc & Hd & Hn).
    exists c, st. rewrite (lift_ok _ _ _ Ec). cbn [val]. rewrite Z.mul_0_r, Z.add_0_r.
    split; auto. split; auto. split; [apply keeps_refl|auto].
  - apply intern_spec; auto.
    apply andb_false_iff in Ei. destruct (canonical_cap 64 l' Hw' Hc') as [E1|E1].
    + destruct Ei as [Ei|Ei]; [rewrite E1 in Ei; discriminate|]. apply Z.leb_gt in Ei.
      destruct l' as [|x [|? ?]]; try discriminate. change (zget [x] 0) with x in *.
      cbn [val]. rewrite max_offset_val in Ei. lia.
    + destruct (Nat.leb_spec (length l') 1).
      * destruct Hc' as [Hc0 _]. destruct l' as [|x [|? ?]]; try congruence; [|cbn in *; lia].
        destruct Ei as [Ei|Ei]; [discriminate|]. apply Z.leb_gt in Ei. change (zget [x] 0) with x in *.
        cbn [val]. rewrite max_offset_val in Ei. lia.
      * pose proof (cap_mono 64 1 (length l' - 1) ltac:(lia)) as Hm. rewrite cap_1 in Hm.
        change (base 64) with (2 ^ 64) in Hm. lia.
Qed.

Lemma clone_spec dbg P st hs a : consistent P st hs -> room P hs 0 -> In a hs ->
  exists st', bi_clone dbg a st = Ok (a, st') /\ consistent P st' (a :: hs) /\ keeps st st' hs.
Proof.
  intros Hc Hroom Hin. pose proof Hc as [Hs Hr Hv Hsz Hsm]. unfold bi_clone. rewrite is_inline_bit.
  pose proof Hv as Hv'. rewrite Forall_forall in Hv'. pose proof (Hv' a Hin) as Ha.
  destruct (Z.testbit a 1) eqn:Hb.
  - exists st. split; auto. split; [|apply keeps_refl]. constructor; auto.
    intros k Hk. rewrite uses_cons. unfold refers. rewrite Hb. cbn [negb andb]. auto.
  - destruct Ha as (Ha & [|(l & Hlt & Hg & Hl)]); [congruence|].
    assert (0 <= a / 4) as Hd by (apply Z.div_pos; lia).
    apply try_get_slot in Hg; auto. destruct Hg as (s & Es & Rs & Cs).
    pose proof (con_refs_slot _ _ _ _ _ Hc Hd Es) as Hrs.
    pose proof (uses_le_live (a / 4) hs). unfold room in Hroom.
    rewrite to_offset_div.
    destruct (intern_incr_spec dbg st (a / 4) s Hs Hd Es ltac:(lia)) as (st' & E & Hs' & Hlen & Hsl).
    rewrite E. cbn [bind]. exists st'. split; auto.
    assert (forall h, In h hs -> valid st' h /\ (forall v, denotes st h v -> denotes st' h v)) as Htr.
    { intros h Hh. apply (valid_transfer st st' hs); auto; [lia|].
      intros k' s' Hk' Es' Hne _. rewrite Hsl by auto.
      destruct (Z.eqb_spec (a / 4) k') as [<-|].
      - eexists. split; [reflexivity|]. cbn [refs cont]. split; [lia|congruence].
      - exists s'. auto. }
    split.
    + constructor; auto; rewrite ?Hlen; auto.
      * intros k' Hk'. apply refcount_slot; auto; [lia|]. rewrite Hsl by lia.
        rewrite uses_cons. unfold refers. rewrite Hb. cbn [negb andb].
        destruct (Z.eqb_spec (a / 4) k') as [<-|].
        -- eexists. split; [reflexivity|]. cbn [refs]. lia.
        -- assert (slot_of st k' <> None) as Q by (apply slot_of_range; auto; lia).
           destruct (slot_of st k') as [s'|] eqn:Es'; [|congruence]. exists s'. split; auto.
           apply (con_refs_slot _ _ _ _ _ Hc); auto; lia.
      * constructor; [apply Htr; auto|]. apply Forall_forall. intros h Hh. apply Htr. auto.
    + intros h v Hh. apply Htr. auto.
Qed.

Lemma drop_spec P st hs a : consistent P st (a :: hs) ->
  exists st', bi_drop a st = Ok (tt, st') /\ consistent P st' hs /\ keeps st st' hs.
Proof.
  intros Hc. pose proof Hc as [Hs Hr Hv Hsz Hsm]. unfold bi_drop. rewrite is_inline_bit.
  pose proof Hv as Hv'. rewrite Forall_forall in Hv'. pose proof (Hv' a (or_introl eq_refl)) as Ha.
  destruct (Z.testbit a 1) eqn:Hb.
  - exists st. split; auto. split; [|apply keeps_refl]. constructor; auto.
    + intros k Hk. rewrite Hr by auto. rewrite uses_cons. unfold refers. rewrite Hb. auto.
    + inversion Hv; auto.
  - destruct Ha as (Ha & [|(l & Hlt & Hg & Hl)]); [congruence|].
    assert (0 <= a / 4) as Hd by (apply Z.div_pos; lia).
    apply try_get_slot in Hg; auto. destruct Hg as (s & Es & Rs & Cs).
    pose proof (con_refs_slot _ _ _ _ _ Hc Hd Es) as Hrs.
    rewrite uses_cons in Hrs. unfold refers in Hrs. rewrite Hb, Z.eqb_refl in Hrs. cbn [negb andb] in Hrs.
    rewrite to_offset_div.
    destruct (intern_decr_spec st (a / 4) s Hs Hd Es) as (st' & E & Hs' & Hlen & Hsl).
    rewrite E. cbn [bind]. exists st'. split; auto.
    assert (forall h, In h hs -> valid st' h /\ (forall v, denotes st h v -> denotes st' h v)) as Htr.
    { intros h Hh. apply (valid_transfer st st' hs); auto; [lia| |apply Hv'; cbn; auto].
      intros k' s' Hk' Es' Hne Hu. rewrite Hsl by auto.
      destruct (Z.eqb_spec (a / 4) k') as [<-|].
      - eexists. split; [reflexivity|]. cbn [refs cont].
        rewrite (proj2 (Z.eqb_neq (refs s) 0)) by lia. split; [lia|congruence].
      - exists s'. auto. }
    split.
    + constructor; auto; rewrite ?Hlen; auto.
      * intros k' Hk'. apply refcount_slot; auto; [lia|]. rewrite Hsl by lia.
        destruct (Z.eqb_spec (a / 4) k') as [<-|Hne].
        -- eexists. split; [reflexivity|]. cbn [refs]. rewrite (proj2 (Z.eqb_neq (refs s) 0)) by lia. lia.
        -- assert (slot_of st k' <> None) as Q by (apply slot_of_range; auto; lia).
           destruct (slot_of st k') as [s'|] eqn:Es'; [|congruence]. exists s'. split; auto.
           rewrite (con_refs_slot _ _ _ k' _ Hc ltac:(lia) Es'). rewrite uses_cons. unfold refers.
           rewrite (proj2 (Z.eqb_neq (a / 4) k')) by auto. rewrite andb_false_r. auto.
      * apply Forall_forall. intros h Hh. apply Htr. auto.
    + intros h v Hh. apply Htr. auto.
Qed.

(** ** Shape of the operations *)

(** [op] computes [v] from operands denoting [x] and [y] (with signs as on the handles). *)
Definition computes (op : Z -> Z -> M Z) (n : Z) (Q : Z -> Z -> Prop) (x y v : Z) : Prop :=
  forall P st hs a b, consistent P st hs -> room P hs n -> In a hs -> In b hs -> Q a b ->
    denotes st a x -> denotes st b y -> yields P hs (op a b) st v.

Lemma room_le P hs n m : m <= n -> room P hs n -> room P hs m.
Proof. unfold room. lia. Qed.
Lemma room_cons P h hs n : room P hs (n + 1) -> room P (h :: hs) n.
Proof. unfold room. pose proof (live_cons_le h hs). lia. Qed.
Lemma room_uncons P h hs n : room P (h :: hs) n -> room P hs n.
Proof. unfold room. pose proof (live_cons_le h hs). lia. Qed.
Lemma room_perm P hs hs' n : Permutation hs hs' -> room P hs n -> room P hs' n.
Proof. unfold room. intros Hp. rewrite (live_perm _ _ Hp). auto. Qed.

(** Get the slices of two handles and rewrite the reads. *)
Lemma with_slices_ok {A} a b la lb (f : list Z -> list Z -> M A) st : has_slice st a la -> has_slice st b lb ->
  with_slices a b f st = f la lb st.
Proof.
  intros (Ea & _) (Eb & _). unfold with_slices.
  rewrite (mbind_ok _ _ _ _ _ (reads_ok (fun st => bi_slice st a) _ _ Ea)).
  rewrite (mbind_ok _ _ _ _ _ (reads_ok (fun st => bi_slice st b) _ _ Eb)). auto.
Qed.

Lemma yields_drop_last P st hs m x v : yields P (x :: hs) m st v ->
  yields P hs (let! c := m in let! _ := bi_drop x in ret c) st v.
Proof.
  intros (c & st1 & E & C & K & D & N). unfold yields. rewrite (mbind_ok _ _ _ _ _ E).
  destruct (drop_spec P st1 (c :: hs) x) as (st2 & E2 & C2 & K2).
  { eapply con_perm; [|exact C]. apply perm_swap. }
  exists c, st2. rewrite (mbind_ok _ _ _ _ _ E2). split; auto. split; auto. split; [|split; auto].
  - intros h z Hh Hz. apply K2; [cbn; auto|]. apply K; cbn; auto.
  - apply K2; cbn; auto.
Qed.

Lemma yields_ext P st hs m m' v : (forall st, m st = m' st) -> yields P hs m st v -> yields P hs m' st v.
Proof. intros He (c & st' & E & H). exists c, st'. rewrite <- He. auto. Qed.

Lemma mbind_assoc {A B C} (m : M A) (f : A -> M B) (g : B -> M C) st :
  mbind (mbind m f) g st = mbind m (fun a => mbind (f a) g) st.
Proof. unfold mbind. destruct (m st) as [[a st']| |]; reflexivity. Qed.

Lemma yields_perm P st hs hs' m v : Permutation hs hs' -> yields P hs m st v -> yields P hs' m st v.
Proof.
  intros Hp (c & st' & E & C & K & D & N). exists c, st'. split; auto. split; [|split; auto].
  - eapply con_perm; [|exact C]. constructor. auto.
  - eapply keeps_incl; [exact K|]. intros h Hh. eapply Permutation_in; [symmetry|]; eauto.
Qed.

Lemma by_val_spec op P st hs a b v : yields P (a :: b :: hs) (op a b) st v -> yields P hs (by_val op a b) st v.
Proof.
  intros H. apply (yields_ext _ _ _ (let! c := (let! c := op a b in let! _ := bi_drop b in ret c) in let! _ := bi_drop a in ret c)).
  { intros st0. unfold by_val, mbind. destruct (op a b st0) as [[c st1]| |]; cbn [bind]; auto.
    destruct (bi_drop b st1) as [[? st2]| |]; cbn [bind]; auto. }
  apply yields_drop_last, yields_drop_last. eapply yields_perm; [|exact H]. apply perm_swap.
Qed.

Lemma by_val_ref_spec op P st hs a b v : yields P (a :: hs) (op a b) st v -> yields P hs (by_val_ref op a b) st v.
Proof. apply yields_drop_last. Qed.
Lemma by_ref_val_spec op P st hs a b v : yields P (b :: hs) (op a b) st v -> yields P hs (by_ref_val op a b) st v.
Proof. apply yields_drop_last. Qed.
