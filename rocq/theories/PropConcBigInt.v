(** C157: BigInts made, cloned, read and dropped by several threads. *)
From Coq Require Import ZArith List Bool PeanoNat Lia.
From Verif Require Import Base Words Spec Arith BitSliceModel BitSliceProofs InternModel InternProofs BigIntModel BigIntSpec BigIntProofs BigIntOps
  ConcInternModel ConcInternSpec ConcInternProofs ConcInternMore PropConc PropInternOverlap ConcBigIntModel.
Import ListNotations.
Local Open Scope Z_scope.

(** [w] is a BigInt that some thread made from the integer [x] and that has not been dropped. *)
Definition made (cf : iconf (list Z)) (x w : Z) : Prop :=
  exists l, wf 64 l /\ canonical l /\ val 64 l = Z.abs x /\ is_word cf l (x <? 0) w.

(** Two threads make different BigInts; the steps of the two calls alternate.  Both get the same word: the BigInts
    compare equal, and one of them is not the integer it was made from. *)
Theorem C157_refuted : exists acts x y w w', let cf := run true 2 acts in
  made cf x w /\ made cf y w' /\ x <> y /\ bi_eq (ConcInternModel.istore cf) w w' = Ok true /\ ~ denotes (ConcInternModel.istore cf) w x.
Proof.
  exists ([Begin 0 (CAdd [0; 1]); Go 0; Go 0; Go 0; Go 0; Begin 0 (CDecr 0); Go 0; Begin 0 (CAdd [0; 5]); Begin 1 (CAdd [0; 7])] ++ concat (repeat [Go 0; Go 1] 8)).
  exists (5 * 2 ^ 64), (7 * 2 ^ 64), 0, 0. split; [|split; [|split; [discriminate|]]].
  - exists [0; 5]. split; [repeat constructor; vm_compute; discriminate|]. split; [split; [|left]; discriminate|]. split; [vm_compute; reflexivity|].
    unfold is_word. change (Nat.eqb (length [0; 5]) 1) with false. cbn [andb]. exists 1%nat, (Handle 0 [0; 5] (Held 0)). repeat split; try (vm_compute; reflexivity). discriminate.
  - exists [0; 7]. split; [repeat constructor; vm_compute; discriminate|]. split; [split; [|left]; discriminate|]. split; [vm_compute; reflexivity|].
    unfold is_word. change (Nat.eqb (length [0; 7]) 1) with false. cbn [andb]. exists 2%nat, (Handle 0 [0; 7] (Held 0)). repeat split; try (vm_compute; reflexivity). discriminate.
  - split; [vm_compute; reflexivity|]. intros (l & E & V). vm_compute in E. injection E as <-. vm_compute in V. discriminate.
Qed.
Print Assumptions C157_refuted.

Lemma word_mod d k : 0 <= k < 4 -> (4 * d + k) mod 4 = k.
Proof. intros H. rewrite Z.add_comm, Z.mul_comm, Z_mod_plus_full. apply Z.mod_small; auto. Qed.
Lemma word_div d k : 0 <= k < 4 -> (4 * d + k) / 4 = d.
Proof. intros H. rewrite Z.add_comm, Z.mul_comm, Z.div_add by lia. rewrite Z.div_small; auto. Qed.

(** Small BigInts (magnitudes below 2^62) are not affected by anything other threads do. *)
Theorem C157_small_partial : forall dbg n acts x w, let cf := run dbg n acts in
  Z.abs x < 2 ^ 62 -> made cf x w -> denotes (ConcInternModel.istore cf) w x.
Proof.
  intros dbg n acts x w cf Hx (l & W & C & V & M). unfold is_word in M.
  assert (length l = 1%nat) as L by (apply (canonical_one l W C); lia).
  destruct l as [|d [|? ?]]; try discriminate L. cbn [val] in V. rewrite Z.mul_0_r, Z.add_0_r in V.
  change (zget [d] 0) with d in M. rewrite max_offset_val in M. rewrite (proj2 (Z.leb_le d _)) in M by lia.
  cbn [length Nat.eqb andb] in M. unfold new_inline in M. rewrite to_new_ok in M by (rewrite max_offset_val; lia).
  assert (w = 4 * d + tag_usize (if negb (d =? 0) && (x <? 0) then TInlineNeg else TInline)) as -> by congruence. unfold denotes. pose proof (Z.ltb_spec x 0) as Hs.
  destruct (Z.eqb_spec d 0) as [E0|E0], (Z.ltb_spec x 0) as [Hn|Hn]; cbn [negb andb tag_usize].
  all: rewrite testbit1_mod4, odd_mod4, word_mod, word_div by lia; cbn; destruct d; lia.
Qed.
Print Assumptions C157_small_partial.

Lemma eq_slices st a b la lb x y : has_slice st a la -> has_slice st b lb -> denotes st a x -> denotes st b y ->
  a <> neg_zero -> b <> neg_zero -> bi_eq st a b = Ok (x =? y).
Proof.
  intros Sa Sb Hx Hy Na Nb. pose proof Sa as (Ra & Wa & Ca & Da & Ina & Bga & Pa). pose proof Sb as (Rb & Wb & Cb & Db & Inb & Bgb & Pb).
  pose proof (proj1 (Da x) Hx) as Ex. pose proof (proj1 (Db y) Hy) as Ey.
  pose proof (val_nonneg 64 la Wa). pose proof (val_nonneg 64 lb Wb).
  unfold bi_eq. destruct (Z.eqb_spec a b) as [->|Hne].
  { assert (x = y) as -> by (apply Db in Hx; congruence). rewrite Z.eqb_refl. auto. }
  destruct (tag_eqb (tag_of a) (tag_of b) && negb (tag_inline (tag_of a))) eqn:Et.
  - apply andb_true_iff in Et. destruct Et as [Et1 Et2]. apply tag_eqb_eq in Et1.
    assert (Z.odd a = Z.odd b) as Hodd by (rewrite <- !is_negative_odd; unfold is_negative; rewrite Et1; auto).
    rewrite Ra, Rb. cbn [bind]. f_equal.
    apply eq_true_iff_eq. rewrite list_eqb_ok, Z.eqb_eq. rewrite Ex, Ey, Hodd. split.
    + intros ->. auto.
    + intros Hv. apply (canonical_inj 64); auto. destruct (Z.odd b); lia.
  - f_equal. symmetry. apply andb_false_iff in Et.
    destruct (Z.eqb_spec x y) as [Exy|]; [|auto]. exfalso.
    pose proof (word_split a Pa) as Wda. pose proof (word_split b Pb) as Wdb.
    destruct (Z.testbit a 1) eqn:Ia; destruct (Z.testbit b 1) eqn:Ib.
    + destruct (has_slice_inline _ _ _ Sa Ia) as [Ia1 Ia2]. destruct (has_slice_inline _ _ _ Sb Ib) as [Ib1 Ib2].
      assert (Z.odd a <> Z.odd b) as Hod.
      { intros Hod. apply Hne. rewrite Wda, Wdb. rewrite (tag_of_bits a), (tag_of_bits b), Ia, Ib, Hod. f_equal.
        rewrite Ex, Ey, Hod in Exy. destruct (Z.odd b); lia. }
      assert (a / 4 = 0 /\ b / 4 = 0) as [Za Zb] by (destruct (Z.odd a), (Z.odd b); try congruence; lia).
      rewrite Za, tag_of_bits, Ia in Wda. rewrite Zb, tag_of_bits, Ib in Wdb.
      destruct (Z.odd a), (Z.odd b); try congruence; cbn in Wda, Wdb; subst a b; [apply Na|apply Nb]; reflexivity.
    + destruct (has_slice_inline _ _ _ Sa Ia) as [Ia1 Ia2]. specialize (Bgb eq_refl). destruct (Z.odd a), (Z.odd b); lia.
    + destruct (has_slice_inline _ _ _ Sb Ib) as [Ib1 Ib2]. specialize (Bga eq_refl). destruct (Z.odd a), (Z.odd b); lia.
    + specialize (Bga eq_refl). specialize (Bgb eq_refl). rewrite (tag_of_bits a), (tag_of_bits b), Ia, Ib in Et.
      destruct (Z.odd a), (Z.odd b); cbn in Et; try lia; destruct Et; discriminate.
Qed.

Section OneMaker.
Context (dbg : bool) (n : nat) (acts : list (action (list Z))).
Let cf := run dbg n acts.
Context (HN : counts_fit list_eqb dbg (start n) acts) (H1 : writers_alone list_eqb dbg (start n) acts).

Lemma made_valid x w : made cf x w -> valid (ConcInternModel.istore cf) w /\ denotes (ConcInternModel.istore cf) w x /\ w <> neg_zero.
Proof.
  intros (l & W & C & V & M). unfold is_word in M.
  destruct (Nat.eqb (length l) 1 && (zget l 0 <=? max_offset)) eqn:E.
  - apply andb_true_iff in E. destruct E as [E1 E2]. apply Nat.eqb_eq in E1. apply Z.leb_le in E2. rewrite max_offset_val in E2.
    destruct l as [|d [|? ?]]; try discriminate E1. change (zget [d] 0) with d in *. cbn [val] in V. rewrite Z.mul_0_r, Z.add_0_r in V.
    split; [|split; [apply (C157_small_partial dbg n acts x w); [lia|]|]].
    + unfold new_inline in M. rewrite to_new_ok in M by (rewrite max_offset_val; lia).
      assert (w = 4 * d + tag_usize (if negb (d =? 0) && (x <? 0) then TInlineNeg else TInline)) as -> by congruence. split.
      * destruct (negb (d =? 0) && (x <? 0)); cbn [tag_usize]; lia.
      * left. destruct (negb (d =? 0) && (x <? 0)); cbn [tag_usize]; rewrite testbit1_mod4, word_mod by lia; reflexivity.
    + exists [d]. split; auto. split; auto. split; [cbn [val]; lia|]. unfold is_word. change (zget [d] 0) with d. rewrite max_offset_val.
      rewrite (proj2 (Z.leb_le d _)) by lia. exact M.
    + unfold new_inline in M. rewrite to_new_ok in M by (rewrite max_offset_val; lia). assert (w = 4 * d + tag_usize (if negb (d =? 0) && (x <? 0) then TInlineNeg else TInline)) as -> by congruence. unfold neg_zero.
      destruct (Z.eqb_spec d 0); cbn [negb andb]; destruct (x <? 0); cbn [tag_usize]; lia.
  - destruct M as (m & h & Eh & Hg & Hv & Hw).
    destruct (C62_overlapping_partial (list Z) list_eqb dbg n 0 acts) as [Hh _]; auto.
    { intros p q. apply list_eqb_ok. }
    specialize (Hh m h Eh Hg). rewrite Hv in Hh.
    destruct (run_inv list_eqb dbg n 0 acts HN) as [N HI]. destruct (ij_handles _ _ HI _ _ Eh) as (Hk & s & Es & Hc).
    assert (hid h <= max_offset) as Hk2. { unfold to_new in Hw. destruct (Z.leb_spec (hid h) max_offset); [auto|discriminate]. }
    rewrite to_new_ok in Hw by lia. assert (w = 4 * hid h + tag_usize (if x <? 0 then TNeg else TNone)) as -> by congruence. rewrite max_offset_val in Hk2.
    assert (2 ^ 62 <= val 64 l) as Hbig.
    { apply andb_false_iff in E. destruct E as [E|E].
      - apply Nat.eqb_neq in E. destruct (Z.lt_ge_cases (val 64 l) (2 ^ 64)) as [X|X]; [|lia]. apply (canonical_one l W C) in X. contradiction.
      - apply Z.leb_gt in E. rewrite max_offset_val in E. destruct (Z.lt_ge_cases (val 64 l) (2 ^ 62)) as [X|X]; auto.
        assert (length l = 1%nat) as L by (apply (canonical_one l W C); lia). destruct l as [|d [|? ?]]; try discriminate L.
        change (zget [d] 0) with d in E. cbn [val] in X. lia. }
    assert (Z.testbit (4 * hid h + tag_usize (if x <? 0 then TNeg else TNone)) 1 = false) as T1.
    { destruct (x <? 0); cbn [tag_usize]; rewrite testbit1_mod4, word_mod by lia; reflexivity. }
    assert ((4 * hid h + tag_usize (if x <? 0 then TNeg else TNone)) / 4 = hid h) as T2.
    { destruct (x <? 0); cbn [tag_usize]; apply word_div; lia. }
    split; [split; [destruct (x <? 0); cbn [tag_usize]; lia|right; exists l; rewrite T2; split; [|auto]]|split].
    + unfold slot_of in Es. rewrite (proj2 (Z.ltb_ge _ _)) in Es by lia. assert (Z.to_nat (hid h) < length (flat (ConcInternModel.istore cf)))%nat as X by (apply nth_error_Some; unfold cf, run, start; congruence).
      rewrite length_flat in X by apply (ij_shape _ _ HI). lia.
    + unfold denotes. rewrite T1, T2. exists l. split; auto. rewrite V.
      destruct (Z.ltb_spec x 0); cbn [tag_usize]; rewrite odd_mod4, word_mod by lia; cbn [Z.odd]; lia.
    + unfold neg_zero. intros X. rewrite X in T1. discriminate T1.
Qed.
End OneMaker.

(** As long as calls that make a large BigInt overlap no other such call, unless all of them make numbers that are there already,
    and whatever clones, drops and reads of other threads overlap them, every BigInt is the integer it was made from, and equality of BigInts is equality of integers. *)
Theorem C157_values_partial : forall dbg n acts, let cf := run dbg n acts in
  counts_fit list_eqb dbg (start n) acts -> writers_alone list_eqb dbg (start n) acts ->
  (forall x w, made cf x w -> denotes (ConcInternModel.istore cf) w x) /\
  (forall x y w w', made cf x w -> made cf y w' -> bi_eq (ConcInternModel.istore cf) w w' = Ok (x =? y)).
Proof.
  intros dbg n acts cf HN H1. split; [intros x w M; apply (made_valid dbg n acts HN H1 x w M)|].
  intros x y w w' M M'. destruct (made_valid dbg n acts HN H1 x w M) as (V & D & N), (made_valid dbg n acts HN H1 y w' M') as (V' & D' & N').
  destruct (run_inv list_eqb dbg n 0 acts HN) as [k HI].
  destruct (valid_slice _ w (ij_shape _ _ HI) V) as (l & S), (valid_slice _ w' (ij_shape _ _ HI) V') as (l' & S').
  eapply eq_slices; eauto.
Qed.
Print Assumptions C157_values_partial.

(** ** After the threads *)

(** All the values handed to the interner are limbs of numbers that need it. *)
Definition large (l : list Z) : Prop := wf 64 l /\ canonical l /\ 2 ^ 62 <= val 64 l.
Definition adds_large (acts : list (action (list Z))) : Prop :=
  forall t l, In (Begin t (CAdd l)) acts -> large l.

(** The large BigInts that have not been dropped, the signs given by [s]. *)
Fixpoint words (s : nat -> bool) (n : nat) (hs : list (handle (list Z))) : list Z :=
  match hs with
  | [] => []
  | h :: r =>
    match hst h with
    | Gone => words s (S n) r
    | _ => 4 * hid h + (if s n then 1 else 0) :: words s (S n) r
    end
  end.

Definition pc_val (p : ipc (list Z)) : option (list Z) :=
  match p with
  | FindChunk v _ | FindRefs v _ _ | FindVal v _ _ _ | IncrLive v _ _ | IncrDead v _ _ | SetVal v _ _
  | PushHead v | PushTail v | PushLink v _ => Some v
  | _ => None
  end.
Definition all_large (cf : iconf (list Z)) : Prop :=
  (forall m h, nth_error (handles cf) m = Some h -> large (hval h)) /\
  (forall t p v, nth_error (ithreads cf) t = Some (Some p) -> pc_val p = Some v -> large v).

Lemma upd_cases {A} (l : list A) i x j y : nth_error (upd l i x) j = Some y -> nth_error l j = Some y \/ (i = j /\ x = y).
Proof.
  revert i j. induction l as [|z l IH]; intros [|i] [|j] H; cbn in *; auto.
  - injection H as ->. auto.
  - destruct (IH i j H) as [?|[-> ->]]; auto.
Qed.

Lemma large_thread cf t p : all_large cf -> (forall q v, p = Some q -> pc_val q = Some v -> large v) -> all_large (set_thread cf t p).
Proof.
  intros [A B] H. split; [exact A|]. cbn [set_thread ithreads]. intros t' q v E. apply upd_cases in E. destruct E as [E|[_ ->]]; eauto.
Qed.
Lemma large_store cf st : all_large cf -> all_large (set_store cf st).
Proof. intros [A B]. split; auto. Qed.
Lemma large_handle cf m x : all_large cf -> all_large (set_handle cf m x).
Proof.
  intros [A B]. unfold set_handle. destruct (nth_error (handles cf) m) as [h|] eqn:E; [|split; auto]. split; [|exact B].
  cbn [handles]. intros m' h' E'. apply upd_cases in E'. destruct E' as [E'|[_ <-]]; [eauto|cbn [hval]; eauto].
Qed.
Lemma large_add cf k v : all_large cf -> large v -> all_large (add_handle cf k v).
Proof.
  intros [A B] L. split; [|exact B]. cbn [add_handle handles]. intros m h E. destruct (Nat.lt_ge_cases m (length (handles cf))) as [X|X].
  - rewrite nth_error_app1 in E by auto. eauto.
  - rewrite nth_error_app2 in E by auto. destruct (m - length (handles cf))%nat as [|[|?]]; try discriminate. injection E as <-. auto.
Qed.
Lemma large_unborrow cf m : all_large cf -> all_large (unborrow cf m).
Proof. intros H. unfold unborrow. destruct (nth_error (handles cf) m) as [[? ? [| |]]|]; auto. apply large_handle. auto. Qed.
Lemma large_read cf m o : all_large cf -> all_large (add_read cf m o).
Proof. intros [A B]. split; auto. Qed.

Lemma large_step dbg cf a : all_large cf -> (forall t l, a = Begin t (CAdd l) -> large l) -> all_large (iconf_step list_eqb dbg cf a).
Proof.
  intros H L. destruct a as [t c|t]; cbn [iconf_step].
  - destruct (nth_error (ithreads cf) t) as [[p|]|]; auto. destruct c as [v|m|m|m]; cbn [begin_call].
    + apply large_thread; auto. intros q v' E E'. injection E as <-. cbn in E'. injection E' as <-. eauto.
    + destruct (nth_error (handles cf) m) as [[k v [| |]]|]; auto. apply large_thread; [apply large_handle; auto|]. intros q v' E E'. injection E as <-. discriminate.
    + destruct (nth_error (handles cf) m) as [[k v [[|b]| |]]|]; auto. apply large_thread; [apply large_handle; auto|]. intros q v' E E'. injection E as <-. discriminate.
    + destruct (nth_error (handles cf) m) as [[k v [| |]]|]; auto. apply large_thread; [apply large_handle; auto|]. intros q v' E E'. injection E as <-. discriminate.
  - destruct (nth_error (ithreads cf) t) as [[p|]|] eqn:E; auto. pose proof (proj2 H t p) as LP. specialize (fun v => LP v E).
    assert (forall v, pc_val p = Some v -> large v) as LP' by auto. clear LP E.
    assert (forall cf', all_large cf' -> forall q, (forall v, pc_val q = Some v -> pc_val p = Some v) -> all_large (set_thread cf' t (Some q))) as G.
    { intros cf' H' q K. apply large_thread; auto. intros q' v E E'. injection E as <-. auto. }
    assert (forall cf', all_large cf' -> all_large (finish cf' t)) as Fi. { intros cf' H'. apply large_thread; auto. discriminate. }
    destruct p; cbn [istep pc_val] in *; unfold with_store.
    all: repeat match goal with
      | |- context [match ?x with _ => _ end] => destruct x eqn:?
      | |- context [if ?x then _ else _] => destruct x
      end; auto; try (apply G; [auto using large_store, large_handle|cbn [pc_val]; congruence]).
    all: try (apply Fi); auto using large_store, large_handle, large_unborrow, large_read.
    all: try (apply large_add; [auto using large_store, large_handle, large_unborrow, large_read|]; auto).
    match goal with E : nth_error (handles _) _ = Some ?h |- _ => apply (proj1 H _ h E) end.
Qed.

Lemma large_exec dbg acts : forall cf, all_large cf -> adds_large acts -> all_large (iexec list_eqb dbg acts cf).
Proof.
  induction acts as [|a acts IH]; intros cf H L; [exact H|]. cbn [iexec fold_left]. apply IH.
  - apply large_step; auto. intros t l ->. apply (L t l). left. auto.
  - intros t l I. apply (L t l). right. auto.
Qed.

Lemma words_in s hs : forall n h', In h' (words s n hs) -> exists m h, nth_error hs m = Some h /\ hst h <> Gone /\ h' = 4 * hid h + (if s (n + m)%nat then 1 else 0).
Proof.
  induction hs as [|h hs IH]; intros n h' I; [contradiction|]. cbn [words] in I.
  destruct (hst h) eqn:E.
  1,2: destruct I as [<-|I]; [exists 0%nat, h; rewrite Nat.add_0_r, E; repeat split; discriminate|].
  all: destruct (IH (S n) h' I) as (m & h0 & E1 & E2 & E3); exists (S m), h0; cbn [nth_error]; rewrite Nat.add_succ_r; auto.
Qed.

Lemma words_uses s k hs : forall n, uses k (words s n hs) = cnt (hw k) hs.
Proof.
  unfold uses, cnt. induction hs as [|h hs IH]; intros n; [reflexivity|]. cbn [words filter]. unfold hw at 1.
  destruct (hst h); cbn [filter].
  1,2: unfold refers at 1; rewrite testbit1_mod4, word_mod, word_div by (destruct (s n); lia);
    replace (Z.testbit (if s n then 1 else 0) 1) with false by (destruct (s n); reflexivity); cbn [negb andb]; rewrite andb_true_r;
    destruct (hid h =? k); cbn [length]; rewrite IH; reflexivity.
  rewrite andb_false_r. apply IH.
Qed.

(** When no call is in progress any more, the store agrees with the BigInts that are left in the way that the theorems
    about one thread ask for ([consistent]), and each is the integer it was made from: whatever one thread does with
    them from then on is covered by C41-C61. *)
Theorem C157_afterwards_partial : forall dbg n acts P (s : nat -> bool), let cf := run dbg n acts in let st := ConcInternModel.istore cf in
  counts_fit list_eqb dbg (start n) acts -> writers_alone list_eqb dbg (start n) acts -> adds_large acts -> quiet cf ->
  32 * Z.of_nat (length st) <= P + 32 -> P < 2 ^ 61 ->
  consistent P st (words s 0 (handles cf)) /\
  forall m h, nth_error (handles cf) m = Some h -> hst h <> Gone ->
    In (4 * hid h + (if s m then 1 else 0)) (words s 0 (handles cf)) /\
  denotes st (4 * hid h + (if s m then 1 else 0)) ((if s m then -1 else 1) * val 64 (hval h)).
Proof.
  intros dbg n acts P s cf st HN H1 HL HQ HP HP'.
  destruct (run_inv list_eqb dbg n 0 acts HN) as [N HI]. fold (start n) in HI. fold (run dbg n acts) in HI. fold cf in HI.
  destruct (C62_overlapping_partial (list Z) list_eqb dbg n 0 acts) as [Hh _]; auto.
  { intros p q. apply list_eqb_ok. }
  fold (start n) in Hh. fold (run dbg n acts) in Hh. fold cf in Hh. fold st in Hh.
  assert (all_large cf) as [AL _].
  { apply large_exec; auto. split; [intros [|m] h E; discriminate|]. intros t p v E. cbn in E.
    exfalso. clear - E. revert t E. induction n; intros [|t] E; cbn in E; try discriminate. eauto. }
  assert (forall m h, nth_error (handles cf) m = Some h -> 0 <= hid h < 32 * Z.of_nat (length st)) as R.
  { intros m h E. destruct (ij_handles _ _ HI _ _ E) as (Hk & x & Es & _). unfold slot_of in Es. rewrite (proj2 (Z.ltb_ge _ _)) in Es by lia.
    assert (Z.to_nat (hid h) < length (flat st))%nat as X by (apply nth_error_Some; unfold st; congruence).
    rewrite length_flat in X by apply (ij_shape _ _ HI). lia. }
  assert (forall (b : bool) (h : handle (list Z)), 0 <= hid h -> Z.testbit (4 * hid h + (if b then 1 else 0)) 1 = false /\ (4 * hid h + (if b then 1 else 0)) / 4 = hid h /\
    Z.odd (4 * hid h + (if b then 1 else 0)) = b) as T.
  { intros b h Hk. rewrite testbit1_mod4, odd_mod4, word_mod, word_div by (destruct b; lia). destruct b; auto. }
  split.
  - constructor; auto.
    + apply (ij_shape _ _ HI).
    + intros k Hk. rewrite words_uses.
      assert (exists x, slot_of st k = Some x) as (x & Ex).
      { unfold slot_of. rewrite (proj2 (Z.ltb_ge _ _)) by lia. destruct (nth_error (flat st) (Z.to_nat k)) eqn:E; eauto.
        apply nth_error_None in E. rewrite length_flat in E by apply (ij_shape _ _ HI). lia. }
      unfold refcount. pose proof (slot_at_offset st k (ij_shape _ _ HI) (proj1 Hk)) as X. destruct (offset_to_idx k) as [i j]. rewrite X, Ex.
      cbn [unwrap bind]. f_equal. rewrite (ij_refs _ _ HI k x (proj1 Hk) Ex). f_equal.
      assert (cnt (arr k) (ithreads cf) = 0%nat) as ->; [|lia].
      unfold quiet in HQ. clear - HQ. unfold cnt. induction HQ as [|p l -> F IH]; cbn; auto.
    + apply Forall_forall. intros w I. apply words_in in I. destruct I as (m & h & E & G & ->). cbn [Nat.add].
      pose proof (R m h E) as Rk. destruct (T (s m) h (proj1 Rk)) as (T1 & T2 & T3). split; [destruct (s m); lia|]. right.
      exists (hval h). rewrite T2. split; [lia|]. split; [apply (Hh m h E G)|]. apply (AL m h E).
  - intros m h E G. pose proof (R m h E) as Rk. destruct (T (s m) h (proj1 Rk)) as (T1 & T2 & T3). split.
    + assert (forall hs k m, nth_error hs m = Some h -> In (4 * hid h + (if s (k + m)%nat then 1 else 0)) (words s k hs)) as X.
      { clear - G. induction hs as [|h0 hs IH]; intros k [|m] E; cbn in E; try discriminate; cbn [words].
        - injection E as ->. rewrite Nat.add_0_r. destruct (hst h); [left; auto|left; auto|congruence].
        - rewrite Nat.add_succ_r. specialize (IH (S k) m E). destruct (hst h0); [right| right|]; exact IH. }
      apply (X _ 0%nat m E).
    + unfold denotes. rewrite T1, T2, T3. exists (hval h). split; [apply (Hh m h E G)|auto].
Qed.
Print Assumptions C157_afterwards_partial.


(** Two threads: 5 * 2^64, made by one, cloned by it while the other makes 7 * 2^64, read by the other, dropped. *)
Definition demo_acts : list (action (list Z)) :=
  (Begin 0 (CAdd [0; 5]) :: repeat (Go 0) 6 ++ [Begin 1 (CAdd [0; 7]); Go 1; Go 1; Begin 0 (CIncr 0); Go 1; Go 0]
   ++ repeat (Go 1) 6 ++ [Begin 1 (CGet 0); Go 1; Begin 0 (CDecr 1); Go 1; Go 0]).
Example C157_demo : writers_alone list_eqb true (start 2) demo_acts /\ counts_fit list_eqb true (start 2) demo_acts /\ adds_large demo_acts /\
  let cf := run true 2 demo_acts in quiet cf /\ made cf (5 * 2 ^ 64) 0 /\ made cf (- (7 * 2 ^ 64)) 5 /\ made cf (-3) 15 /\
  ConcInternModel.reads cf = [(0%nat, Some [0; 5])] /\ words (fun m => Nat.eqb m 2) 0 (handles cf) = [0; 5].
Proof.
  assert (H : forallb (fun k => let cf := iexec list_eqb true (firstn k demo_acts) (start 2) in
      Nat.leb (length (filter adding (ithreads cf))) 1 && Nat.leb (length (handles cf) + length (ithreads cf)) 10) (seq 0 (S (length demo_acts))) = true)
    by (vm_compute; reflexivity).
  assert (forall a1 a2, demo_acts = a1 ++ a2 -> let cf := iexec list_eqb true a1 (start 2) in
    (length (filter adding (ithreads cf)) <= 1)%nat /\ (length (handles cf) + length (ithreads cf) <= 10)%nat) as K.
  { intros a1 a2 E. rewrite forallb_forall in H. specialize (H (length a1)).
    rewrite E, firstn_app, Nat.sub_diag, firstn_all, app_nil_r in H. specialize (H ltac:(apply in_seq; rewrite app_length; lia)).
    apply andb_true_iff in H. destruct H as [X Y]. apply Nat.leb_le in X, Y. auto. }
  split; [apply C62_condition; intros a1 a2 E; apply (K a1 a2 E)|]. split.
  { intros a1 a2 k E cf'. destruct (K a1 a2 E) as [_ Y]. fold cf' in Y. unfold held, arriving.
    assert (forall A (f : A -> bool) l, (length (filter f l) <= length l)%nat) as F by (intros A f l; induction l as [|x l IH]; cbn; [lia|]; destruct (f x); cbn; lia).
    pose proof (F _ (fun h : handle (list Z) => (hid h =? k) && match hst h with Gone => false | _ => true end) (handles cf')).
    pose proof (F _ (fun p : option (ipc (list Z)) => match p with Some (SetVal _ i j) => idx_to_offset i j =? k | _ => false end) (ithreads cf')). lia. }
  split.
  { assert (forall d, 1 <= d < 2 ^ 64 -> large [0; d]) as Ld.
    { intros d Hd. split; [constructor; [change (Z.of_nat 64) with 64; lia|constructor; [change (Z.of_nat 64) with 64; lia|constructor]]|]. split; [split; [discriminate|left; cbn; lia]|].
      cbn [val]. change (base 64) with (2 ^ 64). lia. }
    intros t l I. assert (l = [0; 5] \/ l = [0; 7]) as [-> | ->]; [|apply Ld; lia|apply Ld; lia].
    unfold demo_acts in I. cbn [repeat app In] in I.
    repeat (destruct I as [I|I]; [first [discriminate I|left; congruence|right; congruence]|]). contradiction. }
  cbv zeta. split; [unfold quiet; replace (ithreads (run true 2 demo_acts)) with (@repeat (option (ipc (list Z))) None 2) by (vm_compute; reflexivity); repeat constructor|]. split; [|split; [|split; [|vm_compute; auto]]].
  - exists [0; 5]. split; [repeat constructor; vm_compute; discriminate|]. split; [split; [|left]; discriminate|]. split; [vm_compute; reflexivity|].
    unfold is_word. change (Nat.eqb (length [0; 5]) 1) with false. cbn [andb]. exists 0%nat, (Handle 0 [0; 5] (Held 0)). repeat split; try (vm_compute; reflexivity). discriminate.
  - exists [0; 7]. split; [repeat constructor; vm_compute; discriminate|]. split; [split; [|left]; discriminate|]. split; [vm_compute; reflexivity|].
    unfold is_word. change (Nat.eqb (length [0; 7]) 1) with false. cbn [andb]. exists 2%nat, (Handle 1 [0; 7] (Held 0)). repeat split; try (vm_compute; reflexivity). discriminate.
  - exists [3]. split; [repeat constructor; vm_compute; discriminate|]. split; [split; [|left]; discriminate|]. split; vm_compute; reflexivity.
Qed.
