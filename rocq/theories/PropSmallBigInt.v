(** Property C164: arithmetic on small BigInts does not touch the shared interner. *)
From Coq Require Import ZArith List Bool Lia Permutation.
From Verif Require Import Base Spec Arith Words BitSliceModel ElementModel BitwiseModel InternModel BigIntModel BigIntSpec BigIntProofs BigIntOps BigIntConv BigIntMore BigIntText BigIntRun PropBigInt
  BigIntExprModel PropBigIntExpr.
Import ListNotations.
Local Open Scope Z_scope.

(** ** Specification *)

(** Magnitudes of at most 62 bits, and the word that is such a BigInt. *)
Definition small (x : Z) : Prop := Z.abs x < 2 ^ 62.
Definition word (x : Z) : Z := 4 * Z.abs x + (if x <? 0 then 3 else 2).

Definition shifts (o : operator) : bool := match o with OShl | OShr => true | _ => false end.

Fixpoint literals (e : expr) : list Z :=
  match e with
  | Lit _ v => [v]
  | Cloned _ | VarVar _ _ _ => []
  | ExpVar _ e _ | VarExp _ _ e | Minus e => literals e
  | ExpExp _ e f | Power e f => literals e ++ literals f
  | ExpInt _ e _ v => v :: literals e
  end.

(** ** Proofs *)

Lemma word_mod x : word x mod 4 = if x <? 0 then 3 else 2.
Proof. unfold word. rewrite Z.add_comm, Z.mul_comm, Z_mod_plus_full. destruct (x <? 0); reflexivity. Qed.
Lemma word_bit x : Z.testbit (word x) 1 = true.
Proof. rewrite testbit1_mod4, word_mod. destruct (x <? 0); reflexivity. Qed.
Lemma word_inline x : is_inline (word x) = true.
Proof. rewrite is_inline_bit. apply word_bit. Qed.
Lemma word_odd x : Z.odd (word x) = (x <? 0).
Proof. rewrite odd_mod4, word_mod. destruct (x <? 0); reflexivity. Qed.
Lemma word_div x : word x / 4 = Z.abs x.
Proof.
  unfold word. rewrite Z.add_comm, Z.mul_comm, Z.div_add by lia. destruct (x <? 0); cbn; lia.
Qed.
Lemma word_denotes st x : denotes st (word x) x.
Proof. unfold denotes. rewrite word_bit, word_odd, word_div. destruct (Z.ltb_spec x 0); lia. Qed.
Lemma word_not_neg_zero x : word x <> neg_zero.
Proof. unfold word, neg_zero. destruct (Z.ltb_spec x 0); lia. Qed.
Lemma word_range x : small x -> 0 <= word x < 2 ^ 64.
Proof. unfold small, word. intros H. destruct (x <? 0); lia. Qed.
Lemma word_slice st x : bi_slice st (word x) = Ok [Z.abs x].
Proof. unfold bi_slice. rewrite word_inline, to_offset_div, word_div. reflexivity. Qed.

(** An inline handle that is not "minus zero" is the word of its value. *)
Lemma inline_word st c v : 0 <= c -> Z.testbit c 1 = true -> denotes st c v -> c <> neg_zero -> c = word v.
Proof.
  unfold denotes. intros H0 B D N. rewrite B in D. pose proof (Z.div_mod c 4 ltac:(lia)) as E. pose proof (Z.div_pos c 4 H0 ltac:(lia)).
  rewrite testbit1_mod4 in B. rewrite odd_mod4 in D. unfold word, neg_zero in *.
  destruct (mod4_cases c) as [M|[M|[M|M]]]; rewrite M in *; try discriminate B.
  - change (Z.odd 2) with false in D. cbv iota zeta in D. destruct (Z.ltb_spec v 0); lia.
  - change (Z.odd 3) with true in D. cbv iota zeta in D. destruct (Z.ltb_spec v 0); lia.
Qed.

Lemma words_consistent hs : Forall (fun h => exists x, small x /\ h = word x) hs -> consistent 8 [] hs.
Proof.
  intros F. constructor; cbn [length]; try lia; auto.
  - eapply Forall_impl; [|exact F]. intros h (x & S & ->). split; [apply word_range; auto|]. left. apply word_bit.
Qed.
Lemma words_live hs : Forall (fun h => exists x, small x /\ h = word x) hs -> live hs = 0%nat.
Proof.
  unfold live. induction 1 as [|h hs (x & S & ->) F IH]; auto. cbn [filter]. rewrite word_bit. auto.
Qed.

(** What succeeds in the empty store with a small result. *)
Lemma yields_word hs m v : yields 8 hs m [] v -> small v -> exists st', m [] = Ok (word v, st').
Proof.
  intros (c & st' & E & C & _ & D & N) S. exists st'. rewrite E. do 2 f_equal.
  pose proof (con_valid _ _ _ C) as V. inversion V as [|? ? [R V'] ?]; subst.
  destruct (Z.testbit c 1) eqn:B; [apply (inline_word st'); auto; lia|].
  destruct V' as [V'|(l & _ & G & _ & _ & L)]; [discriminate|]. exfalso. unfold denotes in D. rewrite B in D.
  destruct D as (l' & G' & D). rewrite G in G'. injection G' as <-. unfold small in S. destruct (Z.odd c); lia.
Qed.

(** Making a BigInt of limbs in the empty store gives an inline handle only without using the store. *)
Lemma new_slice_private dbg l neg x st' : new_slice dbg l neg [] = Ok (word x, st') -> forall st, new_slice dbg l neg st = Ok (word x, st).
Proof.
  unfold new_slice, mbind, lift, new_intern. intros E st. destruct (shrink l) as [l'| |]; cbn [bind] in *; try discriminate.
  destruct (Nat.eqb (length l') 1 && (zget l' 0 <=? max_offset)).
  - unfold lift in *. destruct (new_inline (zget l' 0) neg) as [c| |]; cbn [bind] in *; try discriminate. injection E as -> _. reflexivity.
  - exfalso. unfold mbind, lift in E. destruct (intern_add list_eqb dbg l' []) as [[k s]| |]; cbn [bind] in E; try discriminate.
    unfold to_new in E. destruct (k <=? max_offset); cbn [bind] in E; try discriminate. assert (word x = Z.lor (Z.shiftl k 2 mod 2 ^ 64) (tag_usize (if neg then TNeg else TNone))) as E' by congruence.
    pose proof (word_bit x) as W. rewrite E', Z.lor_spec in W.
    assert (Z.testbit (Z.shiftl k 2 mod 2 ^ 64) 1 = false) as Q by (rewrite Z.mod_pow2_bits_low, Z.shiftl_spec_low by lia; auto).
    rewrite Q in W. destruct neg; discriminate W.
Qed.

Definition limbs_only (dbg : bool) (m : M Z) : Prop :=
  exists r, forall st, m st = match r with Ok (l, neg) => new_slice dbg l neg st | Panic => Panic | Timeout => Timeout end.

Lemma private_of_yields dbg m hs v : limbs_only dbg m -> yields 8 hs m [] v -> small v -> forall st, m st = Ok (word v, st).
Proof.
  intros (r & H) Y S st. destruct (yields_word hs m v Y S) as (st' & E). rewrite H in E |- *.
  destruct r as [[l neg]| |]; try discriminate. eapply new_slice_private; eauto.
Qed.

Lemma with_words {A} x y (f : list Z -> list Z -> M A) st : with_slices (word x) (word y) f st = f [Z.abs x] [Z.abs y] st.
Proof. unfold with_slices, mbind, reads. rewrite word_slice. cbn [bind]. rewrite word_slice. reflexivity. Qed.

Lemma operate_limbs dbg o x y : shifts o = false -> limbs_only dbg (operate dbg o (word x) (word y)).
Proof.
  intros Hs. destruct o; try discriminate Hs; cbn [operate].
  - unfold bi_add. destruct (is_positive (word x)) eqn:P, (is_positive (word y)) eqn:Q;
    [ exists (do l <- elem_add 64 [Z.abs x] [Z.abs y] ;; Ok (l, is_negative (word x)))
    | exists (elem_sub 64 [Z.abs x] [Z.abs y])
    | exists (do ln <- elem_sub 64 [Z.abs x] [Z.abs y] ;; Ok (fst ln, negb (snd ln)))
    | exists (do l <- elem_add 64 [Z.abs x] [Z.abs y] ;; Ok (l, is_negative (word x))) ];
    intros st; unfold mbind at 1; rewrite with_words; unfold mbind, lift, ret;
    (destruct (elem_add 64 [Z.abs x] [Z.abs y]) + destruct (elem_sub 64 [Z.abs x] [Z.abs y]) as [[? ?]| |]); reflexivity.
  - unfold bi_sub. destruct (is_positive (word x)) eqn:P, (is_positive (word y)) eqn:Q;
    [ exists (elem_sub 64 [Z.abs x] [Z.abs y])
    | exists (do l <- elem_add 64 [Z.abs x] [Z.abs y] ;; Ok (l, is_negative (word x)))
    | exists (do l <- elem_add 64 [Z.abs x] [Z.abs y] ;; Ok (l, is_negative (word x)))
    | exists (do ln <- elem_sub 64 [Z.abs x] [Z.abs y] ;; Ok (fst ln, negb (snd ln))) ];
    intros st; unfold mbind at 1; rewrite with_words; unfold mbind, lift, ret;
    (destruct (elem_add 64 [Z.abs x] [Z.abs y]) + destruct (elem_sub 64 [Z.abs x] [Z.abs y]) as [[? ?]| |]); reflexivity.
  - exists (do l <- elem_mul 64 [Z.abs x] [Z.abs y] ;; Ok (l, negb (Bool.eqb (is_negative (word x)) (is_negative (word y))))).
    intros st. unfold bi_mul, mbind at 1. rewrite with_words. unfold lift. destruct (elem_mul 64 [Z.abs x] [Z.abs y]); reflexivity.
  - exists (do qr <- bit_div_long dbg 64 [Z.abs x] [Z.abs y] ;; Ok (fst qr, negb (Bool.eqb (is_negative (word x)) (is_negative (word y))))).
    intros st. unfold bi_div, mbind at 1. rewrite with_words. unfold mbind, lift, ret. destruct (bit_div_long dbg 64 [Z.abs x] [Z.abs y]) as [[? ?]| |]; reflexivity.
  - exists (do qr <- bit_div_long dbg 64 [Z.abs x] [Z.abs y] ;; Ok (snd qr, negb (Bool.eqb (is_negative (word x)) (is_negative (word y))))).
    intros st. unfold bi_rem, mbind at 1. rewrite with_words. unfold mbind, lift, ret. destruct (bit_div_long dbg 64 [Z.abs x] [Z.abs y]) as [[? ?]| |]; reflexivity.
  - exists (Ok (elem_bitop Z.land [Z.abs x] [Z.abs y], is_negative (word x))).
    intros st. unfold bi_bitand, bi_bitop, mbind at 1. rewrite with_words. reflexivity.
  - exists (Ok (elem_bitop Z.lor [Z.abs x] [Z.abs y], is_negative (word x))).
    intros st. unfold bi_bitor, bi_bitop, mbind at 1. rewrite with_words. reflexivity.
  - exists (Ok (elem_bitop Z.lxor [Z.abs x] [Z.abs y], is_negative (word x))).
    intros st. unfold bi_bitxor, bi_bitop, mbind at 1. rewrite with_words. reflexivity.
Qed.

Lemma two_words x y : small x -> small y -> Forall (fun h => exists z, small z /\ h = word z) [word x; word y].
Proof. intros. repeat constructor; eauto. Qed.

Lemma operate_word dbg o x y v : shifts o = false -> small x -> small y -> small v ->
  (consistent 8 [] [word x; word y] -> room 8 [word x; word y] 0 -> proper [] [word x; word y] (word x) x -> proper [] [word x; word y] (word y) y ->
   yields 8 [word x; word y] (operate dbg o (word x) (word y)) [] v) ->
  forall st, operate dbg o (word x) (word y) st = Ok (word v, st).
Proof.
  intros Hs Sx Sy Sv H. eapply private_of_yields; [apply operate_limbs; auto| |auto]. pose proof (two_words x y Sx Sy) as F. apply H.
  - apply words_consistent; auto.
  - unfold room. rewrite words_live by auto. lia.
  - split; [left; auto|]. split; [apply word_denotes|apply word_not_neg_zero].
  - split; [right; left; auto|]. split; [apply word_denotes|apply word_not_neg_zero].
Qed.

Lemma operate_private dbg o x y : shifts o = false -> small x -> small y -> right_op dbg o x y -> small (meaning o x y) ->
  forall st, operate dbg o (word x) (word y) st = Ok (word (meaning o x y), st).
Proof. intros Hs Sx Sy R Sv. apply operate_word; auto. intros C Rm Px Py. apply operate_right; auto. Qed.

Lemma one_word x : small x -> consistent 8 [] [word x] /\ room 8 [word x] 0.
Proof.
  intros S. assert (Forall (fun h => exists z, small z /\ h = word z) [word x]) as F by (repeat constructor; eauto).
  split; [apply words_consistent; auto|]. unfold room. rewrite words_live by auto. lia.
Qed.
Lemma no_words : consistent 8 [] [] /\ room 8 [] 0.
Proof. split; [apply words_consistent; constructor|vm_compute; discriminate]. Qed.

Lemma from_private dbg t v : std_ty t -> in_range t v = true -> small v -> forall st, bi_from dbg t v st = Ok (word v, st).
Proof.
  intros Ht Hv S. apply (private_of_yields dbg _ []); auto.
  - exists (do l <- int_to_arr dbg 64 (arr_size t) (Z.abs v) ;; Ok (l, isigned t && (v <? 0))). intros st. unfold bi_from, mbind, lift.
    destruct (int_to_arr dbg 64 (arr_size t) (Z.abs v)); reflexivity.
  - destruct no_words. apply from_spec; auto.
Qed.
Lemma clone_private dbg x st : bi_clone dbg (word x) st = Ok (word x, st).
Proof. unfold bi_clone. rewrite word_inline. reflexivity. Qed.
Lemma drop_private x st : bi_drop (word x) st = Ok (tt, st).
Proof. unfold bi_drop. rewrite word_inline. reflexivity. Qed.

Lemma cmp_private x y st : small x -> small y -> bi_cmp st (word x) (word y) = Ok (x ?= y).
Proof.
  intros Sx Sy. replace (bi_cmp st (word x) (word y)) with (bi_cmp [] (word x) (word y)) by (unfold bi_cmp; rewrite !word_slice; reflexivity).
  pose proof (words_consistent _ (two_words x y Sx Sy)) as C.
  apply (C47_ordering_partial 8 [] [word x; word y]); auto.
  - split; [left; auto|]. split; [apply word_denotes|apply word_not_neg_zero].
  - split; [right; left; auto|]. split; [apply word_denotes|apply word_not_neg_zero].
  - unfold small in *. lia.
Qed.
Lemma eq_private x y st : small x -> small y -> bi_eq st (word x) (word y) = Ok (x =? y).
Proof.
  intros Sx Sy. replace (bi_eq st (word x) (word y)) with (bi_eq [] (word x) (word y)) by (unfold bi_eq; rewrite !word_slice; reflexivity).
  pose proof (words_consistent _ (two_words x y Sx Sy)) as C.
  apply (C42_equality_is_value_equality 8 [] [word x; word y]); auto.
  - split; [left; auto|]. split; [apply word_denotes|apply word_not_neg_zero].
  - split; [right; left; auto|]. split; [apply word_denotes|apply word_not_neg_zero].
Qed.
Lemma eq_int_private dbg x st : small x -> bi_eq_int dbg t_i32 st (word x) 0 = Ok (x =? 0).
Proof.
  intros Sx. replace (bi_eq_int dbg t_i32 st (word x) 0) with (bi_eq_int dbg t_i32 [] (word x) 0) by (unfold bi_eq_int; rewrite !word_slice; reflexivity).
  destruct (one_word x Sx) as [C _]. apply (bi_eq_signed dbg t_i32 8 [] [word x]); auto.
  - left; auto.
  - apply word_denotes.
  - exact std_i32.
  - apply word_not_neg_zero.
  - right. discriminate.
Qed.
Lemma cmp_int_private dbg t x v st : std_ty t -> in_range t v = true -> small v -> small x -> bi_cmp_int dbg t (word x) v st = Ok (x ?= v, st).
Proof.
  intros Ht Hv Sv Sx. unfold bi_cmp_int. rewrite (mbind_ok _ _ _ _ _ (from_private dbg t v Ht Hv Sv st)).
  rewrite (mbind_ok _ _ _ _ _ (reads_ok (fun st => bi_cmp st (word x) (word v)) _ st (cmp_private x v st Sx Sv))).
  rewrite (mbind_ok _ _ _ _ _ (drop_private v st)). reflexivity.
Qed.

Lemma by_val_private op x y z st : (forall st, op (word x) (word y) st = Ok (word z, st)) ->
  by_val op (word x) (word y) st = Ok (word z, st) /\ by_val_ref op (word x) (word y) st = Ok (word z, st) /\
  by_ref_val op (word x) (word y) st = Ok (word z, st).
Proof.
  intros H. unfold by_val, by_val_ref, by_ref_val. rewrite !(mbind_ok _ _ _ _ _ (H st)).
  rewrite !(mbind_ok _ _ _ _ _ (drop_private y st)), !(mbind_ok _ _ _ _ _ (drop_private x st)). auto.
Qed.

Lemma small_0 : small 0. Proof. reflexivity. Qed.
Lemma small_1 : small 1. Proof. reflexivity. Qed.

Lemma pow_le x k n : 1 <= k <= n -> Z.abs (x ^ k) <= Z.abs (x ^ n).
Proof.
  intros H. rewrite !Z.abs_pow. destruct (Z.eq_dec x 0) as [->|N].
  - rewrite !Z.pow_0_l by lia. lia.
  - apply Z.pow_le_mono_r; lia.
Qed.

Lemma pow_loop_private dbg x n : small x -> small (x ^ n) -> forall fuel k y, (Z.to_nat y <= fuel)%nat -> 1 <= k -> 1 <= y -> k + y - 1 = n -> small y ->
  forall st, bi_pow_loop dbg fuel (word x) (word y) (word (x ^ k)) st = Ok ((word 1, word (x ^ n)), st).
Proof.
  intros Sx Sn. induction fuel as [|fuel IH]; intros k y Hf Hk Hy E Sy st; [lia|]. cbn [bi_pow_loop].
  rewrite (mbind_ok _ _ _ _ _ (cmp_int_private dbg t_i32 y 1 st std_i32 eq_refl small_1 Sy)).
  destruct (Z.compare_spec y 1) as [->|L|G]; [|lia|].
  - replace n with k by lia. reflexivity.
  - rewrite (mbind_ok _ _ _ _ _ (clone_private dbg x st)).
    assert (small (x ^ k)) as Sk by (unfold small in *; pose proof (pow_le x k n); lia).
    assert (x ^ k * x = x ^ (k + 1)) as Em by (rewrite Z.pow_add_r, Z.pow_1_r by lia; lia).
    assert (small (x ^ k * x)) as Sk' by (rewrite Em; unfold small in *; pose proof (pow_le x (k + 1) n); lia).
    destruct (by_val_private (bi_mul dbg) (x ^ k) x (x ^ k * x) st) as [E1 _].
    { intros s. exact (operate_private dbg OMul (x ^ k) x eq_refl Sk Sx I Sk' s). }
    rewrite (mbind_ok _ _ _ _ _ E1).
    assert (op_int dbg (bi_sub dbg) t_i32 (word y) 1 st = Ok (word (y - 1), st)) as E2.
    { unfold op_int. rewrite (mbind_ok _ _ _ _ _ (from_private dbg t_i32 1 std_i32 eq_refl small_1 st)).
      apply by_val_private. intros s. apply (operate_private dbg OSub y 1 eq_refl Sy small_1).
      - cbn [right_op]. unfold add_exact. right. right. left. lia.
      - cbn [meaning]. unfold small in *. lia. }
    rewrite (mbind_ok _ _ _ _ _ E2). rewrite Em. apply IH; try lia. unfold small in *. lia.
Qed.

Lemma pow_private dbg fuel x y st : small x -> small y -> 0 <= y <= Z.of_nat fuel -> small (x ^ y) ->
  bi_pow dbg fuel (word x) (word y) st = Ok (word (x ^ y), st).
Proof.
  intros Sx Sy Hy Sv. unfold bi_pow.
  rewrite (mbind_ok _ _ _ _ _ (reads_ok (fun st => bi_eq_int dbg t_i32 st (word y) 0) _ st (eq_int_private dbg y st Sy))).
  destruct (Z.eqb_spec y 0) as [->|N].
  - rewrite (mbind_ok _ _ _ _ _ (from_private dbg t_i32 1 std_i32 eq_refl small_1 st)).
    rewrite (mbind_ok _ _ _ _ _ (drop_private 0 st)), (mbind_ok _ _ _ _ _ (drop_private x st)). reflexivity.
  - rewrite (mbind_ok _ _ _ _ _ (clone_private dbg x st)).
    pose proof (pow_loop_private dbg x y Sx Sv fuel 1 y ltac:(lia) ltac:(lia) ltac:(lia) ltac:(lia) Sy st) as E. rewrite Z.pow_1_r in E.
    rewrite (mbind_ok _ _ _ _ _ E). rewrite (mbind_ok _ _ _ _ _ (drop_private 1 st)), (mbind_ok _ _ _ _ _ (drop_private x st)). reflexivity.
Qed.

Lemma neg_word x : small x -> x <> 0 -> bi_neg (word x) = word (- x).
Proof.
  intros S N. unfold bi_neg. pose proof (word_range x S). rewrite invert_neg_spec by lia. rewrite word_odd. unfold word.
  destruct (Z.ltb_spec x 0), (Z.ltb_spec (- x) 0); lia.
Qed.

(** The value of an expression all of whose operators are right: every operand and every result is small. *)
Notation ok dbg := (fun (o : operator) (x y : Z) => shifts o = false /\ right_op dbg o x y /\ small (meaning o x y)).
Notation okp fuel := (fun x y : Z => 0 <= y <= Z.of_nat fuel /\ small (x ^ y)).

Lemma nth_small xs i : Forall small xs -> small (nth i xs 0).
Proof.
  intros F. destruct (Nat.lt_ge_cases i (length xs)) as [L|L]; [|rewrite nth_overflow by auto; apply small_0].
  rewrite Forall_forall in F. apply F, nth_In, L.
Qed.
Lemma nth_word xs i : (i < length xs)%nat -> nth i (map word xs) 0 = word (nth i xs 0).
Proof. intros L. rewrite nth_indep with (d' := word 0) by (rewrite map_length; auto). apply map_nth. Qed.

(** ** Theorems *)

(** Expressions over BigInts: evaluation gives the same word in every state of the shared interner (consistent with what the
    program holds or not), and leaves it as it is.  So nothing another thread does to the interner matters. *)
Theorem C164_untouched : forall dbg fuel xs e, Forall small xs -> Forall small (literals e) ->
  everywhere (ok dbg) (okp fuel) (fun x => x <> 0) xs e ->
  small (value xs e) /\ forall st, eval dbg fuel (map word xs) e st = Ok (word (value xs e), st).
Proof.
  intros dbg fuel xs e F. pose proof (fun i => nth_small xs i F) as SN.
  induction e as [t v|i|o i j|o e IH j|o i e IH|o e IHe f IHf|o e IH t v|e IHe f IHf|e IH]; cbn [literals everywhere_with value_with eval];
    intros L H.
  - inversion L; subst. destruct H. split; auto. apply from_private; auto.
  - split; auto. intros st. rewrite nth_word by auto. apply clone_private.
  - destruct H as (L1 & L2 & H1 & H2 & H3). split; auto. rewrite !nth_word by auto. apply operate_private; auto.
  - destruct H as (He & L2 & H1 & H2 & H3). destruct (IH L He) as [S E]. split; auto. intros st. rewrite (mbind_ok _ _ _ _ _ (E st)), nth_word by auto.
    apply by_val_private. apply operate_private; auto.
  - destruct H as (L2 & He & H1 & H2 & H3). destruct (IH L He) as [S E]. split; auto. intros st. rewrite (mbind_ok _ _ _ _ _ (E st)), nth_word by auto.
    apply by_val_private. apply operate_private; auto.
  - destruct H as (He & Hf & H1 & H2 & H3). apply Forall_app in L. destruct L as [L1 L2].
    destruct (IHe L1 He) as [S1 E1]. destruct (IHf L2 Hf) as [S2 E2]. split; auto. intros st.
    rewrite (mbind_ok _ _ _ _ _ (E1 st)), (mbind_ok _ _ _ _ _ (E2 st)). apply by_val_private. apply operate_private; auto.
  - destruct H as (He & (Ht & Hv) & H1 & H2 & H3). inversion L as [|? ? Lv L']; subst. destruct (IH L' He) as [S E]. split; auto. intros st.
    rewrite (mbind_ok _ _ _ _ _ (E st)). unfold op_int. rewrite (mbind_ok _ _ _ _ _ (from_private dbg t v Ht Hv Lv st)).
    apply by_val_private. apply operate_private; auto.
  - destruct H as (He & Hf & H1 & H2). apply Forall_app in L. destruct L as [L1 L2].
    destruct (IHe L1 He) as [S1 E1]. destruct (IHf L2 Hf) as [S2 E2]. split; auto. intros st.
    rewrite (mbind_ok _ _ _ _ _ (E1 st)), (mbind_ok _ _ _ _ _ (E2 st)). apply pow_private; auto.
  - destruct H as (He & N). destruct (IH L He) as [S E]. split; [unfold small in *; lia|]. intros st. rewrite (mbind_ok _ _ _ _ _ (E st)).
    unfold ret. rewrite neg_word; auto.
Qed.
Print Assumptions C164_untouched.

(** Comparing, cloning and dropping small BigInts. *)
Theorem C164_untouched_comparisons : forall dbg t v x y st, small x -> small y -> std_ty t -> in_range t v = true -> small v ->
  bi_eq st (word x) (word y) = Ok (x =? y) /\ bi_cmp st (word x) (word y) = Ok (x ?= y) /\
  bi_cmp_int dbg t (word x) v st = Ok (x ?= v, st) /\ bi_clone dbg (word x) st = Ok (word x, st) /\ bi_drop (word x) st = Ok (tt, st).
Proof.
  intros. split; [apply eq_private; auto|]. split; [apply cmp_private; auto|]. split; [apply cmp_int_private; auto|].
  split; [apply clone_private|apply drop_private].
Qed.
Print Assumptions C164_untouched_comparisons.

Lemma add_cases x z : add_exact x z \/ (~ add_exact x z /\ z <> 0 /\ (small (x + z) -> small (x + z - 2 * Z.sgn z))).
Proof.
  unfold add_exact, small. destruct (Z.odd (x + z)) eqn:O; [auto|]. destruct (Z_le_gt_dec (Z.abs z) (Z.abs x)); [auto|].
  destruct (Z_lt_ge_dec x 0), (Z_lt_ge_dec z 0); [auto| | |left; left; lia].
  - right. split; [intros [?|[?|[?|?]]]; try lia; discriminate|]. split; [lia|]. rewrite Z.sgn_pos by lia. lia.
  - right. split; [intros [?|[?|[?|?]]]; try lia; discriminate|]. split; [lia|]. rewrite Z.sgn_neg by lia. lia.
Qed.
Lemma small_bit op bop x y neg : (forall n, Z.testbit (op (Z.abs x) (Z.abs y)) n = bop (Z.testbit (Z.abs x) n) (Z.testbit (Z.abs y) n)) ->
  0 <= op (Z.abs x) (Z.abs y) -> bop false false = false -> small x -> small y -> small (signed neg (op (Z.abs x) (Z.abs y))).
Proof.
  intros H P B Sx Sy. unfold small in *. assert (op (Z.abs x) (Z.abs y) < 2 ^ 62) as L; [|unfold signed; destruct neg; lia].
  destruct (Z.eq_dec (op (Z.abs x) (Z.abs y)) 0) as [->|N]; [lia|]. apply Z.log2_lt_pow2; [lia|].
  destruct (Z_lt_ge_dec (Z.log2 (op (Z.abs x) (Z.abs y))) 62) as [|G]; auto. exfalso.
  assert (Z.testbit (op (Z.abs x) (Z.abs y)) (Z.log2 (op (Z.abs x) (Z.abs y))) = true) as T by (apply Z.bit_log2; lia).
  rewrite H in T. assert (forall z, 0 <= z < 2 ^ 62 -> Z.testbit z (Z.log2 (op (Z.abs x) (Z.abs y))) = false) as F.
  { intros z Hz. destruct (Z.eq_dec z 0) as [->|]; [apply Z.testbit_0_l|]. apply Z.bits_above_log2; [lia|].
    assert (Z.log2 z < 62) by (apply Z.log2_lt_pow2; lia). lia. }
  rewrite !F in T by lia. congruence.
Qed.

(** Single operators, with no condition on signs: whether or not the result is the right one (C44, C46, C98), finding it does not
    involve the interner.  Only division by zero, which does not panic (C46), is left out. *)
Theorem C164_untouched_operators : forall dbg o x y, small x -> small y -> shifts o = false ->
  match o with ODiv | ORem => y <> 0 | OAdd | OSub | OMul => small (meaning o x y) | _ => True end ->
  exists z, small z /\ forall st, operate dbg o (word x) (word y) st = Ok (word z, st).
Proof.
  intros dbg o x y Sx Sy Hs H.
  assert (forall v, small v ->
    (consistent 8 [] [word x; word y] -> room 8 [word x; word y] 0 -> proper [] [word x; word y] (word x) x -> proper [] [word x; word y] (word y) y ->
     yields 8 [word x; word y] (operate dbg o (word x) (word y)) [] v) ->
    exists z, small z /\ forall st, operate dbg o (word x) (word y) st = Ok (word z, st)) as W.
  { intros v Sv Y. exists v. split; auto. apply operate_word; auto. }
  assert (forall a b, proper [] [word x; word y] a b -> is_int [] [word x; word y] a b) as HI by (intros a b (? & ? & ?); split; auto).
  assert (addressable x) as Ax.
  { unfold small, addressable in *. pose proof (Z.log2_le_mono (Z.abs x) (2 ^ 62) ltac:(lia)) as L. change (Z.log2 (2 ^ 62)) with 62 in L. lia. }
  assert (forall op bop, shifts o = false -> operate dbg o = bi_bitop dbg op -> (forall a b n, Z.testbit (op a b) n = bop (Z.testbit a n) (Z.testbit b n)) ->
    (forall a b, 0 <= a < base 64 -> 0 <= b < base 64 -> 0 <= op a b < base 64) -> bop false false = false ->
    exists z, small z /\ forall st, operate dbg o (word x) (word y) st = Ok (word z, st)) as HB.
  { intros op bop _ Eo Ht Hr Hf. apply (W (signed (Z.odd (word x)) (op (Z.abs x) (Z.abs y)))).
    - apply (small_bit op bop); auto. apply Hr; unfold small in *; change (base 64) with (2 ^ 64); lia.
    - intros C R (I1 & D1 & _) (I2 & D2 & _). rewrite Eo. apply (bi_bitop_spec dbg op bop); auto. }
  destruct o; try discriminate Hs; cbn [operate meaning] in *.
  - destruct (add_cases x y) as [A|(A & N & S)].
    + apply (W (x + y)); auto. intros. apply (C44_add_sub_partial dbg 8 [] [word x; word y]); auto.
    + apply (W (x + y - 2 * Z.sgn y)); auto. intros. apply (C44_add_sub_otherwise_partial dbg 8 [] [word x; word y]); auto.
  - replace (x - y) with (x + - y) in H by lia. destruct (add_cases x (- y)) as [A|(A & N & S)].
    + apply (W (x - y)); [replace (x - y) with (x + - y) by lia; auto|]. intros. apply (C44_add_sub_partial dbg 8 [] [word x; word y]); auto.
    + apply (W (x - y + 2 * Z.sgn y)).
      * specialize (S H). rewrite Z.sgn_opp in S. replace (x - y + 2 * Z.sgn y) with (x + - y - 2 * - Z.sgn y) by lia. auto.
      * intros. apply (C44_add_sub_otherwise_partial dbg 8 [] [word x; word y]); auto. lia.
  - apply (W (x * y)); auto. intros. apply C45_mul_exact; auto.
  - apply (W (Z.quot x y)).
    + unfold small in *. rewrite <- Z.quot_abs by auto. pose proof (Z.quot_le_upper_bound (Z.abs x) (Z.abs y) (Z.abs x) ltac:(lia) ltac:(nia)).
      pose proof (Z.quot_pos (Z.abs x) (Z.abs y) ltac:(lia) ltac:(lia)). lia.
    + intros. apply (C46_div_rem_partial dbg 8 [] [word x; word y]); auto. unfold small in *. lia.
  - apply (W (Z.rem x y * Z.sgn y)).
    + unfold small in *. pose proof (Z.rem_bound_abs x y H). destruct (Z.sgn_spec y) as [[? ->]|[[? ->]|[? ->]]]; lia.
    + intros. apply (C46_div_rem_partial dbg 8 [] [word x; word y]); auto. unfold small in *. lia.
  - apply (HB Z.land andb); auto; [intros; apply Z.land_spec|intros; apply land_range; auto].
  - apply (HB Z.lor orb); auto; [intros; apply Z.lor_spec|intros; apply lor_range; auto].
  - apply (HB Z.lxor xorb); auto; [intros; apply Z.lxor_spec|intros; apply lxor_range; auto].
Qed.
Print Assumptions C164_untouched_operators.

(** Shifts are left out because they do use it: [BigInt::from(1) << BigInt::from(3)] interns the largest [usize] to check the
    amount, and the empty interner has grown by a chunk of slots. *)
Theorem C164_shifts_touch : exists st, bi_shl true (word 1) (word 3) interner_new = Ok (word 8, st) /\ length st <> length (@interner_new (list Z)).
Proof. eexists. split; [vm_compute; reflexivity|]. vm_compute. discriminate. Qed.
Print Assumptions C164_shifts_touch.

(** [(&x * 3u8 - &y).pow(2) + -(x / y) * 5] for [x = 10^6] and [y = -7], in an arbitrary interner. *)
Example C164_demo : forall st, eval true 10 (map word [1000000; -7])
  (ExpExp OAdd (Power (ExpVar OSub (ExpInt OMul (Cloned 0) U8 3) 1) (Lit I32 2)) (ExpInt OMul (Minus (VarVar ODiv 0 1)) I32 5)) st =
  Ok (word 9000042714334, st).
Proof.
  apply (C164_untouched true 10 [1000000; -7]
    (ExpExp OAdd (Power (ExpVar OSub (ExpInt OMul (Cloned 0) U8 3) 1) (Lit I32 2)) (ExpInt OMul (Minus (VarVar ODiv 0 1)) I32 5))).
  - repeat constructor.
  - repeat constructor.
  - cbn. unfold add_exact, small, addressable, std_ty. cbn. intuition lia.
Qed.
Example C164_demo_operators : exists z, small z /\ forall st, operate false OAdd (word 3) (word (-5)) st = Ok (word z, st).
Proof. apply C164_untouched_operators; reflexivity. Qed.
Example C164_demo_values : word 5 = 22 /\ word (-5) = 23 /\ bi_from true I32 (-5) interner_new = Ok (word (-5), interner_new) /\
  bi_cmp interner_new (word 5) (word (-5)) = Ok Gt.
Proof. vm_compute. auto. Qed.
