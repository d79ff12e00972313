(** C47 continued and C125: what order [BigInt::cmp] really is (vocabulary as in PropBigInt.v). *)
From Coq Require Import ZArith List Bool Lia.
From Verif Require Import Base Words Spec TextSpec Arith BitSliceModel BitSliceProofs BitwiseProofs
  InternModel BigIntModel BigIntSpec BigIntProofs BigIntOps BigIntConv BigIntText BigIntMore BigIntRun BigIntHist PropBigInt
  BigIntOrder.
Import ListNotations.
Local Open Scope Z_scope.

(** A state with three numbers of two limbs. *)
Definition ord_program : list command :=
  [From U128 (2 ^ 64 + 5); From U128 (2 * 2 ^ 64 + 3); From U128 (3 * 2 ^ 64 + 4)].
Definition ord_run : env * store (list Z) * nat :=
  match run true ord_program [] interner_new 0 with Ok r => r | _ => ([], [], 0%nat) end.
Definition ord_st : store (list Z) := Eval vm_compute in snd (fst ord_run).
Definition ord_hs : list Z := Eval vm_compute in handles (fst (fst ord_run)).
Lemma ord_consistent : consistent 11 ord_st ord_hs.
Proof.
  destruct (run_from_start true ord_program (fst (fst ord_run)) (snd (fst ord_run)) 3) as [C _].
  - vm_compute. reflexivity.
  - vm_compute. reflexivity.
  - assert (E1 : snd (fst ord_run) = ord_st) by (vm_compute; reflexivity).
    assert (E2 : handles (fst (fst ord_run)) = ord_hs) by (vm_compute; reflexivity).
    rewrite E1, E2 in C. exact C.
Qed.
Example ord_handles : ord_hs = [0; 4; 8]. Proof. reflexivity. Qed.
Lemma ord_a : proper ord_st ord_hs 0 (2 ^ 64 + 5).
Proof. split; [left; auto|]. split; [demo_den|vm_compute; discriminate]. Qed.
Lemma ord_b : proper ord_st ord_hs 4 (2 * 2 ^ 64 + 3).
Proof. split; [right; left; auto|]. split; [demo_den|vm_compute; discriminate]. Qed.
Lemma ord_c : proper ord_st ord_hs 8 (3 * 2 ^ 64 + 4).
Proof. split; [right; right; left; auto|]. split; [demo_den|vm_compute; discriminate]. Qed.

(** ** C47: the order in the remaining case *)

(** Two numbers of equal sign and equally many 64-bit limbs are ordered by their lowest differing
    limb; [x / 2^(64 k) mod 2^64] is limb [k] of [x >= 0].  With [C47_ordering_partial] this
    says what [cmp] returns for every two BigInts. *)
Theorem C47_equal_length_partial : forall P st hs a b x y,
  consistent P st hs -> proper st hs a x -> proper st hs b y ->
  (x < 0 <-> y < 0) -> Z.log2 (Z.abs x) / 64 = Z.log2 (Z.abs y) / 64 ->
  bi_cmp st a b = Ok (if x <? 0 then Gt else Lt) <->
  exists k, 0 <= k /\ Z.abs x mod 2 ^ (64 * k) = Z.abs y mod 2 ^ (64 * k) /\
    (Z.abs x / 2 ^ (64 * k)) mod 2 ^ 64 < (Z.abs y / 2 ^ (64 * k)) mod 2 ^ 64.
Proof.
  intros P st hs a b x y Hc (Ia & Da & Na) (Ib & Db & Nb) Hs Hl.
  destruct (bi_cmp_gcmp P st hs a b x y Hc Ia Ib Da Db Na Nb) as (la & lb & Wa & Ca & Va & Wb & Cb & Vb & ->).
  assert (length la = length lb) as El.
  { pose proof (canonical_len la Wa Ca). pose proof (canonical_len lb Wb Cb). rewrite Va in *. rewrite Vb in *. lia. }
  rewrite <- Va, <- Vb, <- low_first_lt by auto.
  assert (mcmp la lb = low_first la lb) as Em by (unfold mcmp; rewrite El, Nat.eqb_refl; auto).
  destruct (Z.ltb_spec x 0), (Z.ltb_spec y 0); try lia; cbn [gcmp]; rewrite Em; destruct (low_first la lb); cbn; split; congruence.
Qed.
Print Assumptions C47_equal_length_partial.

Example C47_equal_length_demo : bi_cmp ord_st 4 0 = Ok Lt /\ bi_cmp ord_st 4 8 = Ok Lt.
Proof.
  split.
  - apply (C47_equal_length_partial 11 ord_st ord_hs 4 0 _ _ ord_consistent ord_b ord_a); [lia|reflexivity|].
    exists 0. vm_compute. repeat split; discriminate.
  - apply (C47_equal_length_partial 11 ord_st ord_hs 4 8 _ _ ord_consistent ord_b ord_c); [lia|reflexivity|].
    exists 0. vm_compute. repeat split; discriminate.
Qed.

(** ** C125: a lawful total order all the same *)

(** [cmp] never panics, says [Equal] exactly for equal numbers, is antisymmetric and transitive. *)
Theorem C125_total_order : forall P st hs a b c x y z,
  consistent P st hs -> proper st hs a x -> proper st hs b y -> proper st hs c z ->
  exists ab bc ac, bi_cmp st a b = Ok ab /\ bi_cmp st b c = Ok bc /\ bi_cmp st a c = Ok ac /\
    (ab = Datatypes.Eq <-> x = y) /\ bi_cmp st b a = Ok (CompOpp ab) /\
    (ab = Lt -> bc = Lt -> ac = Lt) /\ (ab = Gt -> bc = Gt -> ac = Gt).
Proof.
  intros P st hs a b c x y z Hc (Ia & Da & Na) (Ib & Db & Nb) (Ic & Dc & Nc).
  destruct (info _ _ _ _ _ Hc Ia Da) as (la & _ & Wa & Ca & _ & Va & _).
  destruct (info _ _ _ _ _ Hc Ib Db) as (lb & _ & Wb & Cb & _ & Vb & _).
  destruct (info _ _ _ _ _ Hc Ic Dc) as (lc & _ & Wc & Cc & _ & Vc & _).
  assert (forall u p m v q n, In u hs -> In v hs -> denotes st u p -> denotes st v q -> u <> neg_zero -> v <> neg_zero ->
    wf 64 m -> canonical m -> val 64 m = Z.abs p -> wf 64 n -> canonical n -> val 64 n = Z.abs q ->
    bi_cmp st u v = Ok (gcmp (p <? 0) m (q <? 0) n)) as H.
  { intros u p m v q n Iu Iv Du Dv Nu Nv Wm Cm Vm Wn Cn Vn.
    destruct (bi_cmp_gcmp P st hs u v p q Hc Iu Iv Du Dv Nu Nv) as (m' & n' & Wm' & Cm' & Vm' & Wn' & Cn' & Vn' & ->).
    rewrite (canonical_inj 64 m' m), (canonical_inj 64 n' n); auto; congruence. }
  exists (gcmp (x <? 0) la (y <? 0) lb), (gcmp (y <? 0) lb (z <? 0) lc), (gcmp (x <? 0) la (z <? 0) lc).
  split; [apply H; auto|]. split; [apply H; auto|]. split; [apply H; auto|]. split; [|split; [|split]].
  - rewrite gcmp_eq. split.
    + intros [Es El]. subst lb. destruct (Z.ltb_spec x 0), (Z.ltb_spec y 0); try discriminate; lia.
    + intros ->. split; auto. apply (canonical_inj 64); auto; congruence.
  - rewrite <- gcmp_antisym. apply H; auto.
  - apply gcmp_trans.
  - intros A B. rewrite gcmp_antisym. rewrite gcmp_antisym in A, B.
    destruct (gcmp (y <? 0) lb (x <? 0) la) eqn:E1; try discriminate A.
    destruct (gcmp (z <? 0) lc (y <? 0) lb) eqn:E2; try discriminate B.
    rewrite (gcmp_trans _ _ _ _ _ _ E2 E1). reflexivity.
Qed.
Print Assumptions C125_total_order.

(** [2 * 2^64 + 3 < 3 * 2^64 + 4 < 2^64 + 5] in this order. *)
Example C125_demo : exists ac, bi_cmp ord_st 4 0 = Ok ac /\ ac = Lt.
Proof.
  destruct (C125_total_order 11 ord_st ord_hs 4 8 0 _ _ _ ord_consistent ord_b ord_c ord_a)
    as (ab & bc & ac & E1 & E2 & E3 & _ & _ & T & _).
  exists ac. split; auto. apply T.
  - assert (bi_cmp ord_st 4 8 = Ok Lt) as E by (vm_compute; reflexivity). congruence.
  - assert (bi_cmp ord_st 8 0 = Ok Lt) as E by (vm_compute; reflexivity). congruence.
Qed.
