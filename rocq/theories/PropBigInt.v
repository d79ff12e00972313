(** Properties C41 to C58 and C98 to C100: BigInt.
    A BigInt is a handle (one word) in a store shared by all BigInts.  [denotes st h v]: handle
    [h] stands for the integer [v].  [consistent P st hs]: the store agrees with the handles
    [hs] in existence, of which never more than [P] were interned at a time; every store that
    a program can produce is consistent (C57 below).  [room P hs n]: [n] more interned handles
    may come into existence.  [yields P hs m st v]: the call [m] succeeds and returns a new
    handle for [v], and the handles [hs] keep their values; [returns P hs m st r] is the same
    for a call with an ordinary result.  These notions are in BigIntSpec.v, programs ([run]) in
    BigIntRun.v.  [neg_zero] is the handle that negating a zero gives; C43 is about it. *)
From Coq Require Import ZArith List Bool Lia Permutation.
From Verif Require Import Base Words Spec TextSpec Arith BitSliceModel BitSliceProofs ElementModel ElemAddSub
  InternModel InternSpec InternProofs InternHist
  BigIntModel BigIntSpec BigIntProofs BigIntOps BigIntConv BigIntText BigIntSafe BigIntMore BigIntRun BigIntHist.
Import ListNotations.
Local Open Scope Z_scope.

(** [a] is one of the existing BigInts and denotes [x]. *)
Definition is_int (st : store (list Z)) (hs : list Z) (a x : Z) : Prop :=
  In a hs /\ denotes st a x.

(** ... and is not the negation of a zero. *)
Definition proper (st : store (list Z)) (hs : list Z) (a x : Z) : Prop :=
  In a hs /\ denotes st a x /\ a <> neg_zero.

(** Rust's primitive integer types. *)
Definition I8 := {| ibits := 8; isigned := true |}.
Definition U8 := {| ibits := 8; isigned := false |}.
Definition I32 := {| ibits := 32; isigned := true |}.
Definition I64 := {| ibits := 64; isigned := true |}.
Definition U128 := {| ibits := 128; isigned := false |}.

(** ** A concrete state used to show that hypotheses can be met: the program
    [let a = BigInt::from(2^100 + 3); let b = BigInt::from(-7); let c = &a * &b;
     let d = BigInt::from(9); drop(BigInt::from(2^99));] *)
Definition demo_program : list command :=
  [From U128 (2 ^ 100 + 3); From I32 (-7); RefRef OMul 0 1; From I32 9; From U128 (2 ^ 99); Drop 4].
Definition demo : env * store (list Z) * nat :=
  match run true demo_program [] interner_new 0 with Ok r => r | _ => ([], [], 0%nat) end.
Definition demo_st : store (list Z) := Eval vm_compute in snd (fst demo).
Definition demo_hs : list Z := Eval vm_compute in handles (fst (fst demo)).

Lemma demo_consistent : consistent 11 demo_st demo_hs.
Proof.
  destruct (run_from_start true demo_program (fst (fst demo)) (snd (fst demo)) 3) as [C _].
  - vm_compute. reflexivity.
  - vm_compute. reflexivity.
  - assert (E1 : snd (fst demo) = demo_st) by (vm_compute; reflexivity).
    assert (E2 : handles (fst (fst demo)) = demo_hs) by (vm_compute; reflexivity).
    rewrite E1, E2 in C. exact C.
Qed.

Example demo_handles : demo_hs = [0; 31; 5; 38]. Proof. reflexivity. Qed.
Lemma demo_room : room 11 demo_hs 8. Proof. vm_compute. discriminate. Qed.
Lemma demo_room0 : room 11 demo_hs 0. Proof. vm_compute. discriminate. Qed.

Ltac demo_den := first [ vm_compute; reflexivity | eexists; split; vm_compute; reflexivity ].
Lemma demo_a : is_int demo_st demo_hs 0 (2 ^ 100 + 3).
Proof. split; [left; auto|]. demo_den. Qed.
Lemma demo_b : is_int demo_st demo_hs 31 (-7).
Proof. split; [right; left; auto|]. demo_den. Qed.
Lemma demo_c : is_int demo_st demo_hs 5 ((2 ^ 100 + 3) * -7).
Proof. split; [right; right; left; auto|]. demo_den. Qed.
Lemma demo_d : is_int demo_st demo_hs 38 9.
Proof. split; [right; right; right; left; auto|]. demo_den. Qed.
Lemma is_proper st hs a x : is_int st hs a x -> a <> neg_zero -> proper st hs a x.
Proof. intros [H1 H2] H. split; auto. Qed.
Ltac demo_proper l := apply (is_proper _ _ _ _ l); vm_compute; discriminate.
Lemma demo_a' : proper demo_st demo_hs 0 (2 ^ 100 + 3). Proof. demo_proper demo_a. Qed.
Lemma demo_b' : proper demo_st demo_hs 31 (-7). Proof. demo_proper demo_b. Qed.
Lemma demo_c' : proper demo_st demo_hs 5 ((2 ^ 100 + 3) * -7). Proof. demo_proper demo_c. Qed.
Lemma demo_d' : proper demo_st demo_hs 38 9. Proof. demo_proper demo_d. Qed.

(** ** C41 *)

(** The conversion denotes exactly [v], and the result compares equal to [v]. *)
Theorem C41_from_exact : forall dbg t v P st hs,
  consistent P st hs -> room P hs 0 -> std_ty t -> in_range t v = true ->
  yields P hs (bi_from dbg t v) st v /\
  forall c st', bi_from dbg t v st = Ok (c, st') ->
    (isigned t = true -> dbg = true -> v <> imin t) -> bi_eq_int dbg t st' c v = Ok true.
Proof.
  intros dbg t v P st hs Hc Hr Ht Hv. pose proof (from_spec dbg P st hs t v Hc Hr Ht Hv) as Y. split; auto.
  intros c st' E Hm. destruct Y as (c1 & st1 & E1 & C & K & D & N). rewrite E in E1.
  assert (c1 = c) as -> by congruence. assert (st1 = st') as -> by congruence.
  destruct (isigned t) eqn:Es.
  - rewrite (bi_eq_signed dbg t P st' (c :: hs) c v v); auto; [rewrite Z.eqb_refl; auto|left; auto|].
    destruct dbg; auto.
  - rewrite (bi_eq_unsigned dbg t P st' (c :: hs) c v v); auto; [|left; auto].
    assert (0 <= v). { apply in_range_iff in Hv. unfold imin in Hv. rewrite Es in Hv. lia. }
    rewrite Z.abs_eq, Z.eqb_refl by lia. auto.
Qed.

Example C41_demo : yields 11 demo_hs (bi_from true {| ibits := 128; isigned := true |} (- 2 ^ 127)) demo_st (- 2 ^ 127).
Proof. apply C41_from_exact; [apply demo_consistent|apply demo_room0|vm_compute; auto 8|reflexivity]. Qed.
Print Assumptions C41_from_exact.

(** ** C42 *)

Theorem C42_equality_is_value_equality : forall P st hs a b x y,
  consistent P st hs -> proper st hs a x -> proper st hs b y ->
  bi_eq st a b = Ok (x =? y).
Proof.
  intros P st hs a b x y Hc (Ia & Da & Na) (Ib & Db & Nb).
  rewrite (bi_eq_spec P st hs a b x y); auto.
  rewrite (proj2 (Z.eqb_neq a neg_zero)), (proj2 (Z.eqb_neq b neg_zero)) by auto. cbn. rewrite andb_true_r. auto.
Qed.

(** Two interned handles of the same value that differ as words do occur (their slots were
    filled at different times), and compare equal. *)
Example C42_demo : exists e st p h h',
  run false [From U128 (2 ^ 70); From U128 (2 ^ 80); Drop 0; From U128 (2 ^ 80)] [] interner_new 0 = Ok (e, st, p) /\
  nth_error e 1 = Some (Some h) /\ nth_error e 2 = Some (Some h') /\ h <> h' /\ bi_eq st h h' = Ok true.
Proof. do 5 eexists. split; [vm_compute; reflexivity|]. repeat (split; [first [reflexivity|discriminate]|]). vm_compute. reflexivity. Qed.
Print Assumptions C42_equality_is_value_equality.

(** The values to which it applies: every value in a program without unary minus. *)
Theorem C42_programs : forall dbg cs e st p a b x y,
  run dbg cs [] interner_new 0 = Ok (e, st, p) -> Z.of_nat p + 8 < 2 ^ 61 -> forallb no_minus cs = true ->
  In a (handles e) -> denotes st a x -> In b (handles e) -> denotes st b y ->
  bi_eq st a b = Ok (x =? y).
Proof.
  intros dbg cs e st p a b x y E Hp Hm Ia Da Ib Db.
  destruct (run_from_start dbg cs e st p E Hp) as [C _].
  assert (Forall nonnz (handles e)) as Hf.
  { apply (run_clean dbg (Z.of_nat p + 8) cs [] interner_new 0 e st p); auto; try lia; [apply con_empty; lia|constructor]. }
  rewrite Forall_forall in Hf.
  apply (C42_equality_is_value_equality (Z.of_nat p + 8) st (handles e)); auto; split; auto; split; auto; apply Hf; auto.
Qed.

Example C42_programs_demo : exists e st p,
  run true [From U128 (2 ^ 70); From I32 (-3); RefRef OMul 0 1; Clone 2; ValVal OSub 2 3; From U8 0] [] interner_new 0 = Ok (e, st, p) /\
  forallb no_minus [From U128 (2 ^ 70); From I32 (-3); RefRef OMul 0 1; Clone 2; ValVal OSub 2 3; From U8 0] = true /\ Z.of_nat p + 8 < 2 ^ 61 /\
  nth_error e 4 = nth_error e 5.
Proof. do 3 eexists. split; [vm_compute; reflexivity|]. split; [reflexivity|]. split; vm_compute; reflexivity. Qed.
Print Assumptions C42_programs.

(** ** C43 *)

(** What holds: [-a] (by value and by reference) denotes [-x]. *)
Theorem C43_negation_denotes_partial : forall dbg P st hs a x,
  (consistent P st (a :: hs) -> denotes st a x ->
     consistent P st (bi_neg a :: hs) /\ denotes st (bi_neg a) (- x)) /\
  (consistent P st hs -> room P hs 0 -> is_int st hs a x ->
     exists c st', bi_neg_ref dbg a st = Ok (c, st') /\ consistent P st' (c :: hs) /\ keeps st st' hs /\
       denotes st' c (- x) /\ (x <> 0 -> c <> neg_zero)).
Proof.
  intros dbg P st hs a x. split.
  - intros Hc D. destruct (con_neg P st hs a Hc) as [C H]. auto.
  - intros Hc Hr (Ia & Da). destruct (clone_spec dbg P st hs a Hc Hr Ia) as (st1 & E & C & K).
    destruct (con_neg P st1 hs a C) as [C' H]. exists (bi_neg a), st1.
    split. { unfold bi_neg_ref, mbind. rewrite E. reflexivity. }
    split; auto. split; auto. assert (denotes st1 a x) as D1 by (apply K; auto). split; [apply H; auto|].
    intros Hx Hn. assert (0 <= a). { destruct (con_slice _ _ _ _ Hc Ia) as (l & _ & _ & _ & _ & _ & _ & H0). auto. }
    apply bi_neg_neg_zero in Hn; auto. subst a. unfold denotes in Da. cbn in Da. lia.
Qed.

Example C43_demo : exists c st', bi_neg_ref true 0 demo_st = Ok (c, st') /\ denotes st' c (- (2 ^ 100 + 3)).
Proof.
  destruct (proj2 (C43_negation_denotes_partial true 11 demo_st demo_hs 0 (2 ^ 100 + 3)) demo_consistent demo_room0 demo_a)
    as (c & st' & E & _ & _ & D & _). eauto.
Qed.
Print Assumptions C43_negation_denotes_partial.

(** What fails: [-BigInt::from(0)] denotes 0 but is not equal to [BigInt::from(0)]; it is
    less than it, [u8::try_from] of it is an error, and shifting by it panics. *)
Theorem C43_negated_zero_refuted : exists e st p z h,
  run false [From I32 0; NegRef 0; From I32 1] [] interner_new 0 = Ok (e, st, p) /\
  nth_error e 0 = Some (Some z) /\ nth_error e 1 = Some (Some h) /\
  denotes st z 0 /\ denotes st h 0 /\
  bi_eq st z h = Ok false /\ bi_cmp st h z = Ok Lt /\
  (exists st', bi_try_from false U8 h st = Ok (inr Below, st')) /\
  run false [From I32 0; NegRef 0; From I32 1; RefRef OShl 2 1] [] interner_new 0 = Panic.
Proof.
  do 5 eexists. split; [vm_compute; reflexivity|]. split; [reflexivity|]. split; [reflexivity|].
  split; [reflexivity|]. split; [reflexivity|]. split; [reflexivity|]. split; [reflexivity|].
  split; [eexists; vm_compute; reflexivity|]. vm_compute. reflexivity.
Qed.
Print Assumptions C43_negated_zero_refuted.

(** Subtraction never produces that zero: every operator result is [<> neg_zero] (it is part of
    [yields]), so only unary minus does. *)

(** ** C44 *)

(** What holds: the sum is exact when the operands have the same sign, when the right one is
    not larger in magnitude, or when the exact sum is odd. *)
Definition add_exact (x y : Z) : Prop :=
  (0 <= x /\ 0 <= y) \/ (x < 0 /\ y < 0) \/ Z.abs y <= Z.abs x \/ Z.odd (x + y) = true.

Theorem C44_add_sub_partial : forall dbg P st hs a b x y,
  consistent P st hs -> room P hs 0 -> proper st hs a x -> proper st hs b y ->
  (add_exact x y -> yields P hs (bi_add dbg a b) st (x + y)) /\
  (add_exact x (- y) -> yields P hs (bi_sub dbg a b) st (x - y)).
Proof.
  intros dbg P st hs a b x y Hc Hr (Ia & Da & Na) (Ib & Db & Nb).
  destruct (info P st hs a x Hc Ia Da) as (la & _ & _ & _ & _ & _ & A1 & A2 & A3).
  destruct (info P st hs b y Hc Ib Db) as (lb & _ & _ & _ & _ & _ & B1 & B2 & B3).
  specialize (A3 Na). specialize (B3 Nb).
  assert (forall z nb, add_exact x z -> (nb = true -> z <= 0) -> (nb = false -> 0 <= z) ->
    add_result (Z.odd a) nb x z = x + z) as Hadd.
  { intros z nb He N1 N2. unfold add_result. destruct (Bool.eqb (Z.odd a) nb) eqn:Eab; cbn [negb andb]; auto.
    destruct (Z.ltb_spec (Z.abs x) (Z.abs z)); cbn [andb]; auto.
    destruct (Z.even (x + z)) eqn:Ev; auto. exfalso.
    rewrite <- Z.negb_odd in Ev. apply eqb_false_iff in Eab.
    destruct He as [He|[He|[He|He]]]; try lia.
    - rewrite A3 in Eab. rewrite (proj2 (Z.ltb_ge x 0)) in Eab by lia. destruct nb; [|congruence]. specialize (N1 eq_refl). lia.
    - rewrite A3 in Eab. rewrite (proj2 (Z.ltb_lt x 0)) in Eab by lia. destruct nb; [congruence|]. specialize (N2 eq_refl). lia.
    - rewrite He in Ev. discriminate. }
  split; intros He.
  - rewrite <- (Hadd y (Z.odd b)); auto. apply bi_add_spec; auto.
  - replace (x - y) with (x + - y) by lia. rewrite <- (Hadd (- y) (negb (Z.odd b))); auto.
    + apply bi_sub_spec; auto.
    + intros Hb. apply negb_true_iff in Hb. specialize (B2 Hb). lia.
    + intros Hb. apply negb_false_iff in Hb. specialize (B1 Hb). lia.
Qed.

(** In every other case the result is off by two, towards zero. *)
Theorem C44_add_sub_otherwise_partial : forall dbg P st hs a b x y,
  consistent P st hs -> room P hs 0 -> proper st hs a x -> proper st hs b y ->
  (~ add_exact x y -> yields P hs (bi_add dbg a b) st (x + y - 2 * Z.sgn y)) /\
  (~ add_exact x (- y) -> y <> 0 -> yields P hs (bi_sub dbg a b) st (x - y + 2 * Z.sgn y)).
Proof.
  intros dbg P st hs a b x y Hc Hr (Ia & Da & Na) (Ib & Db & Nb).
  destruct (info P st hs a x Hc Ia Da) as (la & _ & _ & _ & _ & _ & A1 & A2 & A3).
  destruct (info P st hs b y Hc Ib Db) as (lb & _ & _ & _ & _ & _ & B1 & B2 & B3).
  specialize (A3 Na). specialize (B3 Nb).
  assert (forall z nb, ~ add_exact x z -> nb = (z <? 0) -> add_result (Z.odd a) nb x z = x + z - 2 * Z.sgn z) as Hadd.
  { intros z nb He ->. unfold add_result, add_exact in *. rewrite A3.
    assert (Z.odd (x + z) = false) as Ho by (destruct (Z.odd (x + z)); auto; exfalso; tauto).
    rewrite <- Z.negb_odd, Ho. rewrite (proj2 (Z.ltb_lt (Z.abs x) (Z.abs z))) by lia.
    destruct (Z.ltb_spec x 0), (Z.ltb_spec z 0); cbn; auto; exfalso; apply He; lia. }
  split; intros He.
  - rewrite <- (Hadd y (Z.odd b)); auto. apply bi_add_spec; auto.
  - intros Hy. replace (x - y + 2 * Z.sgn y) with (x + - y - 2 * Z.sgn (- y)) by lia.
    rewrite <- (Hadd (- y) (negb (Z.odd b))); auto.
    + apply bi_sub_spec; auto.
    + rewrite B3. destruct (Z.ltb_spec y 0), (Z.ltb_spec (- y) 0); cbn; auto; lia.
Qed.

Example C44_demo : yields 11 demo_hs (bi_add true 5 0) demo_st ((2 ^ 100 + 3) * -7 + (2 ^ 100 + 3)) /\
  yields 11 demo_hs (bi_sub true 31 38) demo_st (-16).
Proof.
  split.
  - apply (C44_add_sub_partial true 11 demo_st demo_hs 5 0 _ _ demo_consistent demo_room0 demo_c' demo_a').
    right. right. left. vm_compute. discriminate.
  - apply (C44_add_sub_partial true 11 demo_st demo_hs 31 38 _ _ demo_consistent demo_room0 demo_b' demo_d').
    right. left. split; vm_compute; reflexivity.
Qed.
Example C44_demo_otherwise : yields 11 demo_hs (bi_add true 31 38) demo_st 0.
Proof.
  apply (C44_add_sub_otherwise_partial true 11 demo_st demo_hs 31 38 _ _ demo_consistent demo_room0 demo_b' demo_d').
  unfold add_exact. cbn. intros [H|[H|[H|H]]]; try lia; discriminate.
Qed.
Print Assumptions C44_add_sub_partial.
Print Assumptions C44_add_sub_otherwise_partial.

(** What fails: [BigInt::from(3) + BigInt::from(-5)] is 0, and [0 - 2] is 0. *)
Theorem C44_add_sub_refuted : exists e st p h h',
  run false [From I32 3; From I32 (-5); RefRef OAdd 0 1; From I32 0; From I32 2; RefRef OSub 3 4] [] interner_new 0 = Ok (e, st, p) /\
  nth_error e 2 = Some (Some h) /\ nth_error e 5 = Some (Some h') /\
  denotes st h 0 /\ 0 <> 3 + -5 /\ denotes st h' 0 /\ 0 <> 0 - 2.
Proof.
  do 5 eexists. split; [vm_compute; reflexivity|]. repeat (split; [first [reflexivity|discriminate]|]). discriminate.
Qed.
Print Assumptions C44_add_sub_refuted.

(** ** C45 *)

Theorem C45_mul_exact : forall dbg P st hs a b x y,
  consistent P st hs -> room P hs 0 -> is_int st hs a x -> is_int st hs b y ->
  yields P hs (bi_mul dbg a b) st (x * y).
Proof. intros dbg P st hs a b x y Hc Hr (Ia & Da) (Ib & Db). apply bi_mul_spec; auto. Qed.

(** The operators on owned values give what the operators on references give, and release
    the operands ([hs] are the handles that stay); so does [a * 3u8]. *)
Theorem C45_owned_forms : forall dbg o P st hs a b v,
  (yields P (a :: b :: hs) (operate dbg o a b) st v -> yields P hs (by_val (operate dbg o) a b) st v) /\
  (yields P (a :: hs) (operate dbg o a b) st v -> yields P hs (by_val_ref (operate dbg o) a b) st v) /\
  (yields P (b :: hs) (operate dbg o a b) st v -> yields P hs (by_ref_val (operate dbg o) a b) st v).
Proof.
  intros. split; [|split]; [apply by_val_spec|apply by_val_ref_spec|apply by_ref_val_spec].
Qed.

Theorem C45_mul_primitive : forall dbg t P st hs a x v,
  consistent P st (a :: hs) -> room P (a :: hs) 1 -> denotes st a x -> std_ty t -> in_range t v = true ->
  yields P hs (op_int dbg (bi_mul dbg) t a v) st (x * v).
Proof.
  intros dbg t P st hs a x v Hc Hr D Ht Hv. apply op_int_spec with (x := x); auto.
  - eapply room_le; eauto. lia.
  - intros st1 b C1 D1 D2 _. apply bi_mul_spec; auto; [|left; auto|right; left; auto].
    apply (room_perm P (b :: a :: hs)); [apply perm_swap|]. apply room_cons. auto.
Qed.

Example C45_demo : yields 11 demo_hs (bi_mul true 5 0) demo_st ((2 ^ 100 + 3) * -7 * (2 ^ 100 + 3)).
Proof. apply C45_mul_exact; [apply demo_consistent|apply demo_room0|apply demo_c|apply demo_a]. Qed.
Print Assumptions C45_mul_exact.
Print Assumptions C45_owned_forms.
Print Assumptions C45_mul_primitive.

(** ** C46 *)

(** What holds: for a non-zero divisor of at most 2^63 in magnitude, or operands below 2^64,
    the quotient truncates toward zero; the remainder is right for a positive divisor, and
    has the wrong sign for a negative one. *)
Theorem C46_div_rem_partial : forall dbg P st hs a b x y,
  consistent P st hs -> room P hs 0 -> is_int st hs a x -> is_int st hs b y ->
  y <> 0 -> addressable x -> (Z.abs y <= 2 ^ 63 \/ (Z.abs x < 2 ^ 64 /\ Z.abs y < 2 ^ 64)) ->
  yields P hs (bi_div dbg a b) st (Z.quot x y) /\
  yields P hs (bi_rem dbg a b) st (Z.rem x y * Z.sgn y) /\
  (0 < y -> x = Z.quot x y * y + Z.rem x y * Z.sgn y /\ Z.abs (Z.rem x y) < y /\ 0 <= x * Z.rem x y).
Proof.
  intros dbg P st hs a b x y Hc Hr (Ia & Da) (Ib & Db) Hy Hx Hs.
  assert (div_dom x y) by (unfold div_dom; auto).
  split; [apply bi_div_spec; auto|]. split; [apply bi_rem_spec; auto|].
  intros Hp. rewrite Z.sgn_pos, Z.mul_1_r by auto. split; [|split].
  - rewrite Z.mul_comm. apply Z.quot_rem. auto.
  - pose proof (Z.rem_bound_abs x y Hy). lia.
  - rewrite Z.mul_comm. apply Z.rem_sign_mul. auto.
Qed.

(** A divisor with more 64-bit limbs than the dividend panics instead of giving 0. *)
Theorem C46_longer_divisor_partial : forall dbg P st hs a b x y,
  consistent P st hs -> is_int st hs a x -> is_int st hs b y -> addressable y ->
  Z.log2 (Z.abs x) / 64 < Z.log2 (Z.abs y) / 64 ->
  bi_div dbg a b st = Panic /\ bi_rem dbg a b st = Panic.
Proof. intros dbg P st hs a b x y Hc (Ia & Da) (Ib & Db) Hy Hl. eapply bi_div_rem_panic; eauto. Qed.

(** Division by zero never panics. *)
Theorem C46_zero_divisor_partial : forall dbg P st hs a b x,
  consistent P st hs -> room P hs 0 -> is_int st hs a x -> is_int st hs b 0 -> addressable x ->
  (exists q, q <> 0 /\ yields P hs (bi_div dbg a b) st q) /\
  (exists r, Z.abs r = Z.abs x /\ yields P hs (bi_rem dbg a b) st r).
Proof. intros dbg P st hs a b x Hc Hr (Ia & Da) (Ib & Db) Hy. eapply bi_div_rem_zero; eauto. Qed.

Example C46_demo : yields 11 demo_hs (bi_div true 5 31) demo_st (2 ^ 100 + 3) /\ yields 11 demo_hs (bi_rem true 5 38) demo_st (-7).
Proof.
  split.
  - assert (2 ^ 100 + 3 = Z.quot ((2 ^ 100 + 3) * -7) (-7)) as -> by (vm_compute; reflexivity).
    apply (C46_div_rem_partial true 11 demo_st demo_hs 5 31 _ _ demo_consistent demo_room0 demo_c demo_b);
      [discriminate|vm_compute; reflexivity|left; vm_compute; discriminate].
  - assert (-7 = Z.rem ((2 ^ 100 + 3) * -7) 9 * Z.sgn 9) as -> by (vm_compute; reflexivity).
    apply (C46_div_rem_partial true 11 demo_st demo_hs 5 38 _ _ demo_consistent demo_room0 demo_c demo_d);
      [discriminate|vm_compute; reflexivity|left; vm_compute; discriminate].
Qed.
Example C46_longer_demo : bi_div true 38 0 demo_st = Panic.
Proof.
  apply (C46_longer_divisor_partial true 11 demo_st demo_hs 38 0 _ _ demo_consistent demo_d demo_a); vm_compute; reflexivity.
Qed.
Example C46_zero_demo : exists P st hs a b x, consistent P st hs /\ room P hs 0 /\ is_int st hs a x /\ is_int st hs b 0 /\
  addressable x /\ x <> 0.
Proof.
  destruct (run_from_start true [From I32 7; From I32 0] [Some 30; Some 2] [] 0) as [C _];
    [vm_compute; reflexivity|vm_compute; reflexivity|].
  exists 8, [], [30; 2], 30, 2, 7. split; [exact C|]. split; [vm_compute; discriminate|].
  split; [split; [left; auto|vm_compute; reflexivity]|]. split; [split; [right; left; auto|vm_compute; reflexivity]|].
  split; [vm_compute; reflexivity|discriminate].
Qed.
Print Assumptions C46_div_rem_partial.
Print Assumptions C46_longer_divisor_partial.
Print Assumptions C46_zero_divisor_partial.

(** What fails: [7 % -2] is -1 while [7 / -2] is -3, so the identity breaks; [1 / 2^64] panics;
    [7 / 0] does not. *)
Theorem C46_div_rem_refuted :
  (exists e st p q r,
     run false [From I32 7; From I32 (-2); RefRef ODiv 0 1; RefRef ORem 0 1] [] interner_new 0 = Ok (e, st, p) /\
     nth_error e 2 = Some (Some q) /\ nth_error e 3 = Some (Some r) /\
     denotes st q (-3) /\ denotes st r (-1) /\ 7 <> -3 * -2 + -1) /\
  run false [From I32 1; From U128 (2 ^ 64); RefRef ODiv 0 1] [] interner_new 0 = Panic /\
  (exists e st p, run false [From I32 7; From I32 0; RefRef ODiv 0 1] [] interner_new 0 = Ok (e, st, p)).
Proof.
  split; [|split].
  - do 5 eexists. split; [vm_compute; reflexivity|]. repeat (split; [reflexivity|]). discriminate.
  - vm_compute. reflexivity.
  - do 3 eexists. vm_compute. reflexivity.
Qed.
Print Assumptions C46_div_rem_refuted.

(** ** C47 *)

(** What holds: the order is numeric when the magnitudes have a different number of 64-bit
    limbs, when one of them is a single limb, or when the signs differ. *)
Theorem C47_ordering_partial : forall P st hs a b x y,
  consistent P st hs -> proper st hs a x -> proper st hs b y ->
  (x = y \/ Z.log2 (Z.abs x) / 64 <> Z.log2 (Z.abs y) / 64 \/ Z.abs x < 2 ^ 64 \/ Z.abs y < 2 ^ 64 \/
   (x < 0 <= y) \/ (y < 0 <= x)) ->
  bi_cmp st a b = Ok (Z.compare x y).
Proof. intros P st hs a b x y Hc (Ia & Da & Na) (Ib & Db & Nb) H. eapply bi_cmp_spec; eauto. Qed.

Example C47_demo : bi_cmp demo_st 5 31 = Ok Lt /\ bi_cmp demo_st 0 38 = Ok Gt /\ bi_cmp demo_st 0 5 = Ok Gt.
Proof.
  split; [|split].
  - apply (C47_ordering_partial 11 demo_st demo_hs 5 31 _ _ demo_consistent demo_c' demo_b'). right; right; right; left. vm_compute. reflexivity.
  - apply (C47_ordering_partial 11 demo_st demo_hs 0 38 _ _ demo_consistent demo_a' demo_d'). right; right; right; left. vm_compute. reflexivity.
  - apply (C47_ordering_partial 11 demo_st demo_hs 0 5 _ _ demo_consistent demo_a' demo_c'). right; right; right; right; right. vm_compute. split; [reflexivity|discriminate].
Qed.
Print Assumptions C47_ordering_partial.

(** What fails: of two numbers with the same number of limbs the one with the larger low limb
    counts as larger: 2^64 + 5 > 2 * 2^64 + 3. *)
Theorem C47_ordering_refuted : exists e st p h h',
  run false [From U128 (2 ^ 64 + 5); From U128 (2 * 2 ^ 64 + 3)] [] interner_new 0 = Ok (e, st, p) /\
  nth_error e 0 = Some (Some h) /\ nth_error e 1 = Some (Some h') /\
  denotes st h (2 ^ 64 + 5) /\ denotes st h' (2 * 2 ^ 64 + 3) /\ bi_cmp st h h' = Ok Gt.
Proof.
  do 5 eexists. split; [vm_compute; reflexivity|]. split; [reflexivity|]. split; [reflexivity|].
  split; [demo_den|]. split; [demo_den|]. vm_compute. reflexivity.
Qed.
Print Assumptions C47_ordering_refuted.

(** ** C48 *)

Theorem C48_to_unsigned : forall dbg t P st hs a x,
  consistent P st hs -> room P hs 0 -> proper st hs a x -> std_ty t -> isigned t = false ->
  returns P hs (bi_try_from dbg t a) st
    (if x <? 0 then inr Below else if imax t <? x then inr Above else inl x).
Proof. intros dbg t P st hs a x Hc Hr (Ia & Da & Na) Ht Hu. apply try_from_unsigned; auto. Qed.

Example C48_demo : returns 11 demo_hs (bi_try_from true U128 0) demo_st (inl (2 ^ 100 + 3)) /\
  returns 11 demo_hs (bi_try_from true U8 5) demo_st (inr Below) /\ returns 11 demo_hs (bi_try_from true U8 0) demo_st (inr Above).
Proof.
  split; [|split].
  - apply (C48_to_unsigned true U128 11 demo_st demo_hs 0 _ demo_consistent demo_room0 demo_a'); [vm_compute; auto 8|reflexivity].
  - apply (C48_to_unsigned true U8 11 demo_st demo_hs 5 _ demo_consistent demo_room0 demo_c'); [vm_compute; auto 8|reflexivity].
  - apply (C48_to_unsigned true U8 11 demo_st demo_hs 0 _ demo_consistent demo_room0 demo_a'); [vm_compute; auto 8|reflexivity].
Qed.
Print Assumptions C48_to_unsigned.

(** ** C49 *)

(** What holds: the answer is right for every non-negative value of any signed type, and (up
    to 64 bits) values out of range are rejected with the right side. *)
Theorem C49_to_signed_partial : forall dbg t P st hs a x,
  consistent P st hs -> room P hs 0 -> proper st hs a x -> std_ty t -> isigned t = true ->
  (0 <= x <= imax t -> returns P hs (bi_try_from dbg t a) st (inl x)) /\
  ((ibits t <= 64)%nat -> imax t < x -> returns P hs (bi_try_from dbg t a) st (inr Above)) /\
  ((ibits t <= 64)%nat -> x < imin t -> returns P hs (bi_try_from dbg t a) st (inr Below)).
Proof.
  intros dbg t P st hs a x Hc Hr (Ia & Da & Na) Ht Hs.
  destruct (signed_bounds t Ht Hs) as (B1 & B2 & _).
  split; [|split]; intros.
  - apply try_from_signed_nonneg; auto.
  - pose proof (try_from_signed64 dbg t P st hs a x Hc Hr Ia Da Ht Hs ltac:(auto) Na) as R.
    rewrite (proj2 (Z.ltb_lt (imax t) x)) in R by lia. auto.
  - pose proof (try_from_signed64 dbg t P st hs a x Hc Hr Ia Da Ht Hs ltac:(auto) Na) as R.
    rewrite (proj2 (Z.ltb_ge (imax t) x)), (proj2 (Z.ltb_lt x (imin t))) in R by lia. auto.
Qed.

(** Every negative value in range loses its sign, except MIN, which is rejected. *)
Theorem C49_negative_partial : forall dbg t P st hs a x,
  consistent P st hs -> room P hs 0 -> proper st hs a x -> std_ty t -> isigned t = true -> (ibits t <= 64)%nat ->
  imin t <= x < 0 ->
  returns P hs (bi_try_from dbg t a) st (if x =? imin t then inr Above else inl (- x)).
Proof.
  intros dbg t P st hs a x Hc Hr (Ia & Da & Na) Ht Hs Hb Hx.
  destruct (signed_bounds t Ht Hs) as (B1 & B2 & _).
  pose proof (try_from_signed64 dbg t P st hs a x Hc Hr Ia Da Ht Hs Hb Na) as R.
  rewrite (proj2 (Z.ltb_ge (imax t) x)), (proj2 (Z.ltb_ge x (imin t))) in R by lia.
  destruct (Z.eqb_spec x (imin t)).
  - rewrite (proj2 (Z.leb_gt _ _)) in R by lia. auto.
  - rewrite (proj2 (Z.leb_le _ _)) in R by lia. replace (- x) with (Z.abs x) by lia. auto.
Qed.

Example C49_demo : returns 11 demo_hs (bi_try_from true I8 38) demo_st (inl 9) /\
  returns 11 demo_hs (bi_try_from true I64 5) demo_st (inr Below) /\
  returns 11 demo_hs (bi_try_from true I8 31) demo_st (inl 7).
Proof.
  split; [|split].
  - apply (C49_to_signed_partial true I8 11 demo_st demo_hs 38 _ demo_consistent demo_room0 demo_d'); [vm_compute; auto 8|reflexivity|vm_compute; split; discriminate].
  - apply (C49_to_signed_partial true I64 11 demo_st demo_hs 5 _ demo_consistent demo_room0 demo_c'); [vm_compute; auto 8|reflexivity|cbn; lia|vm_compute; reflexivity].
  - apply (C49_negative_partial true I8 11 demo_st demo_hs 31 _ demo_consistent demo_room0 demo_b'); [vm_compute; auto 8|reflexivity|cbn; lia|vm_compute; split; [discriminate|reflexivity]].
Qed.
Print Assumptions C49_to_signed_partial.
Print Assumptions C49_negative_partial.

(** What fails: [i8::try_from(&BigInt::from(-5))] is [Ok(5)], and [i8::MIN] is rejected. *)
Theorem C49_to_signed_refuted : exists e st p h h',
  run false [From I32 (-5); From I32 (-128)] [] interner_new 0 = Ok (e, st, p) /\
  nth_error e 0 = Some (Some h) /\ nth_error e 1 = Some (Some h') /\ denotes st h (-5) /\ denotes st h' (-128) /\
  (exists st', bi_try_from false I8 h st = Ok (inl 5, st')) /\
  (exists st', bi_try_from false I8 h' st = Ok (inr Above, st')).
Proof.
  do 5 eexists. split; [vm_compute; reflexivity|]. repeat (split; [reflexivity|]).
  split; eexists; vm_compute; reflexivity.
Qed.
Print Assumptions C49_to_signed_refuted.

(** ** C50 *)

Theorem C50_left_shift : forall dbg P st hs a b x y,
  consistent P st hs -> room P hs 0 -> is_int st hs a x -> proper st hs b y ->
  (0 <= y < 2 ^ 64 -> yields P hs (bi_shl dbg a b) st (x * 2 ^ y)) /\
  (y < 0 \/ 2 ^ 64 <= y -> bi_shl dbg a b st = Panic).
Proof.
  intros dbg P st hs a b x y Hc Hr (Ia & Da) (Ib & Db & Nb). split; intros H.
  - apply bi_shl_spec; auto.
  - destruct (bi_shl_panic dbg P st hs a b x y Hc Hr Ia Ib Da Db Nb H). auto.
Qed.

Example C50_demo : yields 11 demo_hs (bi_shl true 5 38) demo_st ((2 ^ 100 + 3) * -7 * 2 ^ 9) /\ bi_shl true 38 31 demo_st = Panic.
Proof.
  split.
  - apply (C50_left_shift true 11 demo_st demo_hs 5 38 _ _ demo_consistent demo_room0 demo_c demo_d'). vm_compute. split; [discriminate|reflexivity].
  - apply (C50_left_shift true 11 demo_st demo_hs 38 31 _ _ demo_consistent demo_room0 demo_d demo_b'). left. vm_compute. reflexivity.
Qed.
Print Assumptions C50_left_shift.

(** ** C51 *)

(** What holds: without debug assertions, or below 64, the shift divides toward zero. *)
Theorem C51_right_shift_partial : forall dbg P st hs a b x y,
  consistent P st hs -> room P hs 0 -> is_int st hs a x -> proper st hs b y -> 0 <= y < 2 ^ 64 ->
  (dbg = false \/ y < 64 -> yields P hs (bi_shr dbg a b) st (Z.quot x (2 ^ y))) /\
  (dbg = true -> 64 <= y -> bi_shr dbg a b st = Panic).
Proof.
  intros dbg P st hs a b x y Hc Hr (Ia & Da) (Ib & Db & Nb) Hy. split.
  - intros H. apply bi_shr_spec; auto.
  - intros -> H. apply (bi_shr_debug P st hs a b x y); auto. lia.
Qed.

Example C51_demo : yields 11 demo_hs (bi_shr true 5 38) demo_st (Z.quot ((2 ^ 100 + 3) * -7) (2 ^ 9)).
Proof.
  apply (C51_right_shift_partial true 11 demo_st demo_hs 5 38 _ _ demo_consistent demo_room0 demo_c demo_d').
  - vm_compute. split; [discriminate|reflexivity].
  - right. reflexivity.
Qed.
Print Assumptions C51_right_shift_partial.

(** What fails: with debug assertions [2^100 >> 64] panics. *)
Theorem C51_right_shift_refuted :
  run true [From U128 (2 ^ 100); From I32 64; RefRef OShr 0 1] [] interner_new 0 = Panic /\
  exists r, run true [From U128 (2 ^ 100); From I32 64] [] interner_new 0 = Ok r.
Proof. split; [vm_compute; reflexivity|eexists; vm_compute; reflexivity]. Qed.
Print Assumptions C51_right_shift_refuted.

(** ** C52 *)

Theorem C52_parsing : forall dbg P st hs radix s,
  2 <= radix <= 36 -> consistent P st hs -> room P hs 3 ->
  (forall ds, spells radix s ds ->
     exists c st', bi_from_str_radix dbg s radix st = Ok (inl c, st') /\ consistent P st' (c :: hs) /\
       keeps st st' hs /\ denotes st' c (digits_val radix ds) /\ c <> neg_zero) /\
  ((~ exists ds, spells radix s ds) ->
     exists s1 c s2, s = s1 ++ c :: s2 /\ (forall d, char_digit c = Some d -> radix <= d) /\
       returns P hs (bi_from_str_radix dbg s radix) st (inr (InvalidChar c))).
Proof.
  intros dbg P st hs radix s Hr Hc Hm. split.
  - intros ds Hs. apply from_str_ok; auto. lia.
  - intros Hn. destruct (spells_dec radix s) as [H|(s1 & c & s2 & ds & -> & Hs & Hb)]; [contradiction|].
    exists s1, c, s2. split; auto. split; auto. eapply from_str_err; eauto. lia.
Qed.

(** "1fFg" in radix 16: 'g' is reported; "1fF" is 511. *)
Example C52_demo : spells 16 [49; 102; 70] [1; 15; 15] /\ digits_val 16 [1; 15; 15] = 511 /\
  ~ (exists ds, spells 16 [49; 102; 70; 103] ds) /\
  (exists st', bi_from_str_radix true [49; 102; 70; 103] 16 demo_st = Ok (inr (InvalidChar 103), st')).
Proof.
  split; [repeat constructor|]. split; [reflexivity|]. split; [|eexists; vm_compute; reflexivity].
  intros [ds H]. unfold spells in H.
  repeat match goal with H : Forall2 _ (_ :: _) ?l |- _ => inversion H; clear H; subst end.
  match goal with H : char_digit 103 = Some _ /\ _ |- _ => destruct H as [E L]; vm_compute in E; injection E as <-; lia end.
Qed.
Print Assumptions C52_parsing.

(** ** C53 *)

Lemma display_nonneg dbg P st hs a x : consistent P st hs -> room P hs 5 -> proper st hs a x -> 0 <= x -> addressable x ->
  forall fuel, (Z.to_nat (Z.log2 x) + 1 < fuel)%nat ->
  exists s, returns P hs (bi_display dbg fuel a) st s /\ is_numeral 10 x s.
Proof.
  intros Hc Hr (Ia & Da & Na) Hx Hm fuel Hf.
  destruct (write_base_spec dbg P hs 10 dec_digits digit_char st a x ltac:(lia) eq_refl (fun d H => dec_digits_nth d H)
    Hr Hc Ia Da Hx Na Hm fuel Hf) as (ds & (st' & E & C & K) & F & V & H).
  destruct (info P st hs a x Hc Ia Da) as (la & _ & _ & _ & _ & _ & _ & _ & A3). specialize (A3 Na).
  rewrite (proj2 (Z.ltb_ge x 0)) in A3 by lia.
  exists (map digit_char ds). split; [|exists ds; auto].
  exists st'. split; auto. unfold bi_display. rewrite (mbind_ok _ _ _ _ _ E). unfold minus. rewrite is_negative_odd, A3. reflexivity.
Qed.

(** What holds: non-negative values print as their decimal numeral. *)
Theorem C53_printing_partial : forall dbg P st hs a x,
  consistent P st hs -> room P hs 5 -> proper st hs a x -> 0 <= x -> addressable x ->
  exists s, is_numeral 10 x s /\
    forall fuel, (Z.to_nat (Z.log2 x) + 1 < fuel)%nat -> returns P hs (bi_display dbg fuel a) st s.
Proof.
  intros dbg P st hs a x Hc Hr Hp Hx Hm.
  destruct (display_nonneg dbg P st hs a x Hc Hr Hp Hx Hm (S (Z.to_nat (Z.log2 x) + 1)) ltac:(lia)) as (s & R & Hn).
  exists s. split; auto. intros fuel Hf.
  destruct (display_nonneg dbg P st hs a x Hc Hr Hp Hx Hm fuel Hf) as (s' & R' & Hn').
  assert (s' = s) as -> by (eapply (numeral_unique 10); eauto; lia). auto.
Qed.

(** Every negative value prints as "-0". *)
Theorem C53_negative_partial : forall dbg P st hs a x,
  consistent P st hs -> room P hs 5 -> is_int st hs a x -> x < 0 ->
  forall fuel, (1 <= fuel)%nat -> returns P hs (bi_display dbg fuel a) st [45; 48].
Proof.
  intros dbg P st hs a x Hc Hr (Ia & Da) Hx fuel Hf.
  destruct (write_base_neg dbg P hs 10 dec_digits st a x 48 eq_refl Hr Hc Ia Da Hx fuel Hf) as (st' & E & C & K).
  destruct (info P st hs a x Hc Ia Da) as (la & _ & _ & _ & _ & _ & _ & A2 & _).
  exists st'. split; auto. unfold bi_display. rewrite (mbind_ok _ _ _ _ _ E). unfold minus. rewrite is_negative_odd.
  destruct (Z.odd a); [reflexivity|]. specialize (A2 eq_refl). lia.
Qed.

Example C53_demo : exists s, is_numeral 10 (2 ^ 100 + 3) s /\ returns 11 demo_hs (bi_display true 200 0) demo_st s.
Proof.
  destruct (C53_printing_partial true 11 demo_st demo_hs 0 (2 ^ 100 + 3) demo_consistent) as (s & N & R).
  - eapply room_le; [|apply demo_room]; lia.
  - apply demo_a'.
  - vm_compute. discriminate.
  - vm_compute. reflexivity.
  - exists s. split; auto. apply R. change (Z.log2 (2 ^ 100 + 3)) with 100. lia.
Qed.
Example C53_negative_demo : returns 11 demo_hs (bi_display true 5 5) demo_st [45; 48].
Proof.
  apply (C53_negative_partial true 11 demo_st demo_hs 5 ((2 ^ 100 + 3) * -7) demo_consistent); [eapply room_le; [|apply demo_room]; lia|apply demo_c|reflexivity|lia].
Qed.
Print Assumptions C53_printing_partial.
Print Assumptions C53_negative_partial.

(** What fails: [BigInt::from(-12)] prints "-0", not "-12". *)
Theorem C53_printing_refuted : exists e st p h,
  run false [From I32 (-12)] [] interner_new 0 = Ok (e, st, p) /\ nth_error e 0 = Some (Some h) /\ denotes st h (-12) /\
  (forall fuel, (1 <= fuel)%nat -> exists st', bi_display false fuel h st = Ok ([45; 48], st')) /\
  is_numeral 10 12 [49; 50].
Proof.
  destruct (run_from_start false [From I32 (-12)] [Some 51] [] 0) as [C _]; [vm_compute; reflexivity|vm_compute; reflexivity|].
  do 4 eexists. split; [vm_compute; reflexivity|]. split; [reflexivity|]. split; [vm_compute; reflexivity|]. split.
  - intros fuel Hf. destruct (C53_negative_partial false 8 [] [51] 51 (-12) C ltac:(vm_compute; discriminate)
      ltac:(split; [left; auto|reflexivity]) ltac:(lia) fuel Hf) as (st' & E & _). eauto.
  - exists [1; 2]. repeat split; auto; [repeat constructor; lia|right; split; discriminate].
Qed.
Print Assumptions C53_printing_refuted.

(** ** C54 *)

(** Print, then parse: an equal BigInt, in decimal and in either hexadecimal form (whose "0x"
    prefix is to be cut off before parsing). *)
Theorem C54_round_trip : forall dbg P st hs a x fuel,
  consistent P st hs -> room P hs 5 -> proper st hs a x -> 0 <= x -> addressable x ->
  (Z.to_nat (Z.log2 x) + 1 < fuel)%nat ->
  (exists s st1, bi_display dbg fuel a st = Ok (s, st1) /\
     exists c st2, bi_from_str_radix dbg s 10 st1 = Ok (inl c, st2) /\ denotes st2 c x /\ bi_eq st2 a c = Ok true) /\
  (exists s st1, bi_lower_hex dbg fuel a st = Ok ([48; 120] ++ s, st1) /\
     exists c st2, bi_from_str_radix dbg s 16 st1 = Ok (inl c, st2) /\ denotes st2 c x /\ bi_eq st2 a c = Ok true) /\
  (exists s st1, bi_upper_hex dbg fuel a st = Ok ([48; 120] ++ s, st1) /\
     exists c st2, bi_from_str_radix dbg s 16 st1 = Ok (inl c, st2) /\ denotes st2 c x /\ bi_eq st2 a c = Ok true).
Proof.
  intros dbg P st hs a x fuel Hc Hr (Ia & Da & Na) Hx Hm Hf.
  destruct (info P st hs a x Hc Ia Da) as (la & _ & _ & _ & _ & _ & _ & _ & A3). specialize (A3 Na).
  rewrite (proj2 (Z.ltb_ge x 0)) in A3 by lia.
  assert (minus a = []) as Hmin. { unfold minus. rewrite is_negative_odd, A3. reflexivity. }
  assert (forall radix chars f, 2 <= radix <= 36 -> Z.of_nat (length chars) = radix ->
    (forall d, 0 <= d < radix -> nth_error chars (Z.to_nat d) = Some (f d)) ->
    (forall d, 0 <= d < 36 -> char_digit (f d) = Some d) ->
    exists s st1, bi_write_base dbg fuel a radix chars st = Ok (s, st1) /\
     exists c st2, bi_from_str_radix dbg s radix st1 = Ok (inl c, st2) /\ denotes st2 c x /\ bi_eq st2 a c = Ok true) as G.
  { intros radix chars f H1 H2 H3 H4.
    destruct (write_base_spec dbg P hs radix chars f st a x H1 H2 H3 Hr Hc Ia Da Hx Na Hm fuel Hf) as (ds & (st1 & E & C & K) & F & V & H).
    exists (map f ds), st1. split; auto.
    destruct (from_str_ok dbg P st1 hs radix (map f ds) ds ltac:(lia) C ltac:(eapply room_le; [|exact Hr]; lia)
      (spells_map radix f ds ltac:(lia) F H4)) as (c & st2 & E2 & C2 & K2 & D2 & N2).
    rewrite V in D2. exists c, st2. split; auto. split; auto.
    rewrite (C42_equality_is_value_equality P st2 (c :: hs) a c x x C2); [rewrite Z.eqb_refl; auto| |].
    - split; [right; auto|]. split; auto.
    - split; [left; auto|]. split; auto. }
  split; [|split].
  - destruct (G 10 dec_digits digit_char ltac:(lia) eq_refl dec_digits_nth char_digit_char) as (s & st1 & E & R).
    exists s, st1. split; auto. unfold bi_display. rewrite (mbind_ok _ _ _ _ _ E), Hmin. reflexivity.
  - destruct (G 16 lower_hex digit_char ltac:(lia) eq_refl lower_hex_nth char_digit_char) as (s & st1 & E & R).
    exists s, st1. split; auto. unfold bi_lower_hex. rewrite (mbind_ok _ _ _ _ _ E), Hmin. reflexivity.
  - destruct (G 16 upper_hex upper_char ltac:(lia) eq_refl upper_hex_nth char_digit_upper) as (s & st1 & E & R).
    exists s, st1. split; auto. unfold bi_upper_hex. rewrite (mbind_ok _ _ _ _ _ E), Hmin. reflexivity.
Qed.

Example C54_demo : exists s st1 c st2, bi_display false 200 0 demo_st = Ok (s, st1) /\
  bi_from_str_radix false s 10 st1 = Ok (inl c, st2) /\ bi_eq st2 0 c = Ok true /\ (20 < length s)%nat.
Proof.
  destruct (C54_round_trip false 11 demo_st demo_hs 0 (2 ^ 100 + 3) 200 demo_consistent) as ((s & st1 & E & c & st2 & E2 & _ & Q) & _).
  - eapply room_le; [|apply demo_room]; lia.
  - apply demo_a'.
  - vm_compute. discriminate.
  - vm_compute. reflexivity.
  - change (Z.log2 (2 ^ 100 + 3)) with 100. lia.
  - exists s, st1, c, st2. split; auto. split; auto. split; auto.
    assert (E3 : exists s' st', bi_display false 200 0 demo_st = Ok (s', st') /\ (length s' = 31)%nat)
      by (do 2 eexists; split; vm_compute; reflexivity).
    destruct E3 as (s' & st' & E3 & L). rewrite E in E3. assert (s = s') as -> by congruence. lia.
Qed.
Print Assumptions C54_round_trip.

(** ** C55 *)

(** [a.pow(n)] on owned values; the loop needs [n] iterations. *)
Theorem C55_pow : forall dbg P st hs a b x y,
  consistent P st (a :: b :: hs) -> room P hs 6 -> denotes st a x -> denotes st b y ->
  a <> neg_zero -> b <> neg_zero -> 0 <= y ->
  forall fuel, (Z.to_nat y <= fuel)%nat -> yields P hs (bi_pow dbg fuel a b) st (x ^ y).
Proof. intros dbg P st hs a b x y Hc Hr Da Db Na Nb Hy fuel Hf. apply bi_pow_spec; auto. Qed.

Example C55_demo : yields 11 [0; 31] (bi_pow true 20 5 38) demo_st (((2 ^ 100 + 3) * -7) ^ 9).
Proof.
  apply C55_pow; try (vm_compute; discriminate).
  - eapply con_perm; [|apply demo_consistent]. rewrite demo_handles.
    change [0; 31; 5; 38] with ([0; 31] ++ [5; 38]). change [5; 38; 0; 31] with ([5; 38] ++ [0; 31]). apply Permutation_app_comm.
  - apply demo_c.
  - apply demo_d.
  - change (Z.to_nat 9) with 9%nat. lia.
Qed.
Print Assumptions C55_pow.

(** ** C56 *)

(** What holds: with signed primitives (other than MIN in a debug build), and with unsigned
    ones when the BigInt is not negative. *)
Theorem C56_eq_primitive_partial : forall dbg t P st hs a x v,
  consistent P st hs -> std_ty t -> in_range t v = true ->
  (isigned t = true -> proper st hs a x -> (dbg = true -> v <> imin t) -> bi_eq_int dbg t st a v = Ok (x =? v)) /\
  (isigned t = false -> is_int st hs a x -> 0 <= x -> bi_eq_int dbg t st a v = Ok (x =? v)).
Proof.
  intros dbg t P st hs a x v Hc Ht Hv. split.
  - intros Hs (Ia & Da & Na) Hm. eapply bi_eq_signed; eauto. destruct dbg; auto.
  - intros Hs (Ia & Da) Hx. rewrite (bi_eq_unsigned dbg t P st hs a x v); auto. rewrite Z.abs_eq by lia. auto.
Qed.

(** Comparison with an unsigned primitive ignores the sign. *)
Theorem C56_eq_unsigned_partial : forall dbg t P st hs a x v,
  consistent P st hs -> std_ty t -> in_range t v = true -> isigned t = false -> is_int st hs a x ->
  bi_eq_int dbg t st a v = Ok (Z.abs x =? v).
Proof. intros dbg t P st hs a x v Hc Ht Hv Hs (Ia & Da). eapply bi_eq_unsigned; eauto. Qed.

Example C56_demo : bi_eq_int true I8 demo_st 31 (-7) = Ok true /\ bi_eq_int true U128 demo_st 0 (2 ^ 100 + 3) = Ok true.
Proof.
  split.
  - apply (proj1 (C56_eq_primitive_partial true I8 11 demo_st demo_hs 31 (-7) (-7) demo_consistent ltac:(vm_compute; auto 8) eq_refl));
      [reflexivity|apply demo_b'|discriminate].
  - apply (proj2 (C56_eq_primitive_partial true U128 11 demo_st demo_hs 0 (2 ^ 100 + 3) (2 ^ 100 + 3) demo_consistent ltac:(vm_compute; auto 8) eq_refl));
      [reflexivity|apply demo_a|vm_compute; discriminate].
Qed.
Print Assumptions C56_eq_primitive_partial.
Print Assumptions C56_eq_unsigned_partial.

(** What fails: [BigInt::from(-5) == 5u8]; and in a debug build [BigInt::from(-128) == -128i8]
    panics. *)
Theorem C56_eq_primitive_refuted : exists e st p h h',
  run true [From I32 (-5); From I32 (-128)] [] interner_new 0 = Ok (e, st, p) /\
  nth_error e 0 = Some (Some h) /\ nth_error e 1 = Some (Some h') /\ denotes st h (-5) /\ denotes st h' (-128) /\
  bi_eq_int true U8 st h 5 = Ok true /\ bi_eq_int true I8 st h' (-128) = Panic.
Proof.
  do 5 eexists. split; [vm_compute; reflexivity|]. repeat (split; [reflexivity|]). vm_compute. reflexivity.
Qed.
Print Assumptions C56_eq_primitive_refuted.

(** ** C57 *)

(** In any program (started with an empty store): between any two points in time a BigInt that
    exists at both keeps its handle and the integer it denotes; its slot is readable; and the
    reference count of every slot is the number of existing BigInts that refer to it.  (The
    number of BigInts alive at a time is assumed to stay below 2^61.) *)
Theorem C57_values_stable : forall dbg cs1 cs2 e1 st1 p1 e2 st2 p2,
  run dbg cs1 [] interner_new 0 = Ok (e1, st1, p1) -> run dbg cs2 e1 st1 p1 = Ok (e2, st2, p2) ->
  Z.of_nat p2 + 8 < 2 ^ 61 ->
  (forall i h, (i < length e1)%nat -> nth_error e2 i = Some (Some h) ->
     nth_error e1 i = Some (Some h) /\
     exists v l, denotes st1 h v /\ denotes st2 h v /\ (forall v', denotes st2 h v' -> v' = v) /\
       bi_slice st2 h = Ok l /\ Z.abs v = val 64 l) /\
  (forall k, 0 <= k < 32 * Z.of_nat (length st2) -> refcount st2 k = Ok (Z.of_nat (uses k (handles e2)))) /\
  consistent (Z.of_nat p2 + 8) st2 (handles e2).
Proof.
  intros dbg cs1 cs2 e1 st1 p1 e2 st2 p2 E1 E2 Hp.
  pose proof (run_peak _ _ _ _ _ _ _ _ E2) as Hpk.
  destruct (run_from_start dbg cs1 e1 st1 p1 E1 ltac:(lia)) as [C1 L1].
  assert (consistent (Z.of_nat p2 + 8) st1 (handles e1)) as C1' by (eapply con_weaken; [|exact C1]; lia).
  destruct (run_sound dbg (Z.of_nat p2 + 8) cs2 e1 st1 p1 e2 st2 p2 C1' L1 E2 ltac:(lia)) as [(C2 & K & V) L2].
  split; [|split; auto].
  - intros i h Hi H. destruct K as [KL K]. pose proof (K i h Hi H) as H1. split; auto.
    destruct (denotes_ex _ _ _ _ C1' (nth_handles _ _ _ H1)) as (v & D1).
    pose proof (V i h Hi H v D1) as D2. pose proof (nth_handles _ _ _ H) as In2.
    destruct (info _ _ _ _ _ C2 In2 D2) as (l & S & _ & _ & _ & Vl & _).
    exists v, l. split; auto. split; auto. split; [intros v' D'; eapply denotes_fun; eauto|].
    split; [apply S|lia].
  - apply (con_refs _ _ _ C2).
Qed.

(** A program that drops, recomputes and reuses slots while two interned values stay alive. *)
Example C57_demo :
  let cs1 := [From U128 (2 ^ 100); From U128 (2 ^ 101); Clone 0; Drop 0] in
  let cs2 := [ValVal OMul 1 2; Drop 3; From U128 (2 ^ 100); From U128 (2 ^ 102); RefRef OAdd 4 5] in
  exists r1 r2, run true cs1 [] interner_new 0 = Ok r1 /\ run true cs2 (fst (fst r1)) (snd (fst r1)) (snd r1) = Ok r2 /\
    Z.of_nat (snd r2) + 8 < 2 ^ 61 /\ length (handles (fst (fst r2))) = 3%nat.
Proof. do 2 eexists. split; [vm_compute; reflexivity|]. split; [vm_compute; reflexivity|]. split; vm_compute; reflexivity. Qed.
Print Assumptions C57_values_stable.

(** ** C58 *)

Theorem C58_released_and_bounded : forall dbg cs e st p,
  run dbg cs [] interner_new 0 = Ok (e, st, p) -> Z.of_nat p + 8 < 2 ^ 61 ->
  (length st <= 1 + p)%nat /\
  ((forall i h, nth_error e i <> Some (Some h)) ->
     forall k, 0 <= k < 32 * Z.of_nat (length st) -> refcount st k = Ok 0 /\ try_get st k = Ok None).
Proof.
  intros dbg cs e st p E Hp. destruct (run_from_start dbg cs e st p E Hp) as [C L]. split.
  - pose proof (con_size _ _ _ C). lia.
  - intros Hd k Hk. assert (handles e = []) as H0.
    { destruct (handles e) as [|h l] eqn:Eh; auto. exfalso.
      assert (In h (handles e)) as Hin by (rewrite Eh; left; auto).
      unfold handles in Hin. apply in_flat_map in Hin. destruct Hin as (o & Ho & Hin). destruct o as [h'|]; [|destruct Hin].
      apply In_nth_error in Ho. destruct Ho as [i Hi]. eapply Hd; eauto. }
    pose proof (con_refs _ _ _ C k Hk) as R. rewrite H0 in R. split; auto.
    destruct (in_range_slot st k (con_shape _ _ _ C) Hk) as [s Es].
    rewrite (try_get_spec st k s) by (auto; try apply (con_shape _ _ _ C); lia).
    unfold refcount in R. pose proof (slot_at_offset st k (con_shape _ _ _ C) ltac:(lia)) as H.
    destruct (offset_to_idx k). rewrite H, Es in R. cbn [unwrap bind] in R.
    assert (refs s = 0) as -> by (cbn in R; congruence). reflexivity.
Qed.

Example C58_demo : exists e st p,
  run true [From U128 (2 ^ 100); Clone 0; ValVal OMul 0 1; Drop 2] [] interner_new 0 = Ok (e, st, p) /\
  Z.of_nat p + 8 < 2 ^ 61 /\ (forall i h, nth_error e i <> Some (Some h)) /\ length st = 1%nat /\ p = 2%nat.
Proof.
  do 3 eexists. split; [vm_compute; reflexivity|]. split; [vm_compute; reflexivity|]. split; [|split; reflexivity].
  intros [|[|[|[|i]]]] h; cbn; discriminate.
Qed.
Print Assumptions C58_released_and_bounded.

(** ** C98 *)

(** What holds: on non-negative BigInts [&], [|] and [^] are the bitwise operators on integers. *)
Theorem C98_bitwise_partial : forall dbg P st hs a b x y,
  consistent P st hs -> room P hs 0 -> proper st hs a x -> is_int st hs b y -> 0 <= x -> 0 <= y ->
  yields P hs (bi_bitand dbg a b) st (Z.land x y) /\
  yields P hs (bi_bitor dbg a b) st (Z.lor x y) /\
  yields P hs (bi_bitxor dbg a b) st (Z.lxor x y).
Proof.
  intros dbg P st hs a b x y Hc Hr (Ia & Da & Na) (Ib & Db) Hx Hy.
  destruct (info P st hs a x Hc Ia Da) as (la & _ & _ & _ & _ & _ & _ & _ & A3). specialize (A3 Na).
  rewrite (proj2 (Z.ltb_ge x 0)) in A3 by lia.
  pose proof (bi_bitop_spec dbg Z.land andb P st hs a b x y Hc Hr Ia Ib Da Db ltac:(intros; apply land_range; auto) ltac:(intros; apply Z.land_spec) eq_refl) as H1.
  pose proof (bi_bitop_spec dbg Z.lor orb P st hs a b x y Hc Hr Ia Ib Da Db ltac:(intros; apply lor_range; auto) ltac:(intros; apply Z.lor_spec) eq_refl) as H2.
  pose proof (bi_bitop_spec dbg Z.lxor xorb P st hs a b x y Hc Hr Ia Ib Da Db ltac:(intros; apply lxor_range; auto) ltac:(intros; apply Z.lxor_spec) eq_refl) as H3.
  rewrite A3 in H1, H2, H3. unfold signed in H1, H2, H3. rewrite Z.mul_1_l, !Z.abs_eq in H1, H2, H3 by lia.
  auto.
Qed.

(** In general the operators work on the magnitudes and take the sign of the left operand. *)
Theorem C98_bitwise_magnitudes_partial : forall dbg P st hs a b x y,
  consistent P st hs -> room P hs 0 -> proper st hs a x -> is_int st hs b y -> x <> 0 ->
  yields P hs (bi_bitand dbg a b) st (Z.sgn x * Z.land (Z.abs x) (Z.abs y)) /\
  yields P hs (bi_bitor dbg a b) st (Z.sgn x * Z.lor (Z.abs x) (Z.abs y)) /\
  yields P hs (bi_bitxor dbg a b) st (Z.sgn x * Z.lxor (Z.abs x) (Z.abs y)).
Proof.
  intros dbg P st hs a b x y Hc Hr (Ia & Da & Na) (Ib & Db) Hx.
  destruct (info P st hs a x Hc Ia Da) as (la & _ & _ & _ & _ & _ & _ & _ & A3). specialize (A3 Na).
  pose proof (bi_bitop_spec dbg Z.land andb P st hs a b x y Hc Hr Ia Ib Da Db ltac:(intros; apply land_range; auto) ltac:(intros; apply Z.land_spec) eq_refl) as H1.
  pose proof (bi_bitop_spec dbg Z.lor orb P st hs a b x y Hc Hr Ia Ib Da Db ltac:(intros; apply lor_range; auto) ltac:(intros; apply Z.lor_spec) eq_refl) as H2.
  pose proof (bi_bitop_spec dbg Z.lxor xorb P st hs a b x y Hc Hr Ia Ib Da Db ltac:(intros; apply lxor_range; auto) ltac:(intros; apply Z.lxor_spec) eq_refl) as H3.
  rewrite A3 in H1, H2, H3. unfold signed in H1, H2, H3.
  assert ((if x <? 0 then -1 else 1) = Z.sgn x) as Es by (destruct (Z.ltb_spec x 0); lia).
  rewrite Es in H1, H2, H3. auto.
Qed.

Example C98_demo : yields 11 demo_hs (bi_bitor true 0 38) demo_st (Z.lor (2 ^ 100 + 3) 9) /\
  yields 11 demo_hs (bi_bitand true 31 38) demo_st (-1).
Proof.
  split.
  - apply (C98_bitwise_partial true 11 demo_st demo_hs 0 38 _ _ demo_consistent demo_room0 demo_a' demo_d); vm_compute; discriminate.
  - apply (C98_bitwise_magnitudes_partial true 11 demo_st demo_hs 31 38 _ _ demo_consistent demo_room0 demo_b' demo_d). discriminate.
Qed.
Print Assumptions C98_bitwise_partial.
Print Assumptions C98_bitwise_magnitudes_partial.

(** What fails: [BigInt::from(-7) & BigInt::from(9)] is -1; the integer operation gives 9; and
    [!BigInt::from(0)] is 2^64 - 1, not -1. *)
Theorem C98_bitwise_refuted : exists e st p h h',
  run false [From I32 (-7); From I32 9; RefRef OAnd 0 1; From I32 0; BigIntRun.Not 3] [] interner_new 0 = Ok (e, st, p) /\
  nth_error e 2 = Some (Some h) /\ nth_error e 4 = Some (Some h') /\ denotes st h (-1) /\ Z.land (-7) 9 = 9 /\
  denotes st h' (2 ^ 64 - 1) /\ Z.lnot 0 = -1.
Proof.
  do 5 eexists. split; [vm_compute; reflexivity|]. split; [reflexivity|]. split; [reflexivity|]. split; [demo_den|].
  split; [reflexivity|]. split; [demo_den|]. reflexivity.
Qed.
Print Assumptions C98_bitwise_refuted.

(** ** C99 *)

(** What holds: saturating conversion to unsigned types clamps; to signed ones (up to 64 bits)
    it clamps values that are non-negative or below MIN. *)
Theorem C99_saturate_partial : forall dbg t P st hs a x,
  consistent P st (a :: hs) -> room P (a :: hs) 0 -> denotes st a x -> a <> neg_zero -> std_ty t ->
  (isigned t = false -> returns P hs (bi_saturate dbg t a) st (Z.max 0 (Z.min x (imax t)))) /\
  (isigned t = true -> (ibits t <= 64)%nat -> 0 <= x \/ x < imin t ->
     returns P hs (bi_saturate dbg t a) st (Z.max (imin t) (Z.min x (imax t)))).
Proof.
  intros dbg t P st hs a x Hc Hr Da Na Ht. split.
  - intros Hs. apply saturate_unsigned; auto.
  - intros Hs Hb Hx. destruct (signed_bounds t Ht Hs) as (B1 & B2 & _).
    replace (Z.max (imin t) (Z.min x (imax t))) with (if x <? imin t then imin t else Z.min (Z.abs x) (imax t)).
    + apply saturate_signed64; auto.
    + destruct (Z.ltb_spec x (imin t)); lia.
Qed.

Example C99_demo : returns 11 [31; 5; 38] (bi_saturate true U8 0) demo_st 255.
Proof.
  apply (proj1 (C99_saturate_partial true U8 11 demo_st [31; 5; 38] 0 (2 ^ 100 + 3) demo_consistent demo_room0
    (proj2 demo_a) ltac:(vm_compute; discriminate) ltac:(vm_compute; auto))). reflexivity.
Qed.
Print Assumptions C99_saturate_partial.

(** What fails: saturating -5 to i8 gives 5. *)
Theorem C99_saturate_refuted : exists st', bi_saturate false I8 23 interner_new = Ok (5, st') /\
  bi_from false I32 (-5) interner_new = Ok (23, interner_new).
Proof. eexists. split; vm_compute; reflexivity. Qed.
Print Assumptions C99_saturate_refuted.

(** ** C100 *)

(** What holds: truncation keeps values that fit (signed: in magnitude). *)
Theorem C100_truncate_partial : forall dbg t P st hs a x,
  consistent P st (a :: hs) -> denotes st a x -> std_ty t -> Z.abs x <= imax t -> isigned t = true \/ 0 <= x ->
  returns P hs (bi_truncate dbg t a) st x.
Proof.
  intros dbg t P st hs a x Hc Da Ht Hm Hs.
  pose proof (truncate_small dbg t P st hs a x Hc Da Ht Hm) as R.
  destruct (isigned t) eqn:Es; auto. destruct Hs as [Hs|Hs]; [discriminate|]. rewrite Z.abs_eq in R by lia. auto.
Qed.

Example C100_demo : returns 11 [0; 5; 38] (bi_truncate true I8 31) demo_st (-7).
Proof.
  apply (C100_truncate_partial true I8 11 demo_st [0; 5; 38] 31 (-7)).
  - eapply con_perm; [|apply demo_consistent]. rewrite demo_handles. apply perm_swap.
  - apply demo_b.
  - vm_compute; auto.
  - vm_compute. discriminate.
  - auto.
Qed.
Print Assumptions C100_truncate_partial.

(** What fails: truncating 300 to u8 gives 255 instead of 44, and -5 gives 5 instead of 251. *)
Theorem C100_truncate_refuted :
  bi_from false I32 300 interner_new = Ok (1202, interner_new) /\
  bi_truncate false U8 1202 interner_new = Ok (255, interner_new) /\ 300 mod 2 ^ 8 = 44 /\
  bi_from false I32 (-5) interner_new = Ok (23, interner_new) /\
  bi_truncate false U8 23 interner_new = Ok (5, interner_new) /\ -5 mod 2 ^ 8 = 251.
Proof. repeat split; vm_compute; reflexivity. Qed.
Print Assumptions C100_truncate_refuted.
