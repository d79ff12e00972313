(** Property C175: the capacity given to [Interner::with_capacity]. *)
From Coq Require Import ZArith List Bool Lia FinFun.
From Verif Require Import Base BitSliceModel PrimModel PrimProofs InternModel InternCapModel InternProofs InternSpec InternHist.
Import ListNotations.
Local Open Scope Z_scope.

(** At every [add], fewer than [capacity] different ids had references. *)
Definition within {T} (capacity : Z) (tr : list (event T)) : Prop :=
  forall tr1 v k tr2, tr = tr1 ++ EAdd v k :: tr2 ->
  forall ids, NoDup ids -> Forall (fun i => 0 < count i tr1) ids -> Z.of_nat (length ids) < capacity.

Section Proofs.
Context {T : Type} (eqb : T -> T -> bool) (eqb_ok : forall a b, eqb a b = true <-> a = b).

Lemma step_keeps dbg st tr op e st' capacity : agrees st tr -> (forall k, count k tr < 2 ^ 64 - 1) ->
  istep eqb dbg st op = Ok (e, st') -> capacity <= 32 * Z.of_nat (length st) ->
  (forall v k, e = EAdd v k -> forall ids, NoDup ids -> Forall (fun i => 0 < count i tr) ids -> Z.of_nat (length ids) < capacity) ->
  (forall k, op = IIncr k \/ op = IDecr k -> 0 <= k) ->
  length st' = length st.
Proof using eqb_ok.
  intros Ag Hlen E Hc Hw Hk. pose proof Ag as [Hs Hg Ho]. destruct op as [v|k|k]; cbn [istep] in E.
  - destruct (intern_add_spec eqb eqb_ok dbg v st Hs) as (k & st1 & E1 & Hk1 & Hs' & Hp & H).
    { intros k s Hk2 E2. destruct (Hg k s Hk2 E2) as [-> _]. pose proof (count_bound k tr). specialize (Hlen k). lia. }
    rewrite E1 in E. cbn [bind] in E. injection E as <- <-.
    destruct (slot_of st k) as [s|] eqn:Es; [apply H|]. exfalso. destruct H as (H1 & _ & _).
    set (ids := map Z.of_nat (seq 0 (32 * length st))).
    specialize (Hw v k eq_refl ids). unfold ids in Hw. rewrite map_length, seq_length in Hw.
    assert (Z.of_nat (32 * length st) < capacity); [|lia]. apply Hw.
    + apply Injective_map_NoDup; [intros x y; lia|apply seq_NoDup].
    + apply Forall_forall. intros i Hi. apply in_map_iff in Hi. destruct Hi as (n & <- & Hn). apply in_seq in Hn.
      destruct (in_range_slot st (Z.of_nat n) Hs ltac:(lia)) as [s Es2]. destruct (Hg (Z.of_nat n) s ltac:(lia) Es2) as [R _].
      destruct (Hp (Z.of_nat n) s ltac:(lia) Es2) as [_ R2]. pose proof (count_bound (Z.of_nat n) tr). lia.
  - destruct (slot_of st k) as [s|] eqn:Es.
    + destruct (intern_incr_spec dbg st k s Hs (Hk k (or_introl eq_refl)) Es) as (st1 & E1 & _ & Hl & _).
      { destruct (Hg k s (Hk k (or_introl eq_refl)) Es) as [R _]. pose proof (count_bound k tr). specialize (Hlen k). lia. }
      rewrite E1 in E. cbn [bind] in E. congruence.
    + assert (istep eqb dbg st (IIncr k) = Panic) as P; [|cbn [istep] in P; rewrite P in E; discriminate].
      apply (istep_panic eqb dbg st tr); auto; [exists k; split; auto; apply Hk; auto|].
      intros Hop. destruct (in_range_slot st k Hs Hop) as [s Es2]. congruence.
  - destruct (slot_of st k) as [s|] eqn:Es.
    + destruct (intern_decr_spec st k s Hs (Hk k (or_intror eq_refl)) Es) as (st1 & E1 & _ & Hl & _).
      rewrite E1 in E. cbn [bind] in E. congruence.
    + assert (istep eqb dbg st (IDecr k) = Panic) as P; [|cbn [istep] in P; rewrite P in E; discriminate].
      apply (istep_panic eqb dbg st tr); auto; [exists k; split; auto; apply Hk; auto|].
      intros Hop. destruct (in_range_slot st k Hs Hop) as [s Es2]. congruence.
Qed.

Lemma run_keeps dbg capacity : forall ops tr st tr' st', agrees st tr -> never_full tr' ->
  (forall k, In (IIncr k) ops \/ In (IDecr k) ops -> 0 <= k) -> capacity <= 32 * Z.of_nat (length st) ->
  irun eqb dbg ops tr st = Ok (tr', st') -> within capacity tr' -> length st' = length st.
Proof using eqb_ok.
  induction ops as [|op ops IH]; intros tr st tr' st' Ag Hl Hk Hc E Hw; cbn [irun] in E; [congruence|].
  destruct (istep eqb dbg st op) as [[e st1]| |] eqn:E1; try discriminate. cbn [bind] in E.
  destruct (irun_prefix eqb dbg ops _ _ _ _ E) as [tr2 E2].
  assert (forall k, count k tr < 2 ^ 64 - 1) as Hr.
  { intros k. apply (Hl tr (e :: tr2) k). rewrite E2, <- app_assoc. reflexivity. }
  assert (length st1 = length st) as L1.
  { apply (step_keeps dbg st tr op e st1 capacity); auto.
    - intros v k -> ids. apply (Hw tr v k tr2). rewrite E2, <- app_assoc. reflexivity.
    - intros k Q. apply Hk. cbn [In]. destruct Q; auto. }
  assert (irun eqb dbg [op] tr st = Ok (tr ++ [e], st1)) as E3 by (cbn [irun]; rewrite E1; reflexivity).
  assert (agrees st1 (tr ++ [e])) as Ag1.
  { apply (irun_agrees eqb eqb_ok dbg [op] tr st (tr ++ [e]) st1); auto.
    - intros a b k Q. apply (Hl a (b ++ tr2) k). rewrite E2, Q, app_assoc. reflexivity.
    - intros k [[Q|[]]|[Q|[]]]; apply Hk; cbn; auto. }
  rewrite <- L1. apply (IH (tr ++ [e]) st1 tr' st'); auto; [|lia].
  intros k Q. apply Hk. cbn. tauto.
Qed.
End Proofs.

Lemma chunks_ok dbg capacity : 0 <= capacity <= 2 ^ 64 - 33 -> chunks_for dbg capacity = Ok ((capacity + 31) / 32).
Proof.
  intros H. unfold chunks_for. assert (imin usize_t = 0 /\ imax usize_t = 2 ^ 64 - 1) as [A B] by (split; reflexivity).
  change (Z.of_nat chunk_size) with 32.
  rewrite arith_in by lia. cbn [bind]. rewrite arith_in by lia. cbn [bind]. do 2 f_equal. lia.
Qed.

Lemma chunks_big dbg capacity : 2 ^ 64 - 32 <= capacity < 2 ^ 64 ->
  chunks_for dbg capacity = if dbg then Panic else if capacity =? 2 ^ 64 - 32 then Ok (2 ^ 59 - 1) else Ok 0.
Proof.
  intros H. unfold chunks_for. assert (imin usize_t = 0 /\ imax usize_t = 2 ^ 64 - 1) as [A B] by (split; reflexivity).
  assert (forall v, wrap usize_t v = v mod 2 ^ 64) as W by reflexivity.
  change (Z.of_nat chunk_size) with 32.
  rewrite arith_out by lia. destruct dbg; [reflexivity|]. cbn [bind]. rewrite W.
  assert ((capacity + 32) mod 2 ^ 64 = capacity + 32 - 2 ^ 64) as ->.
  { symmetry. apply Z.mod_unique_pos with 1; lia. }
  destruct (capacity =? 2 ^ 64 - 32) eqn:E.
  - apply Z.eqb_eq in E. subst. reflexivity.
  - apply Z.eqb_neq in E. rewrite arith_in by lia. cbn [bind]. f_equal. apply Z.div_small. lia.
Qed.

Lemma cap_ok {T} dbg capacity : 0 <= capacity <= 2 ^ 64 - 33 ->
  @with_capacity_usize T dbg capacity = Ok (with_capacity (Z.to_nat capacity)).
Proof.
  intros H. unfold with_capacity_usize, with_capacity. rewrite chunks_ok by auto. cbn [bind]. do 2 f_equal.
  rewrite <- (Nat2Z.id (_ / 32)). f_equal. rewrite Nat2Z.inj_div. change (Z.of_nat 32) with 32. f_equal.
  assert (chunk_size = 32%nat) as -> by reflexivity. lia.
Qed.

(** An interner made for [capacity] values has at least that many slots and fewer than 32 too many, all without references, and its
    list of chunks stays as it is as long as fewer than [capacity] ids have references at each [add]. *)
Theorem C175_room_partial : forall (T : Type) (eqb : T -> T -> bool) dbg capacity,
  (forall a b, eqb a b = true <-> a = b) -> 0 <= capacity <= 2 ^ 64 - 33 ->
  exists st0, with_capacity_usize dbg capacity = Ok st0 /\
    capacity <= 32 * Z.of_nat (length st0) < capacity + 32 /\
    (forall id, 0 <= id < 32 * Z.of_nat (length st0) -> try_get st0 id = Ok None) /\
    forall ops tr st, (forall k, In (IIncr k) ops \/ In (IDecr k) ops -> 0 <= k) ->
      irun eqb dbg ops [] st0 = Ok (tr, st) -> never_full tr -> within capacity tr -> length st = length st0.
Proof.
  intros T eqb dbg capacity Heq Hc. exists (with_capacity (Z.to_nat capacity)).
  split; [apply cap_ok; auto|].
  assert (capacity <= 32 * Z.of_nat (length (@with_capacity T (Z.to_nat capacity))) < capacity + 32) as L.
  { unfold with_capacity. rewrite repeat_length, Nat2Z.inj_div. change (Z.of_nat 32) with 32.
    assert (chunk_size = 32%nat) as -> by reflexivity.
    pose proof (Z.div_mod (Z.of_nat (Z.to_nat capacity + 32 - 1)) 32 ltac:(lia)).
    pose proof (Z.mod_pos_bound (Z.of_nat (Z.to_nat capacity + 32 - 1)) 32 ltac:(lia)). lia. }
  split; [exact L|]. split.
  { intros id Hid. destruct (@agrees_new T (Z.to_nat capacity)) as [Hs Hg _].
    destruct (in_range_slot _ id Hs Hid) as [s E]. rewrite (try_get_spec _ id s) by (auto; lia).
    destruct (Hg id s ltac:(lia) E) as [R _]. rewrite R. reflexivity. }
  intros ops tr st Hk E Hf Hw. apply (run_keeps eqb Heq dbg capacity ops [] _ tr st); auto; [apply agrees_new|lia].
Qed.
Print Assumptions C175_room_partial.

(** The 32 largest capacities: making the interner panics in a build with overflow checks; in a build without, the largest 31 of them
    give an interner without any slot. *)
Theorem C175_large_partial : forall (T : Type) capacity, 2 ^ 64 - 32 <= capacity < 2 ^ 64 ->
  @with_capacity_usize T true capacity = Panic /\
  (capacity <> 2 ^ 64 - 32 -> @with_capacity_usize T false capacity = Ok []) /\
  chunks_for false (2 ^ 64 - 32) = Ok (2 ^ 59 - 1).
Proof.
  intros T capacity H. unfold with_capacity_usize. split; [rewrite (chunks_big true) by auto; reflexivity|]. split.
  - intros N. rewrite (chunks_big false) by auto. rewrite (proj2 (Z.eqb_neq _ _) N). reflexivity.
  - rewrite chunks_big by lia. reflexivity.
Qed.
Print Assumptions C175_large_partial.

(** The claim fails: without overflow checks an interner made for [usize::MAX] values has room for none, and grows on the first [add];
    with overflow checks it is not made. *)
Theorem C175_refuted : exists capacity, 0 <= capacity < 2 ^ 64 /\
  @with_capacity_usize Z true capacity = Panic /\
  exists st0 tr st, with_capacity_usize false capacity = Ok st0 /\ irun Z.eqb false [IAdd 7] [] st0 = Ok (tr, st) /\
    never_full tr /\ within capacity tr /\ length st <> length st0.
Proof.
  exists (2 ^ 64 - 1). split; [lia|]. split; [apply (C175_large_partial Z (2 ^ 64 - 1)); lia|].
  exists [], [EAdd 7 0]. eexists. split; [apply (C175_large_partial Z (2 ^ 64 - 1)); lia|].
  split; [vm_compute; reflexivity|]. split; [|split].
  - intros a b k Q. destruct a as [|e a]; [vm_compute; reflexivity|]. destruct a; [|destruct a; discriminate].
    injection Q as <- _. unfold count. cbn [fold_left count_step]. destruct (0 =? k); lia.
  - intros a v k b Q ids Hn Hall. destruct a as [|e a]; [|destruct a; discriminate]. destruct ids; [cbn; lia|].
    inversion Hall; subst. cbn in H1. lia.
  - cbn. lia.
Qed.
Print Assumptions C175_refuted.

(** Forty values, one of them twice, one removed and one more added: the two chunks made for 40 values suffice; the 65th id needs a third. *)
Example C175_demo : exists st0, with_capacity_usize true 40 = Ok st0 /\ length st0 = 2%nat /\
  (exists tr st, irun Z.eqb true (map (fun i => IAdd (Z.of_nat i)) (seq 0 40) ++ [IAdd 3; IDecr 7; IAdd 100]) [] st0 = Ok (tr, st) /\
     length st = 2%nat /\ try_get st 7 = Ok (Some 100)) /\
  (exists tr st, irun Z.eqb true (map (fun i => IAdd (Z.of_nat i)) (seq 0 65)) [] st0 = Ok (tr, st) /\ length st = 3%nat).
Proof.
  eexists. split; [vm_compute; reflexivity|]. split; [reflexivity|]. split.
  - eexists _, _. split; [vm_compute; reflexivity|]. split; reflexivity.
  - eexists _, _. split; [vm_compute; reflexivity|]. reflexivity.
Qed.
