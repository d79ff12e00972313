(** Properties C59 and C60: the interner of crates/utils used by one thread.
    [irun eqb dbg ops tr st] makes the calls [ops] one after the other on the interner [st]
    and appends them, with the ids returned, to the history [tr]; [count k tr] and
    [last_added k tr] are the references to id [k] and the last value stored under it
    according to the history alone (InternSpec.v). *)
From Coq Require Import ZArith List Bool Lia.
From Verif Require Import Base InternModel InternSpec InternProofs InternHist.
Import ListNotations.
Local Open Scope Z_scope.

(** ** C59 *)

(** In any history of calls (including [incr]/[decr] on arbitrary ids), starting from an
    interner of any capacity: reference counts are those of the history; an id with
    references yields the value last added under it; an id without references yields [None];
    and an [add] that returns an id that still has references found the same value there. *)
Theorem C59_interner_history : forall (T : Type) (eqb : T -> T -> bool) dbg cap0 ops tr st,
  (forall a b, eqb a b = true <-> a = b) ->
  (forall k, In (IIncr k) ops \/ In (IDecr k) ops -> 0 <= k) ->
  irun eqb dbg ops [] (with_capacity cap0) = Ok (tr, st) -> never_full tr ->
  (forall k, 0 <= k < 32 * Z.of_nat (length st) ->
     refcount st k = Ok (count k tr) /\
     (count k tr = 0 -> try_get st k = Ok None /\ intern_get st k = Panic) /\
     (forall v, 0 < count k tr -> last_added k tr = Some v ->
        try_get st k = Ok (Some v) /\ intern_get st k = Ok v)) /\
  (forall k v, In (EAdd v k) tr -> 0 <= k < 32 * Z.of_nat (length st)) /\
  (forall tr1 v k tr2, tr = tr1 ++ EAdd v k :: tr2 -> 0 < count k tr1 -> last_added k tr1 = Some v).
Proof.
  intros T eqb dbg cap0 ops tr st Heq Hops E Hlen.
  destruct (irun_agrees eqb Heq dbg ops [] (with_capacity cap0) tr st (agrees_new cap0)) as ([Hs Hg Ho] & _); auto.
  split; [|split].
  - intros k Hk. destruct (in_range_slot st k Hs Hk) as [s Es].
    destruct (Hg k s ltac:(lia) Es) as [R C]. split.
    + unfold refcount. pose proof (slot_at_offset st k Hs ltac:(lia)) as H.
      destruct (offset_to_idx k). rewrite H, Es. cbn [unwrap bind]. congruence.
    + unfold intern_get. rewrite (try_get_spec st k s) by (auto; lia). rewrite R. split.
      * intros ->. auto.
      * intros v Hc Hv. rewrite (proj2 (Z.eqb_neq _ _)) by lia. rewrite C, Hv. auto.
  - intros k v Hin.
    assert (forall ops tr st tr' st', agrees st tr ->
      never_full tr' ->
      (forall k, In (IIncr k) ops \/ In (IDecr k) ops -> 0 <= k) ->
      irun eqb dbg ops tr st = Ok (tr', st') -> (length st <= length st')%nat /\
      (In (EAdd v k) tr' -> In (EAdd v k) tr \/ 0 <= k < 32 * Z.of_nat (length st'))) as Hgen.
    { clear - Heq. induction ops as [|op ops IH]; intros tr st tr' st' Ha Hl Hk E;
      pose proof (room_left _ _ _ _ _ _ _ E Hl) as HR; cbn [irun] in E.
      - assert (tr = tr' /\ st = st') as [<- <-] by (split; congruence). auto.
      - assert (op_ok st op \/ ~ op_ok st op) as [Hop|Hop] by (destruct op; cbn [op_ok]; auto; lia).
        + destruct (istep_ok eqb Heq dbg st tr op Ha HR Hop) as (e & st1 & E1 & Ha1 & Hl1 & He).
          rewrite E1 in E. cbn [bind] in E.
          destruct (IH _ _ _ _ Ha1 Hl ltac:(intros k' [H|H]; apply Hk; cbn; auto) E)
            as (A & B).
          split; [lia|]. intros Hin. destruct (B Hin) as [Hin'|]; auto.
          apply in_app_or in Hin'. destruct Hin' as [Hin'|[Ee|[]]]; auto.
          destruct op; [destruct He as (k' & He & R & _)| |]; try (rewrite He in Ee; discriminate).
          assert (k' = k) as -> by congruence. right. lia.
        + rewrite (istep_panic eqb dbg st tr op Ha) in E; auto; [discriminate|].
          destruct op as [v'|k'|k']; [destruct Hop; exact I| |]; exists k'; (split; [auto|]); apply Hk; cbn; auto. }
    destruct (Hgen ops [] (with_capacity cap0) tr st (agrees_new cap0)) as [_ H]; auto.
      destruct (H Hin) as [[]|]; auto.
  - intros tr1 v k tr2 Etr Hc.
    assert (forall ops tr st tr' st', agrees st tr ->
      never_full tr' ->
      (forall k, In (IIncr k) ops \/ In (IDecr k) ops -> 0 <= k) ->
      irun eqb dbg ops tr st = Ok (tr', st') ->
      forall tr1 v k tr2, tr' = tr1 ++ EAdd v k :: tr2 -> (length tr <= length tr1)%nat ->
        0 < count k tr1 -> last_added k tr1 = Some v) as Hgen.
    { clear - Heq. induction ops as [|op ops IH]; intros tr st tr' st' Ha Hl Hk E tr1 v k tr2 Etr Hlt Hc;
      pose proof (room_left _ _ _ _ _ _ _ E Hl) as HR; cbn [irun] in E.
      - assert (tr = tr') as <- by congruence. rewrite Etr, app_length in Hlt. cbn in Hlt. lia.
      - assert (op_ok st op \/ ~ op_ok st op) as [Hop|Hop] by (destruct op; cbn [op_ok]; auto; lia).
        + destruct (istep_ok eqb Heq dbg st tr op Ha HR Hop) as (e & st1 & E1 & Ha1 & Hl1 & He).
          rewrite E1 in E. cbn [bind] in E.
          assert (Hk' : forall k', In (IIncr k') ops \/ In (IDecr k') ops -> 0 <= k')
            by (intros k' [H|H]; apply Hk; cbn; auto).
          destruct (Nat.eq_dec (length tr) (length tr1)) as [Q|Q].
          * destruct (irun_agrees eqb Heq dbg ops _ _ _ _ Ha1 Hl Hk' E)
              as (_ & _ & tr3 & E3).
            rewrite Etr, <- app_assoc in E3. cbn [app] in E3.
            assert (tr1 = tr /\ EAdd v k :: tr2 = e :: tr3) as [-> E4].
            { clear - Q E3. revert tr1 Q E3. induction tr as [|x tr IH]; intros [|y tr1] Q E3; cbn in *; try discriminate; auto.
              assert (x = y) as -> by congruence. destruct (IH tr1 ltac:(lia)) as [-> ->]; auto. congruence. }
            assert (e = EAdd v k) as -> by congruence.
            destruct op; [destruct He as (k' & He & _ & R & _)| |]; try discriminate.
            assert (k = k' /\ v = v0) as [-> ->] by (split; congruence). auto.
          * eapply (IH _ _ _ _ Ha1); eauto; rewrite app_length; cbn [length]; lia.
        + rewrite (istep_panic eqb dbg st tr op Ha) in E; auto; [discriminate|].
          destruct op as [v'|k'|k']; [destruct Hop; exact I| |]; exists k'; (split; [auto|]); apply Hk; cbn; auto. }
    eapply (Hgen ops [] (with_capacity cap0)); eauto.
    + apply agrees_new.
    + cbn. lia.
Qed.
Print Assumptions C59_interner_history.

(** No call fails, except [incr]/[decr] on an id that is out of range. *)
Theorem C59_add_never_fails : forall (T : Type) (eqb : T -> T -> bool) dbg cap0 ops tr st op,
  (forall a b, eqb a b = true <-> a = b) ->
  (forall k, In (IIncr k) ops \/ In (IDecr k) ops -> 0 <= k) ->
  irun eqb dbg ops [] (with_capacity cap0) = Ok (tr, st) -> never_full tr ->
  match op with IAdd _ => True | IIncr k | IDecr k => 0 <= k < 32 * Z.of_nat (length st) end ->
  exists e st', irun eqb dbg (ops ++ [op]) [] (with_capacity cap0) = Ok (tr ++ [e], st') /\
    match op with
    | IAdd v => exists k, e = EAdd v k /\ try_get st' k = Ok (Some v)
    | IIncr k => e = EIncr k
    | IDecr k => e = EDecr k
    end.
Proof.
  intros T eqb dbg cap0 ops tr st op Heq Hops E Hlen Hop.
  destruct (irun_agrees eqb Heq dbg ops [] (with_capacity cap0) tr st (agrees_new cap0)) as (Ha & Hl & _); auto.
  destruct (istep_ok eqb Heq dbg st tr op Ha (room_now _ Hlen) Hop) as (e & st' & E1 & Ha1 & Hl1 & He).
  exists e, st'. split.
  - assert (forall ops tr0 st0, irun eqb dbg ops tr0 st0 = Ok (tr, st) ->
      irun eqb dbg (ops ++ [op]) tr0 st0 = Ok (tr ++ [e], st')) as H.
    { clear - E1. induction ops as [|o ops IH]; intros tr0 st0 E; cbn [irun app] in *.
      - assert (tr0 = tr /\ st0 = st) as [-> ->] by (split; congruence). rewrite E1. reflexivity.
      - destruct (istep eqb dbg st0 o) as [[e0 st1]| |]; cbn [bind] in *; try discriminate. auto. }
    apply H; auto.
  - destruct op as [v| |]; auto. destruct He as (k & He & Hk & _). exists k. split; auto.
    destruct Ha1 as [Hs Hg Ho]. destruct (in_range_slot st' k Hs Hk) as [s Es].
    rewrite (try_get_spec st' k s) by (auto; lia). destruct (Hg k s ltac:(lia) Es) as [R C].
    subst e. rewrite count_snoc in R. rewrite last_snoc in C. cbn [count_step last_step] in R, C.
    rewrite Z.eqb_refl in R, C. rewrite C. pose proof (count_bound k tr).
    rewrite (proj2 (Z.eqb_neq _ _)) by lia. auto.
Qed.
Print Assumptions C59_add_never_fails.

Example C59_example :
  let ops := [IAdd 5; IAdd 7; IAdd 5; IDecr 1; IAdd 9; IDecr 0; IDecr 0; IDecr 0] in
  exists st, irun Z.eqb true ops [] (with_capacity 0) =
    Ok ([EAdd 5 0; EAdd 7 1; EAdd 5 0; EDecr 1; EAdd 9 1; EDecr 0; EDecr 0; EDecr 0], st) /\
  try_get st 0 = Ok None /\ try_get st 1 = Ok (Some 9) /\ refcount st 1 = Ok 1 /\ length st = 1%nat.
Proof. eexists. split; [vm_compute; reflexivity|]. repeat split; reflexivity. Qed.

(** ** C60 *)

(** What is true: [add v] returns an id that held [v] or had no references, and every
    smaller id is referenced and holds something else.  So a live [v] is found again exactly
    when no smaller id is free.  Missing: deduplication past a free id, refuted below. *)
Theorem C60_first_match_partial : forall (T : Type) (eqb : T -> T -> bool) dbg cap0 ops tr st v,
  (forall a b, eqb a b = true <-> a = b) ->
  (forall k, In (IIncr k) ops \/ In (IDecr k) ops -> 0 <= k) ->
  irun eqb dbg ops [] (with_capacity cap0) = Ok (tr, st) -> never_full tr ->
  exists k st', intern_add eqb dbg v st = Ok (k, st') /\
    (count k tr = 0 \/ last_added k tr = Some v) /\
    (forall k', 0 <= k' < k -> 0 < count k' tr /\ last_added k' tr <> Some v).
Proof.
  intros T eqb dbg cap0 ops tr st v Heq Hops E Hlen.
  destruct (irun_agrees eqb Heq dbg ops [] (with_capacity cap0) tr st (agrees_new cap0)) as (Ha & Hl & _); auto.
  destruct (istep_ok eqb Heq dbg st tr (IAdd v) Ha (room_now _ Hlen) I) as (e & st' & E1 & Ha1 & Hl1 & k & He & Hk & Hc & Hp & Hn).
  cbn [istep] in E1. destruct (intern_add eqb dbg v st) as [[k0 st0]| |]; cbn [bind] in E1; try discriminate.
  exists k0, st0. assert (k0 = k) as -> by congruence. split; auto. split.
  - pose proof (count_bound k tr). destruct (Z.eq_dec (count k tr) 0); auto. right. apply Hc. lia.
  - intros k' Hk'. destruct Ha as [Hs Hg Ho].
    assert (exists s, slot_of st k' = Some s) as [s Es].
    { destruct (slot_of st k) as [s|] eqn:Es.
      - pose proof (slot_in_range st k s Hs ltac:(lia) Es). apply in_range_slot; auto. lia.
      - specialize (Hn eq_refl k' Hk'). destruct (slot_of st k'); eauto. congruence. }
    destruct (Hg k' s ltac:(lia) Es) as [R C]. destruct (Hp k' s Hk' Es) as [P1 P2].
    rewrite <- R, <- C. pose proof (count_bound k' tr). split; auto. lia.
Qed.
Print Assumptions C60_first_match_partial.

(** Hence: if nothing was ever released (and only ids obtained from the interner were
    cloned), adding a live value returns its id. *)
Theorem C60_dedup_without_release_partial :
  forall (T : Type) (eqb : T -> T -> bool) dbg cap0 ops tr st v k,
  (forall a b, eqb a b = true <-> a = b) ->
  (forall k, In (IIncr k) ops -> 0 <= k) -> (forall k, ~ In (IDecr k) ops) ->
  irun eqb dbg ops [] (with_capacity cap0) = Ok (tr, st) -> never_full tr ->
  (forall tr1 k tr2, tr = tr1 ++ EIncr k :: tr2 -> 0 < count k tr1) ->
  0 <= k -> last_added k tr = Some v ->
  exists st', intern_add eqb dbg v st = Ok (k, st').
Proof.
  intros T eqb dbg cap0 ops tr st v k Heq Hi Hd E Hlen Hincr Hk0 Hlast.
  assert (Hops : forall k, In (IIncr k) ops \/ In (IDecr k) ops -> 0 <= k).
  { intros k' [H|H]; auto. destruct (Hd k' H). }
  (* the ids used so far are an initial segment holding pairwise different values *)
  assert (forall ops tr st tr' st', agrees st tr ->
      never_full tr' ->
      (forall k, In (IIncr k) ops -> 0 <= k) -> (forall k, ~ In (IDecr k) ops) ->
      irun eqb dbg ops tr st = Ok (tr', st') ->
      (forall tr1 k tr2, tr' = tr1 ++ EIncr k :: tr2 -> 0 < count k tr1) ->
      (exists n, 0 <= n /\ (forall k, 0 <= k < n -> 0 < count k tr /\ last_added k tr <> None) /\
         (forall k, n <= k -> count k tr = 0 /\ last_added k tr = None) /\
         (forall i j v, 0 <= i -> 0 <= j -> last_added i tr = Some v -> last_added j tr = Some v -> i = j)) ->
      (exists n, 0 <= n /\ (forall k, 0 <= k < n -> 0 < count k tr' /\ last_added k tr' <> None) /\
         (forall k, n <= k -> count k tr' = 0 /\ last_added k tr' = None) /\
         (forall i j v, 0 <= i -> 0 <= j -> last_added i tr' = Some v -> last_added j tr' = Some v -> i = j))) as Hgen.
  { clear - Heq. induction ops as [|op ops IH]; intros tr st tr' st' Ha Hl Hi Hd E Hincr Hinv;
    pose proof (room_left _ _ _ _ _ _ _ E Hl) as HR; cbn [irun] in E.
    - assert (tr = tr') as <- by congruence. auto.
    - assert (op_ok st op \/ ~ op_ok st op) as [Hop|Hop] by (destruct op; cbn [op_ok]; auto; lia).
      2:{ rewrite (istep_panic eqb dbg st tr op Ha) in E; auto; [discriminate|].
          destruct op as [v'|k'|k']; [destruct Hop; exact I| |].
          - exists k'. split; auto. apply Hi. cbn; auto.
          - destruct (Hd k'). cbn; auto. }
      destruct (istep_ok eqb Heq dbg st tr op Ha HR Hop) as (e & st1 & E1 & Ha1 & Hl1 & He).
      rewrite E1 in E. cbn [bind] in E.
      assert (Hi' : forall k, In (IIncr k) ops -> 0 <= k) by (intros; apply Hi; cbn; auto).
      assert (Hd' : forall k, ~ In (IDecr k) ops) by (intros k0 H0; apply (Hd k0); cbn; auto).
      eapply (IH _ _ _ _ Ha1 Hl Hi' Hd' E Hincr).
      destruct Hinv as (n & Hn & A & B & C). destruct op as [v|k|k].
      + destruct He as (k & -> & Hk & Hc & Hp & Hnone).
        assert (forall k', 0 <= k' < k -> 0 < count k' tr /\ last_added k' tr <> Some v) as Hbelow.
        { intros k' Hk'. destruct Ha as [Hs Hg Ho].
          assert (exists s, slot_of st k' = Some s) as [s Es].
          { destruct (slot_of st k) as [s|] eqn:Es.
            - pose proof (slot_in_range st k s Hs ltac:(lia) Es). apply in_range_slot; auto. lia.
            - specialize (Hnone eq_refl k' Hk'). destruct (slot_of st k'); eauto. congruence. }
          destruct (Hg k' s ltac:(lia) Es) as [R C']. destruct (Hp k' s Hk' Es) as [P1 P2].
          rewrite <- R, <- C'. pose proof (count_bound k' tr). split; auto. lia. }
        assert (k <= n) as Hkn. { destruct (Z_le_gt_dec k n); auto. destruct (B n ltac:(lia)). destruct (Hbelow n); lia. }
        destruct (Z.eq_dec k n) as [->|Hne].
        * exists (n + 1). split; [lia|]. split; [|split].
          -- intros k' Hk'. rewrite count_snoc, last_snoc. cbn [count_step last_step].
             destruct (Z.eqb_spec n k') as [<-|Q]; [|apply A; lia].
             pose proof (count_bound n tr). split; [lia|congruence].
          -- intros k' Hk'. rewrite count_snoc, last_snoc. cbn [count_step last_step].
             rewrite (proj2 (Z.eqb_neq n k')) by lia. apply B. lia.
          -- intros i j u H0i H0j. rewrite !last_snoc. cbn [last_step].
             destruct (Z.eqb_spec n i) as [<-|Qi], (Z.eqb_spec n j) as [<-|Qj]; auto.
             ++ intros [= <-] Hj. destruct (Z_lt_ge_dec j n) as [Q|Q].
                ** destruct (Hbelow j ltac:(lia)). congruence.
                ** destruct (B j ltac:(lia)). congruence.
             ++ intros Hi0 [= <-]. destruct (Z_lt_ge_dec i n) as [Q|Q].
                ** destruct (Hbelow i ltac:(lia)). congruence.
                ** destruct (B i ltac:(lia)). congruence.
             ++ apply C; auto.
        * assert (last_added k tr = Some v) as Hkv by (apply Hc; apply A; lia).
          assert (forall i, last_added i (tr ++ [EAdd v k]) = last_added i tr) as Hsame.
          { intros i. rewrite last_snoc. cbn [last_step]. destruct (Z.eqb_spec k i); congruence. }
          exists n. split; auto. split; [|split].
          -- intros k' Hk'. rewrite Hsame, count_snoc. cbn [count_step].
             destruct (A k' Hk'). destruct (k =? k'); split; auto; lia.
          -- intros k' Hk'. rewrite Hsame, count_snoc. cbn [count_step].
             rewrite (proj2 (Z.eqb_neq k k')) by lia. apply B. lia.
          -- intros i j u. rewrite !Hsame. apply C.
      + subst e. assert (Hid : forall k0, In (IIncr k0) ops \/ In (IDecr k0) ops -> 0 <= k0).
        { intros k0 [H0|H0]; auto. destruct (Hd' k0 H0). }
        destruct (irun_agrees eqb Heq dbg ops _ _ _ _ Ha1 Hl Hid E) as (_ & _ & tr3 & E3).
        specialize (Hincr tr k tr3). rewrite <- app_assoc in E3. specialize (Hincr E3).
        assert (0 <= k) by (apply Hi; cbn; auto).
        assert (k < n). { destruct (Z_lt_ge_dec k n); auto. destruct (B k ltac:(lia)). lia. }
        exists n. split; auto. split; [|split].
        * intros k' Hk'. rewrite last_snoc, count_snoc. cbn [count_step last_step].
          destruct (A k' Hk'). destruct (k =? k'); split; auto; lia.
        * intros k' Hk'. rewrite last_snoc, count_snoc. cbn [count_step last_step].
          rewrite (proj2 (Z.eqb_neq k k')) by lia. apply B. lia.
        * intros i j u. rewrite !last_snoc. cbn [last_step]. apply C.
      + destruct (Hd k). cbn; auto. }
  destruct (Hgen ops [] (with_capacity cap0) tr st (agrees_new cap0)) as (n & Hn & A & B & C); auto.
  { exists 0. split; [lia|]. split; [intros; lia|]. split; [intros; auto|]. intros i j u _ _ H. discriminate. }
  destruct (C60_first_match_partial T eqb dbg cap0 ops tr st v Heq Hops E Hlen) as (k1 & st1 & E1 & H1 & H2).
  exists st1. rewrite E1. repeat f_equal.
  assert (0 <= k1) as Hk1.
  { destruct (irun_agrees eqb Heq dbg ops [] (with_capacity cap0) tr st (agrees_new cap0)) as (Ha & Hl & _); auto.
    destruct (istep_ok eqb Heq dbg st tr (IAdd v) Ha (room_now _ Hlen) I) as (e & st' & E2 & _ & _ & k2 & He & Hk2 & _).
    cbn [istep] in E2. rewrite E1 in E2. cbn [bind] in E2. assert (k1 = k2) by congruence. lia. }
  assert (k < n). { destruct (Z_lt_ge_dec k n); auto. destruct (B k ltac:(lia)). congruence. }
  destruct (Z_lt_ge_dec k k1) as [L|L].
  - destruct (H2 k ltac:(lia)). congruence.
  - destruct H1 as [H1|H1].
    + destruct (A k1 ltac:(lia)). lia.
    + eapply C; eauto.
Qed.
Print Assumptions C60_dedup_without_release_partial.

(** A live value gets a second id once a smaller id has been released. *)
Theorem C60_dedup_refuted : exists ops tr st,
  irun Z.eqb true ops [] (with_capacity 0) = Ok (tr, st) /\
  try_get st 1 = Ok (Some 7) /\ exists st', intern_add Z.eqb true 7 st = Ok (0, st').
Proof.
  exists [IAdd 5; IAdd 7; IDecr 0]. eexists. eexists. split; [vm_compute; reflexivity|].
  split; [reflexivity|]. eexists. vm_compute. reflexivity.
Qed.
Print Assumptions C60_dedup_refuted.

Example C60_example :
  let ops := [IAdd 5; IAdd 7; IIncr 1; IAdd 9] in
  exists st, irun Z.eqb true ops [] (with_capacity 0) = Ok ([EAdd 5 0; EAdd 7 1; EIncr 1; EAdd 9 2], st) /\
    (forall k, ~ In (IDecr k) ops) /\ 0 < count 1 [EAdd 5 0; EAdd 7 1] /\
    last_added 1 [EAdd 5 0; EAdd 7 1; EIncr 1; EAdd 9 2] = Some 7 /\
    exists st', intern_add Z.eqb true 7 st = Ok (1, st').
Proof.
  eexists. split; [vm_compute; reflexivity|]. split.
  - intros k. cbn. intros [H|[H|[H|[H|[]]]]]; discriminate.
  - split; [reflexivity|]. split; [reflexivity|]. eexists. vm_compute. reflexivity.
Qed.
