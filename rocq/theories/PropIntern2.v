(** Property C123: what safe code may do with the references and ids of an interner, one call after
    the other ([irun] of InternHist.v). *)
From Coq Require Import ZArith List Bool Lia.
From Verif Require Import Base InternModel InternSpec InternProofs InternHist.
Import ListNotations.
Local Open Scope Z_scope.

(** ** C123: references stay valid, and only values that are there are read *)

(** The reference that [get] returns may be kept as long as the interner exists.  False: the slot is
    taken by another value when the id has been given back. *)
Theorem C123_reference_refuted : exists ops ops' tr st tr' st',
  irun Z.eqb true ops [] interner_new = Ok (tr, st) /\
  intern_get st 0 = Ok 5 /\ behind st 0 = Ok 5 /\
  irun Z.eqb true ops' tr st = Ok (tr', st') /\
  behind st' 0 = Ok 7.
Proof.
  exists [IAdd 5], [IDecr 0; IAdd 7]. do 4 eexists. split; [vm_compute; reflexivity|]. split; [vm_compute; reflexivity|].
  split; [vm_compute; reflexivity|]. split; [vm_compute; reflexivity|]. vm_compute. reflexivity.
Qed.
Print Assumptions C123_reference_refuted.

(** True as long as the id has references, whatever else is done.
    Missing from the full statement: references kept longer. *)
Theorem C123_reference_partial : forall (T : Type) (eqb : T -> T -> bool) dbg cap0 ops tr st ops' tr2 st' k v,
  (forall a b, eqb a b = true <-> a = b) ->
  (forall k, In (IIncr k) (ops ++ ops') \/ In (IDecr k) (ops ++ ops') -> 0 <= k) ->
  irun eqb dbg ops [] (with_capacity cap0) = Ok (tr, st) ->
  0 <= k -> intern_get st k = Ok v ->
  irun eqb dbg ops' tr st = Ok (tr ++ tr2, st') -> never_full (tr ++ tr2) ->
  (forall mid rest, tr2 = mid ++ rest -> 0 < count k (tr ++ mid)) ->
  behind st' k = Ok v.
Proof.
  intros T eqb dbg cap0 ops tr st ops' tr2 st' k v Heq Hops E Hk Hget E' Hlen Hpos.
  assert (Hlen0 : never_full tr) by (intros t1 t2 x Ex; apply (Hlen t1 (t2 ++ tr2)); rewrite Ex, <- app_assoc; reflexivity).
  destruct (irun_agrees eqb Heq dbg ops [] (with_capacity cap0) tr st (agrees_new cap0)) as (Ha & Hl & _); auto.
  { intros k' Hk'. apply Hops. destruct Hk'; [left|right]; apply in_or_app; auto. }
  assert (last_added k tr = Some v) as Hv.
  { destruct (slot_of st k) as [s|] eqn:Es.
    - destruct (ag_slot _ _ Ha k s Hk Es) as [_ <-]. unfold intern_get in Hget.
      rewrite (try_get_spec st k s) in Hget by (auto; apply (ag_shape _ _ Ha)).
      destruct (refs s =? 0); [discriminate|]. destruct (cont s); [|discriminate]. cbn in Hget. congruence.
    - unfold intern_get, try_get in Hget. pose proof (slot_at_offset st k (ag_shape _ _ Ha) Hk) as H.
      destruct (offset_to_idx k). rewrite H, Es in Hget. discriminate. }
  assert (agrees st' (tr ++ tr2) /\ last_added k (tr ++ tr2) = Some v) as [Ha' Hv'].
  { assert (forall k, In (IIncr k) ops' \/ In (IDecr k) ops' -> 0 <= k) as Hops'.
    { intros k' Hk'. apply Hops. destruct Hk'; [left|right]; apply in_or_app; auto. }
    clear - Heq Hops' Hlen Ha Hv E' Hpos. revert tr tr2 st Hlen Ha Hv E' Hpos.
    induction ops' as [|op ops IH]; intros tr tr2 st Hlen Ha Hv E Hpos;
      pose proof (room_left _ _ _ _ _ _ _ E Hlen) as HR; cbn [irun] in E.
    - assert (tr = tr ++ tr2) as Et by congruence. rewrite <- Et. assert (st = st') as <- by congruence. auto.
    - assert (op_ok st op \/ ~ op_ok st op) as [Hop|Hop] by (destruct op; cbn; auto; lia).
      + destruct (istep_ok eqb Heq dbg st tr op Ha HR Hop) as (e & st1 & E1 & Ha1 & _ & He).
        rewrite E1 in E. cbn [bind] in E.
        destruct (irun_agrees eqb Heq dbg ops (tr ++ [e]) st1 (tr ++ tr2) st' Ha1) as (_ & _ & tr3 & E3).
        { exact Hlen. }
        { intros k' Hk'. apply Hops'. cbn. tauto. }
        { exact E. }
        rewrite <- app_assoc in E3. apply app_inv_head in E3. subst tr2.
        replace (tr ++ [e] ++ tr3) with ((tr ++ [e]) ++ tr3) in * by (rewrite <- app_assoc; reflexivity).
        apply (IH ltac:(intros k' Hk'; apply Hops'; cbn; tauto) (tr ++ [e]) tr3 st1); auto.
        * rewrite last_snoc. destruct op as [x|x|x].
          -- destruct He as (k1 & -> & _ & Hold & _). cbn [last_step]. destruct (Z.eqb_spec k1 k) as [->|]; [|exact Hv].
             rewrite <- Hold; [exact Hv|]. specialize (Hpos [] (EAdd x k :: tr3) eq_refl). rewrite app_nil_r in Hpos. exact Hpos.
          -- subst e. exact Hv.
          -- subst e. exact Hv.
        * intros mid rest ->. specialize (Hpos (e :: mid) rest eq_refl). rewrite <- app_assoc. exact Hpos.
      + destruct op as [x|x|x]; [destruct Hop; exact I| |].
        * rewrite (istep_panic eqb dbg st tr (IIncr x) Ha) in E; [discriminate| |exact Hop]. exists x. split; [auto|]. apply Hops'. left. left. reflexivity.
        * rewrite (istep_panic eqb dbg st tr (IDecr x) Ha) in E; [discriminate| |exact Hop]. exists x. split; [auto|]. apply Hops'. right. left. reflexivity. }
  assert (0 < count k (tr ++ tr2)) as Hc by (apply (Hpos tr2 []); rewrite app_nil_r; reflexivity).
  destruct (Z.lt_ge_cases k (32 * Z.of_nat (length st'))) as [L|L].
  - destruct (in_range_slot st' k (ag_shape _ _ Ha') ltac:(lia)) as [s Es]. destruct (ag_slot _ _ Ha' k s Hk Es) as [_ C].
    unfold behind. pose proof (slot_at_offset st' k (ag_shape _ _ Ha') Hk) as H. destruct (offset_to_idx k). rewrite H, Es. cbn [unwrap bind].
    rewrite C, Hv'. reflexivity.
  - destruct (ag_out _ _ Ha' k L). lia.
Qed.
Print Assumptions C123_reference_partial.

Example C123_reference_case : exists tr st tr' st',
  irun Z.eqb true [IAdd 5; IAdd 6] [] interner_new = Ok (tr, st) /\ intern_get st 0 = Ok 5 /\
  irun Z.eqb true [IIncr 0; IDecr 0; IDecr 1; IAdd 7; IAdd 8] tr st = Ok (tr', st') /\
  behind st' 0 = Ok 5 /\ behind st 1 = Ok 6 /\ behind st' 1 = Ok 7 /\ count 0 tr' = 1.
Proof. do 4 eexists. do 6 (split; [vm_compute; reflexivity|]). vm_compute. reflexivity. Qed.

(** [get] of an id whose count is not zero finds a value.  False: [incr] takes any number as an id, and
    makes the count of a slot positive that has never held a value.  ([Panic] stands for the undefined
    behaviour of [unwrap_unchecked], see [try_get].) *)
Theorem C123_absent_refuted : exists ops tr st,
  irun Z.eqb true ops [] (with_capacity 1) = Ok (tr, st) /\
  refcount st 0 = Ok 1 /\ try_get st 0 = Panic /\
  slot_at st 0 0 = Ok (Slot 1 None).
Proof. exists [IIncr 0]. do 2 eexists. split; [vm_compute; reflexivity|]. do 2 (split; [vm_compute; reflexivity|]). vm_compute. reflexivity. Qed.
Print Assumptions C123_absent_refuted.

(** True if [incr] is called only with ids that [add] returned.
    Missing from the full statement: other ids. *)
Theorem C123_absent_partial : forall (T : Type) (eqb : T -> T -> bool) dbg cap0 ops tr st,
  (forall a b, eqb a b = true <-> a = b) ->
  (forall k, In (IDecr k) ops -> 0 <= k) ->
  irun eqb dbg ops [] (with_capacity cap0) = Ok (tr, st) -> never_full tr ->
  (forall k, In (EIncr k) tr -> exists v, In (EAdd v k) tr) ->
  forall k c, 0 <= k -> refcount st k = Ok c -> 0 < c -> exists v, intern_get st k = Ok v.
Proof.
  intros T eqb dbg cap0 ops tr st Heq Hd E Hlen Hi k c Hk Hr Hc.
  assert (forall ops tr0 st0, irun eqb dbg ops tr0 st0 = Ok (tr, st) ->
    (forall e, In e tr0 -> In e tr) /\ (forall k, In (IIncr k) ops -> In (EIncr k) tr)) as HX.
  { clear. induction ops as [|op ops IH]; intros tr0 st0 E; cbn [irun] in E.
    - assert (tr0 = tr) as -> by congruence. split; [auto|intros k []].
    - destruct (istep eqb dbg st0 op) as [[e st1]| |] eqn:E1; try discriminate. cbn [bind] in E. destruct (IH _ _ E) as [H1 H2]. split.
      + intros x Hx. apply H1, in_or_app. auto.
      + intros k [->|Hin]; [|auto]. apply H1, in_or_app. right. left. cbn [istep] in E1.
        destruct (intern_incr dbg k st0); cbn [bind] in E1; congruence. }
  destruct (HX _ _ _ E) as [_ HX2].
  assert (forall ops tr0 st0, irun eqb dbg ops tr0 st0 = Ok (tr, st) -> (forall v k, In (EAdd v k) tr0 -> 0 <= k) ->
    forall v k, In (EAdd v k) tr -> 0 <= k) as HY.
  { clear. induction ops as [|op ops IH]; intros tr0 st0 E H0; cbn [irun] in E.
    - assert (tr0 = tr) as -> by congruence. exact H0.
    - destruct (istep eqb dbg st0 op) as [[e st1]| |] eqn:E1; try discriminate. cbn [bind] in E. apply (IH _ _ E).
      intros v k Hin. apply in_app_or in Hin. destruct Hin as [Hin|[->|[]]]; [eauto|]. destruct op; cbn [istep] in E1.
      + unfold intern_add in E1. destruct (find eqb st0 v0) as [a b|a b|]; cbn -[Z.mul Z.of_nat length] in E1.
        * destruct (incr_inner dbg st0 a b); cbn -[Z.mul Z.of_nat length] in E1; try discriminate. injection E1 as <- <- <-. unfold idx_to_offset. lia.
        * destruct (incr_inner dbg st0 a b) as [s| |]; cbn -[Z.mul Z.of_nat length] in E1; try discriminate.
          destruct (set_val s a b v0); cbn -[Z.mul Z.of_nat length] in E1; try discriminate. injection E1 as <- <- <-. unfold idx_to_offset. lia.
        * destruct (incr_inner dbg _ _ 0) as [s| |]; cbn -[Z.mul Z.of_nat length] in E1; try discriminate.
          destruct (set_val s _ 0 v0); cbn -[Z.mul Z.of_nat length] in E1; try discriminate. injection E1 as <- <- <-. lia.
      + destruct (intern_incr dbg k0 st0); discriminate.
      + destruct (intern_decr k0 st0); discriminate. }
  destruct (irun_agrees eqb Heq dbg ops [] (with_capacity cap0) tr st (agrees_new cap0)) as (Ha & _ & _); auto.
  { intros k' [H|H]; [|auto]. destruct (Hi k' (HX2 _ H)) as [v Hv]. apply (HY ops [] _ E) with (v := v); auto. intros ? ? []. }
  pose proof (slot_at_offset st k (ag_shape _ _ Ha) Hk) as HS. unfold refcount in Hr. destruct (slot_of st k) as [s|] eqn:Es.
  2:{ destruct (offset_to_idx k). rewrite HS in Hr. discriminate. }
  destruct (ag_slot _ _ Ha k s Hk Es) as [R C].
  assert (refs s = c) as Rc by (destruct (offset_to_idx k); rewrite HS in Hr; cbn in Hr; congruence).
  unfold intern_get. rewrite (try_get_spec st k s) by (auto; apply (ag_shape _ _ Ha)).
  rewrite (proj2 (Z.eqb_neq _ _)) by lia. rewrite C.
  assert (forall tr, 0 < count k tr -> exists e, In e tr /\ (e = EIncr k \/ exists v : T, e = EAdd v k)) as HC.
  { clear. induction tr as [|e tr IH] using rev_ind; [cbn; lia|]. rewrite count_snoc. intros H.
    destruct e as [v k'|k'|k']; cbn [count_step] in H; destruct (Z.eqb_spec k' k) as [->|].
    - exists (EAdd v k). split; [apply in_or_app; cbn; auto|eauto].
    - destruct (IH H) as (e & Hin & He). exists e. split; [apply in_or_app; auto|exact He].
    - exists (EIncr k). split; [apply in_or_app; cbn; auto|auto].
    - destruct (IH H) as (e & Hin & He). exists e. split; [apply in_or_app; auto|exact He].
    - destruct IH as (e & Hin & He); [lia|]. exists e. split; [apply in_or_app; auto|exact He].
    - destruct (IH H) as (e & Hin & He). exists e. split; [apply in_or_app; auto|exact He]. }
  assert (exists v, In (EAdd v k) tr) as [v Hv].
  { destruct (HC tr ltac:(lia)) as (e & Hin & [->|[v ->]]); eauto. }
  assert (forall tr (v : T), In (EAdd v k) tr -> last_added k tr <> None) as HL.
  { clear. induction tr as [|e tr IH] using rev_ind; intros v Hin; [destruct Hin|]. rewrite last_snoc. apply in_app_or in Hin.
    destruct Hin as [Hin|[->|[]]].
    - specialize (IH v Hin). destruct e; cbn; auto. destruct (k0 =? k); [discriminate|exact IH].
    - cbn. rewrite Z.eqb_refl. discriminate. }
  destruct (last_added k tr) as [x|] eqn:El; [exists x; reflexivity|]. destruct (HL tr v Hv El).
Qed.
Print Assumptions C123_absent_partial.

Example C123_absent_case : exists tr st,
  irun Z.eqb true [IAdd 5; IIncr 0; IAdd 6; IDecr 0] [] interner_new = Ok (tr, st) /\
  In (EIncr 0) tr /\ In (EAdd 5 0) tr /\ refcount st 0 = Ok 1 /\ intern_get st 0 = Ok 5.
Proof. do 2 eexists. split; [vm_compute; reflexivity|]. do 2 (split; [cbn; auto|]). split; vm_compute; reflexivity. Qed.

(** ** C59 at the limit *)

(** The condition of C59 cannot be dropped: after 2^64 references to one id have been taken and none given
    back, in a build without debug assertions, the count is 0 again and the value is not found; with
    debug assertions the last call panics. *)
Theorem C59_full_count : forall (T : Type) (eqb : T -> T -> bool) (v : T),
  (forall a b, eqb a b = true <-> a = b) ->
  exists ops, (forall op, In op ops -> op = IAdd v \/ op = IIncr 0) /\ Z.of_nat (length ops) = 2 ^ 64 /\
    irun eqb true ops [] interner_new = Panic /\
    exists tr st, irun eqb false ops [] interner_new = Ok (tr, st) /\
      count 0 tr = 2 ^ 64 /\ last_added 0 tr = Some v /\ try_get st 0 = Ok None.
Proof.
  intros T eqb v Heq.
  pose (n := Z.to_nat (2 ^ 64 - 3)). assert (Hn : Z.of_nat n = 2 ^ 64 - 3) by (unfold n; rewrite Z2Nat.id; [reflexivity|lia]).
  clearbody n.
  assert (Hcount : forall m, count 0 (repeat (EIncr (T := T) 0) m) = Z.of_nat m).
  { induction m as [|m IH]; [reflexivity|]. rewrite Nat2Z.inj_succ. replace (repeat (EIncr (T := T) 0) (S m)) with (repeat (EIncr (T := T) 0) m ++ [EIncr 0]).
    - rewrite count_snoc, IH. cbn [count_step]. rewrite Z.eqb_refl. lia.
    - clear. induction m as [|m IH]; [reflexivity|]. cbn [repeat app]. rewrite IH. reflexivity. }
  assert (Hgen : forall dbg m tr (st : store T), agrees st tr -> (0 < length st)%nat -> count 0 tr + Z.of_nat m <= 2 ^ 64 - 1 ->
    (forall k, count k tr <= 1 \/ k = 0) -> last_added 0 tr = Some v ->
    exists st', irun eqb dbg (repeat (IIncr 0) m) tr st = Ok (tr ++ repeat (EIncr 0) m, st') /\
      agrees st' (tr ++ repeat (EIncr 0) m) /\ (0 < length st')%nat /\ count 0 (tr ++ repeat (EIncr 0) m) = count 0 tr + Z.of_nat m /\
      last_added 0 (tr ++ repeat (EIncr 0) m) = Some v).
  { clear n Hn. intros dbg. induction m as [|m IH]; intros tr st Ha Hl Hc H1 Hv.
    - exists st. cbn [repeat irun]. rewrite app_nil_r. split; [reflexivity|]. split; [exact Ha|]. split; [exact Hl|]. split; [lia|exact Hv].
    - rewrite Nat2Z.inj_succ in Hc. cbn [repeat irun].
      destruct (istep_ok eqb Heq dbg st tr (IIncr 0) Ha) as (e & st1 & E1 & Ha1 & Hl1 & He).
      { intros k. destruct (H1 k) as [H| ->]; lia. }
      { cbn [op_ok]. lia. }
      subst e. rewrite E1. cbn [bind].
      assert (C1 : count 0 (tr ++ [EIncr 0]) = count 0 tr + 1) by (rewrite count_snoc; cbn [count_step]; rewrite Z.eqb_refl; reflexivity).
      destruct (IH (tr ++ [EIncr 0]) st1 Ha1 ltac:(lia)) as (st' & E & Ha' & Hl' & C & V).
      + lia.
      + intros k. destruct (Z.eq_dec k 0) as [->|Hk]; [auto|]. left. rewrite count_snoc. cbn [count_step].
        rewrite (proj2 (Z.eqb_neq 0 k)) by congruence. destruct (H1 k); [lia|contradiction].
      + rewrite last_snoc. exact Hv.
      + rewrite <- app_assoc in *. cbn [app] in *. exists st'. split; [exact E|]. split; [exact Ha'|]. split; [exact Hl'|]. split; [lia|exact V]. }
  assert (H0 : forall dbg, exists st, irun eqb dbg [IAdd v] [] interner_new = Ok ([EAdd v 0], st) /\ agrees st [EAdd v 0] /\ (0 < length st)%nat).
  { intros dbg.
    destruct (istep_ok eqb Heq dbg (with_capacity 0) [] (IAdd v) (agrees_new 0)) as (e & st1 & E1 & Ha1 & _).
    { intros k. cbn. lia. } { exact I. }
    change interner_new with (with_capacity (T := T) 0). cbn [irun]. rewrite E1. cbn [bind app].
    assert (e = EAdd v 0 /\ (0 < length st1)%nat) as [-> Hl1].
    { destruct dbg; cbn in E1; injection E1 as <- <-; (split; [reflexivity|cbn; lia]). }
    exists st1. auto. }
  assert (Hrun : forall dbg ops1 ops2 tr (st : store T), irun eqb dbg (ops1 ++ ops2) tr st = do (tr1, st1) <- irun eqb dbg ops1 tr st ;; irun eqb dbg ops2 tr1 st1).
  { intros dbg ops1 ops2. induction ops1 as [|o ops1 IH]; intros tr st; cbn [irun app]; [reflexivity|].
    destruct (istep eqb dbg st o) as [[e st1]| |]; cbn [bind]; auto. }
  exists ([IAdd v] ++ repeat (IIncr 0) (S n) ++ [IIncr 0]).
  split; [|split].
  - intros op Hin. apply in_app_or in Hin. destruct Hin as [[<-|[]]|Hin]; [auto|]. apply in_app_or in Hin.
    destruct Hin as [Hin|[<-|[]]]; [|auto]. apply repeat_spec in Hin. auto.
  - rewrite !app_length, repeat_length. cbn [length]. lia.
  - assert (Hpre : forall dbg, exists st, irun eqb dbg ([IAdd v] ++ repeat (IIncr 0) (S n)) [] interner_new =
        Ok ([EAdd v 0] ++ repeat (EIncr 0) (S n), st) /\ agrees st ([EAdd v 0] ++ repeat (EIncr 0) (S n)) /\
        count 0 ([EAdd v 0] ++ repeat (EIncr 0) (S n)) = 2 ^ 64 - 1 /\
        last_added 0 ([EAdd v 0] ++ repeat (EIncr 0) (S n)) = Some v /\ exists s, slot_of st 0 = Some s).
    { intros dbg. destruct (H0 dbg) as (st0 & E0 & Ha0 & Hl0). rewrite Hrun, E0. cbn [bind].
      destruct (Hgen dbg (S n) [EAdd v 0] st0 Ha0 Hl0) as (st & E & Ha & Hl & C & V).
      - change (count 0 [EAdd v 0]) with 1. lia.
      - intros k. left. cbn [count count_step fold_left]. unfold count. cbn. destruct k; cbn; lia.
      - reflexivity.
      - exists st. split; [exact E|]. split; [exact Ha|]. split; [rewrite C; change (count 0 [EAdd v 0]) with 1; lia|].
        split; [exact V|]. apply in_range_slot; [apply (ag_shape _ _ Ha)|lia]. }
    assert (Hlast : forall dbg tr (st : store T) s, agrees st tr -> slot_of st 0 = Some s -> count 0 tr = 2 ^ 64 - 1 ->
      istep eqb dbg st (IIncr 0) = if dbg then Panic else Ok (EIncr 0, slot_put st 0 0 (Slot 0 (cont s)))).
    { intros dbg tr st s Ha Es Ec. cbn [istep]. unfold intern_incr, incr_inner. change (offset_to_idx 0) with (0%nat, 0%nat). cbn iota.
      pose proof (slot_at_offset st 0 (ag_shape _ _ Ha) ltac:(lia)) as HS. change (offset_to_idx 0) with (0%nat, 0%nat) in HS. cbn iota in HS.
      rewrite HS, Es. cbn [unwrap bind]. destruct (ag_slot _ _ Ha 0 s ltac:(lia) Es) as [R _]. rewrite R, Ec.
      destruct dbg; cbn [andb]; [rewrite Z.eqb_refl; reflexivity|]. replace ((2 ^ 64 - 1 + 1) mod 2 ^ 64) with 0 by reflexivity. reflexivity. }
    split.
    + rewrite app_assoc, Hrun. destruct (Hpre true) as (st & E & Ha & C & V & s & Es). rewrite E. cbn [bind irun].
      rewrite (Hlast true _ _ _ Ha Es C). reflexivity.
    + destruct (Hpre false) as (st & E & Ha & C & V & s & Es).
      exists (([EAdd v 0] ++ repeat (EIncr 0) (S n)) ++ [EIncr 0]), (slot_put st 0 0 (Slot 0 (cont s))).
      split; [rewrite app_assoc, Hrun, E; cbn [bind irun]; rewrite (Hlast false _ _ _ Ha Es C); reflexivity|].
      split; [rewrite count_snoc, C; reflexivity|]. split; [rewrite last_snoc; exact V|].
      rewrite (try_get_spec _ 0 (Slot 0 (cont s))).
      * reflexivity.
      * apply shape_put, (ag_shape _ _ Ha).
      * lia.
      * pose proof (slot_of_put st 0 (Slot 0 (cont s)) 0 (ag_shape _ _ Ha) ltac:(lia) ltac:(lia)) as HP.
        change (offset_to_idx 0) with (0%nat, 0%nat) in HP. cbn iota in HP. rewrite HP, Z.eqb_refl.
        rewrite ?Es. reflexivity.
Qed.
Print Assumptions C59_full_count.
