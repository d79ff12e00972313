(** The shared interner with its list of chunks under weak memory, [add] under a lock: invariant. *)
From Coq Require Import ZArith List Bool PeanoNat Lia.
From Verif Require Import Base Arith ConcInternModel ConcInternProofs WeakInternModel WeakInternSpec WeakInternProofs WeakChunkModel.
Import ListNotations.
Local Open Scope Z_scope.

Lemma knows_chunk_in V i : knows_chunk V i = true <-> In (Chunk i) V.
Proof.
  unfold knows_chunk. rewrite existsb_exists. split.
  - intros ([n|k p|j] & Hin & E); try discriminate. apply Nat.eqb_eq in E. subst j. exact Hin.
  - intros H. exists (Chunk i). split; [exact H|apply Nat.eqb_refl].
Qed.
Lemma known_from_all V : forall n i, (forall j, (i <= j < i + n)%nat -> In (Chunk j) V) -> known_from V i n = n.
Proof.
  induction n as [|n IH]; intros i H; [reflexivity|]. cbn. rewrite (proj2 (knows_chunk_in V i)) by (apply H; lia).
  f_equal. apply IH. intros j Hj. apply H. lia.
Qed.
Lemma known_all V n : (forall j, (j < n)%nat -> In (Chunk j) V) -> known_chunks V n = n.
Proof. intros H. apply known_from_all. intros j Hj. apply H. lia. Qed.

Lemma reach_known links stale V i : (i < length links)%nat -> (forall j, (j <= i)%nat -> In (Chunk j) V) ->
  exists W, reach links stale V i = Some (W ++ V).
Proof.
  intros Hi H. unfold reach. rewrite (proj2 (Nat.ltb_lt _ _) Hi), (known_all V (S i)) by (intros j Hj; apply H; lia).
  rewrite (proj2 (Nat.leb_gt (S i) i)) by lia. rewrite andb_false_r. cbn [negb andb].
  exists (map Chunk (seq 0 (S i)) ++ concat (firstn (S i) links)). rewrite <- app_assoc. reflexivity.
Qed.
Lemma reach_some links stale V i V' : reach links stale V i = Some V' -> incl V V' /\ (i < length links)%nat.
Proof.
  unfold reach. destruct (Nat.ltb_spec i (length links)); [|discriminate]. destruct (negb _); [|discriminate].
  intros E. split; [|assumption]. remember (map Chunk (seq 0 (S i))) as X. remember (concat (firstn (S i) links)) as Y. injection E as <-.
  intros x Hx. apply in_app_iff. right. apply in_app_iff. right. exact Hx.
Qed.

Local Arguments cnt : simpl never.

Section Inv.
Context {T : Type} (eqb : T -> T -> bool).
Hypothesis eqb_eq : forall a b, eqb a b = true -> a = b.
Implicit Types (V : view) (s : wslot T) (h : whandle T) (th : wthread T) (p : wpc T) (b : wconf T) (cs : cconf T).

Definition chunks_to V (i : nat) : Prop := forall j, (j < i)%nat -> In (Chunk j) V.

(** The slot that a thread uses through a handle. *)
Definition used_slot (p : wpc T) : option nat :=
  match p with WIncr _ k | WDecr _ k | WGetRefs _ k | WGetVal _ k => Some k | _ => None end.

Record known b (n : nat) : Prop := {
  kn_slots : length (wslots b) = (32 * n)%nat;
  kn_adder : forall t th, nth_error (wthreads b) t = Some th -> adds th = true -> chunks_to (wview th) n;
  kn_lock : cnt adds (wthreads b) = 0%nat -> chunks_to (wlock b) n;
  kn_hand : forall m h, nth_error (whandles b) m = Some h -> (whid h < 32 * n)%nat /\ chunks_to (whborn h) (S (whid h / 32));
  kn_user : forall t th p k, nth_error (wthreads b) t = Some th -> wpos th = Some p -> used_slot p = Some k ->
    (k < 32 * n)%nat /\ chunks_to (wview th) (S (k / 32)) }.

Lemma chunks_incl V V' i : incl V V' -> chunks_to V i -> chunks_to V' i.
Proof. intros H C j Hj. apply H, C, Hj. Qed.
Lemma chunks_le V i j : (j <= i)%nat -> chunks_to V i -> chunks_to V j.
Proof. intros H C x Hx. apply C. lia. Qed.
Lemma slot_chunk k n : (k < 32 * n)%nat -> (k / 32 < n)%nat.
Proof. intros H. apply Nat.div_lt_upper_bound; lia. Qed.

(** What a step of thread [t] from [p] does to the views. *)
Record effect b b' (t : nat) p V : Prop := {
  ef_slots : length (wslots b') = length (wslots b);
  ef_th : exists (p' : option (wpc T)) V', wthreads b' = upd (wthreads b) t (WThread p' V') /\ incl V V' /\
    (forall m h', nth_error (whandles b') m = Some h' ->
       (exists h, nth_error (whandles b) m = Some h /\ whid h' = whid h /\ whborn h' = whborn h) \/
       (whborn h' = V' /\ (in_add (Some p) = true /\ (whid h' < length (wslots b))%nat \/ used_slot p = Some (whid h')))) /\
    (in_add (Some p) = false -> in_add p' = false /\ wlock b' = wlock b) /\
    (in_add (Some p) = true -> in_add p' = false -> wlock b' = V') /\
    (forall q k, p' = Some q -> used_slot q = Some k -> used_slot p = Some k) }.

Lemma known_effect b b' t p V n : nth_error (wthreads b) t = Some (WThread (Some p) V) -> (cnt adds (wthreads b) <= 1)%nat ->
  known b n -> effect b b' t p V -> known b' n.
Proof.
  intros Et C1 [] [E1 (p' & V' & E2 & HI & E3 & E4 & E5 & E6)].
  pose proof (cnt_upd adds _ _ (WThread p' V') _ Et) as CU.
  change (adds (WThread p' V')) with (in_add p') in CU. change (adds (WThread (Some p) V)) with (in_add (Some p)) in CU.
  constructor.
  - congruence.
  - intros u th Eu A. rewrite E2 in Eu. destruct (nth_upd_cases _ _ _ _ _ Eu) as [[-> ->]|[Hne E']]; [|eauto].
    cbn. eapply chunks_incl; [exact HI|]. apply (kn_adder0 _ _ Et). unfold adds in *. cbn [wpos] in *.
    destruct (in_add (Some p)) eqn:F; [reflexivity|]. destruct (E4 eq_refl) as [F' _]. congruence.
  - rewrite E2. intros C. destruct (in_add (Some p)) eqn:F; cbn [b2n] in CU.
    + assert (in_add p' = false) as F' by (destruct (in_add p'); [cbn [b2n] in CU; pose proof (cnt_pos adds _ _ _ Et F); lia|reflexivity]).
      rewrite (E5 eq_refl F'). eapply chunks_incl; [exact HI|]. apply (kn_adder0 _ _ Et). exact F.
    + destruct (E4 eq_refl) as [F' ->]. apply kn_lock0. rewrite F' in CU. cbn in CU. lia.
  - intros m h' Em. destruct (E3 m h' Em) as [(h & Eh & -> & ->)|(-> & [[F L]|U])]; [eauto| |].
    + split; [lia|]. eapply chunks_incl; [exact HI|]. eapply chunks_le; [|apply (kn_adder0 _ _ Et F)].
      apply slot_chunk. lia.
    + destruct (kn_user0 _ _ _ _ Et eq_refl U) as [K1 K2]. split; [exact K1|]. eapply chunks_incl; [exact HI|exact K2].
  - intros u th q k Eu Eq U. rewrite E2 in Eu. destruct (nth_upd_cases _ _ _ _ _ Eu) as [[-> ->]|[Hne E']]; [|eauto].
    cbn in *. destruct (kn_user0 _ _ _ _ Et eq_refl (E6 _ _ Eq U)) as [K1 K2]. split; [exact K1|]. eapply chunks_incl; [exact HI|exact K2].
Qed.

Lemma load_view s k pick acq V : exists c V', load_refs s k pick acq V = (c, V') /\ incl V V'.
Proof.
  unfold load_refs. destruct (nth _ _ _) as [c mv]. eexists _, _. split; [reflexivity|]. apply incl_tl. destruct acq; [apply incl_appr, incl_refl|apply incl_refl].
Qed.
Lemma update_view s k d V : exists s' V', update_refs s k d V = (s', V') /\ incl V V'.
Proof.
  unfold update_refs. destruct (last _ _) as [c mv]. eexists _, _. split; [reflexivity|]. apply incl_tl, incl_appr, incl_refl.
Qed.

Lemma unuse_keeps (hs : list (whandle T)) n V m h' : nth_error (unuse hs n V) m = Some h' ->
  exists h, nth_error hs m = Some h /\ whid h' = whid h /\ whborn h' = whborn h.
Proof.
  unfold unuse. destruct (nth_error hs n) as [[k v [u| |] born used]|] eqn:En; eauto.
  intros E. destruct (nth_upd_cases _ _ _ _ _ E) as [[-> ->]|[_ E']]; [|eauto]. eexists. split; [exact En|]. auto.
Qed.

Lemma upd_self {B} (l : list B) t x : nth_error l t = Some x -> upd l t x = l.
Proof. revert t. induction l as [|y l IH]; intros [|t] E; cbn in *; try discriminate; [congruence|]. f_equal. auto. Qed.

(** A step other than [push] that finds its slot and its handle. *)
Lemma step_effect b t pick p V : nth_error (wthreads b) t = Some (WThread (Some p) V) -> pcok (wslots b) (whandles b) V p ->
  (forall v, p <> WPush v) -> effect b (wstep eqb true b t pick p V) t p V.
Proof.
  intros Et HP HN. destruct p as [v k|v k c|v k|v k|v k|v|n k|n k|n k|n k|]; cbn [wstep] in *.
  - destruct (nth_error (wslots b) k) as [s|] eqn:Ek.
    + destruct (load_view s k pick true V) as (c & V' & -> & HI). constructor; [reflexivity|].
      exists (Some (WFindVal v k c)), V'. cbn. split; [reflexivity|]. split; [exact HI|]. split; [eauto|]. split; [discriminate|]. split; [discriminate|].
      intros q k' [= <-]. discriminate.
    + constructor; [reflexivity|]. exists (Some (WPush v)), V. cbn. split; [reflexivity|]. split; [apply incl_refl|]. split; [eauto|].
      split; [discriminate|]. split; [discriminate|]. intros q k' [= <-]. discriminate.
  - destruct HP as (s & Ek & _). rewrite Ek. constructor; [reflexivity|].
    eexists _, (Acc (length (wlog b)) :: V). cbn. split; [reflexivity|]. split; [apply incl_tl, incl_refl|]. split; [eauto|].
    split; [discriminate|]. destruct (match wcont s with Some cur => eqb v cur | None => false end); [|destruct (c =? 0)]; (split; [discriminate|]);
      intros q k' [= <-]; discriminate.
  - destruct HP as (s & Ek & _). rewrite Ek. destruct (update_view s k 1 V) as (s' & V' & -> & HI). constructor; [cbn; apply length_upd|].
    exists None, V'. cbn. split; [reflexivity|]. split; [exact HI|]. split; [|split; [discriminate|split; [reflexivity|discriminate]]].
    intros m h' E. destruct (nth_snoc_cases _ _ _ _ E) as [E'|[_ ->]]; [eauto|]. right. cbn. split; [reflexivity|]. left. split; [reflexivity|].
    eapply nth_lt; eauto.
  - destruct HP as (s & Ek & _). rewrite Ek. destruct (update_view s k 1 V) as (s' & V' & -> & HI). constructor; [cbn; apply length_upd|].
    exists (Some (WSetVal v k)), V'. cbn. split; [reflexivity|]. split; [exact HI|]. split; [eauto|]. split; [discriminate|]. split; [discriminate|].
    intros q k' [= <-]. discriminate.
  - destruct HP as (s & Ek & _). rewrite Ek. constructor; [cbn; apply length_upd|].
    exists None, (Acc (length (wlog b)) :: V). cbn. split; [reflexivity|]. split; [apply incl_tl, incl_refl|].
    split; [|split; [discriminate|split; [reflexivity|discriminate]]].
    intros m h' E. destruct (nth_snoc_cases _ _ _ _ E) as [E'|[_ ->]]; [eauto|]. right. cbn. split; [reflexivity|]. left. split; [reflexivity|].
    eapply nth_lt; eauto.
  - destruct (HN v eq_refl).
  - destruct HP as (h & En & Hk & _). rewrite En.
    assert (forall s, effect b (let '(s', V') := update_refs s k 1 V in
      put (put_handles (put_slot b k s') (unuse (whandles b) n V' ++ [WHandle k (whval h) (Held 0) V' []])) t None V') t (WIncr n k) V) as G.
    { intros s. destruct (update_view s k 1 V) as (s' & V' & -> & HI). constructor; [cbn; apply length_upd|].
      exists None, V'. cbn. split; [reflexivity|]. split; [exact HI|]. split; [|split; [auto|split; discriminate]].
      intros m h' E. destruct (nth_snoc_cases _ _ _ _ E) as [E'|[_ ->]]; [left; eapply unuse_keeps; eauto|]. right. cbn. auto. }
    destruct (nth_error (wslots b) k) as [s|] eqn:Ek; [apply G|].
    constructor; [reflexivity|]. exists (Some WBroken), V. cbn. split; [reflexivity|]. split; [apply incl_refl|]. split; [eauto|]. split; [auto|]. split; [discriminate|].
    intros q k' [= <-]. discriminate.
  - destruct HP as (h & En & Hk). rewrite En.
    destruct (nth_error (wslots b) k) as [s|] eqn:Ek.
    + assert (forall m h', nth_error (upd (whandles b) n (WHandle (whid h) (whval h) Gone (whborn h) (whused h))) m = Some h' ->
        exists h, nth_error (whandles b) m = Some h /\ whid h' = whid h /\ whborn h' = whborn h) as HH.
      { intros m h' E. destruct (nth_upd_cases _ _ _ _ _ E) as [[-> ->]|[_ E']]; [|eauto]. exists h. cbn. auto. }
      destruct (fst (last (wmsgs s) (0, [])) =? 0).
      * destruct (load_view s k (length (wmsgs s) - 1) true V) as (c & V' & -> & HI). constructor; [reflexivity|].
        exists None, V'. cbn. split; [reflexivity|]. split; [exact HI|]. split; [|split; [auto|split; discriminate]]. intros m h' E. left. eauto.
      * destruct (update_view s k (-1) V) as (s' & V' & -> & HI). constructor; [cbn; apply length_upd|].
        exists None, V'. cbn. split; [reflexivity|]. split; [exact HI|]. split; [|split; [auto|split; discriminate]]. intros m h' E. left. eauto.
    + constructor; [reflexivity|]. exists (Some WBroken), V. cbn. split; [reflexivity|]. split; [apply incl_refl|]. split; [eauto|]. split; [auto|]. split; [discriminate|].
      intros q k' [= <-]. discriminate.
  - destruct (nth_error (wslots b) k) as [s|] eqn:Ek.
    + destruct (load_view s k pick false V) as (c & V' & -> & HI). destruct (c =? 0).
      * constructor; [reflexivity|]. exists None, V'. cbn. split; [reflexivity|]. split; [exact HI|]. split; [|split; [auto|split; discriminate]].
        intros m h' E. left. eapply unuse_keeps; eauto.
      * constructor; [reflexivity|]. exists (Some (WGetVal n k)), V'. cbn. split; [reflexivity|]. split; [exact HI|]. split; [eauto|]. split; [auto|]. split; [discriminate|].
        intros q k' [= <-] U. exact U.
    + constructor; [reflexivity|]. exists (Some WBroken), V. cbn. split; [reflexivity|]. split; [apply incl_refl|]. split; [eauto|]. split; [auto|]. split; [discriminate|].
      intros q k' [= <-]. discriminate.
  - destruct (nth_error (wslots b) k) as [s|] eqn:Ek.
    + destruct (wcont s) as [v|].
      * constructor; [reflexivity|]. exists None, (Acc (length (wlog b)) :: V). cbn. split; [reflexivity|]. split; [apply incl_tl, incl_refl|]. split; [|split; [auto|split; discriminate]].
        intros m h' E. left. eapply unuse_keeps; eauto.
      * constructor; [reflexivity|]. exists (Some WBroken), V. cbn. split; [reflexivity|]. split; [apply incl_refl|]. split; [eauto|]. split; [auto|]. split; [discriminate|].
        intros q k' [= <-]. discriminate.
    + constructor; [reflexivity|]. exists (Some WBroken), V. cbn. split; [reflexivity|]. split; [apply incl_refl|]. split; [eauto|]. split; [auto|]. split; [discriminate|].
      intros q k' [= <-]. discriminate.
  - destruct HP.
Qed.

(** A thread sees more. *)
Lemma winv_see b t (p : option (wpc T)) V (W : view) : winv b -> nth_error (wthreads b) t = Some (WThread p V) -> winv (put b t p (W ++ V)).
Proof.
  intros HI Et. apply (winv_move b t _ (WThread p (W ++ V)) HI Et); try reflexivity; [cbn; apply incl_appr, incl_refl|].
  cbn. intros q ->. eapply pcok_incl; [apply incl_appr, incl_refl|]. apply (wi_pc _ HI _ _ _ Et eq_refl).
Qed.
Lemma known_see b t (p : option (wpc T)) V (W : view) n : known b n -> nth_error (wthreads b) t = Some (WThread p V) -> known (put b t p (W ++ V)) n.
Proof.
  intros [] Et. constructor; cbn; auto.
  - intros u th Eu A. destruct (nth_upd_cases _ _ _ _ _ Eu) as [[-> ->]|[_ E']]; [|eauto]. cbn.
    eapply chunks_incl; [apply incl_appr, incl_refl|]. apply (kn_adder0 _ _ Et A).
  - intros C. apply kn_lock0. pose proof (cnt_upd adds _ _ (WThread p (W ++ V)) _ Et) as CU.
    change (adds (WThread p (W ++ V))) with (adds (WThread p V)) in CU. lia.
  - intros u th q k Eu Eq U. destruct (nth_upd_cases _ _ _ _ _ Eu) as [[-> ->]|[_ E']]; [|eauto]. cbn in *.
    destruct (kn_user0 _ _ _ _ Et Eq U) as [K1 K2]. split; [exact K1|]. eapply chunks_incl; [apply incl_appr, incl_refl|exact K2].
Qed.

Definition cinv cs : Prop := winv (cbase cs) /\ known (cbase cs) (length (clinks cs)).

Lemma step_ok b t pick p V n : winv b -> known b n -> nth_error (wthreads b) t = Some (WThread (Some p) V) -> (forall v, p <> WPush v) ->
  winv (wstep eqb true b t pick p V) /\ known (wstep eqb true b t pick p V) n.
Proof.
  intros HI HK Et HN. split.
  - pose proof (winv_step eqb eqb_eq b (WGo t pick) HI) as H. cbn [wconf_step] in H. rewrite Et in H. exact H.
  - eapply known_effect; eauto; [apply (wi_one _ HI)|]. apply step_effect; auto. exact (wi_pc _ HI _ _ _ Et eq_refl).
Qed.

(** Every walk finds its chunk, and [add] misses none. *)
Lemma looks_known b t p V n i : winv b -> known b n -> nth_error (wthreads b) t = Some (WThread (Some p) V) -> looks_up p = Some i ->
  (i < n)%nat /\ chunks_to V (S i) \/ (exists v k, p = WFindRefs v k /\ nth_error (wslots b) k = None).
Proof.
  intros HI HK Et HL. pose proof (wi_pc _ HI _ _ _ Et eq_refl) as HP. pose proof (kn_slots _ _ HK) as HS.
  assert (forall k s, nth_error (wslots b) k = Some s -> (k / 32 < n)%nat) as HB by (intros k s E; apply nth_lt in E; apply slot_chunk; lia).
  assert (in_add (Some p) = true -> (i < n)%nat -> chunks_to V (S i)) as HA.
  { intros A Hi. eapply chunks_le; [|exact (kn_adder _ _ HK _ _ Et A)]. exact Hi. }
  destruct p as [v k|v k c|v k|v k|v k|v|m k|m k|m k|m k|]; cbn [looks_up] in HL; try discriminate.
  - destruct (Nat.eqb (k mod 32) 0); [|discriminate]. injection HL as <-. destruct (nth_error (wslots b) k) as [s|] eqn:Ek; [|right; eauto].
    left. split; eauto.
  - injection HL as <-. destruct HP as (s & Ek & _). left. split; eauto.
  - injection HL as <-. destruct HP as (s & Ek & _). left. split; eauto.
  - injection HL as <-. destruct HP as (s & Ek & _). left. split; eauto.
  - injection HL as <-. left. destruct (kn_user _ _ HK _ _ _ _ Et eq_refl eq_refl) as [K1 K2]. split; [apply slot_chunk, K1|exact K2].
  - injection HL as <-. left. destruct (kn_user _ _ HK _ _ _ _ Et eq_refl eq_refl) as [K1 K2]. split; [apply slot_chunk, K1|exact K2].
  - injection HL as <-. left. destruct (kn_user _ _ HK _ _ _ _ Et eq_refl eq_refl) as [K1 K2]. split; [apply slot_chunk, K1|exact K2].
Qed.

Lemma upd_upd {B} (l : list B) t (x y : B) : upd (upd l t x) t y = upd l t y.
Proof. revert t. induction l as [|z l IH]; intros [|t]; cbn; try reflexivity. f_equal. apply IH. Qed.

Lemma cinv_look cs t pick stale p V : cinv cs -> nth_error (wthreads (cbase cs)) t = Some (WThread (Some p) V) ->
  (forall v, p <> WPush v) ->
  cinv (match looks_up p with
    | None => CConf (wstep eqb true (cbase cs) t pick p V) (clinks cs)
    | Some i =>
      match reach (clinks cs) stale V i with
      | Some V' => CConf (wstep eqb true (put (cbase cs) t (Some p) V') t pick p V') (clinks cs)
      | None => CConf (put (cbase cs) t (Some (match p with WFindRefs v _ => WPush v | _ => WBroken end)) V) (clinks cs)
      end
    end).
Proof.
  intros [HI HK] Et HN. destruct (looks_up p) as [i|] eqn:EL; [|apply (step_ok _ t pick p V _ HI HK Et HN)].
  destruct (looks_known _ _ _ _ _ _ HI HK Et EL) as [[Hi HC]|(v & k & -> & Ek)].
  - destruct (reach_known (clinks cs) stale V i Hi) as [W ->]; [intros j Hj; apply HC; lia|].
    apply (step_ok _ t pick p (W ++ V) _ (winv_see _ _ _ _ W HI Et) (known_see _ _ _ _ W _ HK Et)); auto.
    cbn. eapply nth_upd_same; eauto.
  - destruct (reach (clinks cs) stale V i) as [V'|] eqn:ER.
    + exfalso. apply reach_some in ER. destruct ER as [_ L]. pose proof (kn_slots _ _ HK). apply nth_error_None in Ek.
      cbn [looks_up] in EL. destruct (Nat.eqb (k mod 32) 0); [|discriminate]. assert (i = (k / 32)%nat) by congruence. subst i.
      pose proof (Nat.div_le_mono (32 * length (clinks cs)) k 32 ltac:(lia) ltac:(lia)) as D.
      rewrite Nat.mul_comm, Nat.div_mul in D by lia. lia.
    + pose proof (step_ok _ t pick (WFindRefs v k) V _ HI HK Et HN) as H. cbn [wstep] in H. rewrite Ek in H. exact H.
Qed.

Lemma cinv_push cs t pick v V : cinv cs -> nth_error (wthreads (cbase cs)) t = Some (WThread (Some (WPush v)) V) ->
  cinv (cstep eqb true cs t pick false (WPush v) V) /\ cstep eqb true cs t pick true (WPush v) V = cstep eqb true cs t pick false (WPush v) V.
Proof.
  intros [HI HK] Et. split; [|reflexivity]. cbn [cstep]. set (n := length (clinks cs)) in *.
  set (V' := Chunk n :: map Chunk (seq 0 n) ++ concat (clinks cs) ++ V).
  pose proof (kn_adder _ _ HK _ _ Et eq_refl) as HC. cbn [wview] in HC. fold n in HC.
  rewrite (known_all V n HC), (Nat.max_l n (Nat.min pick n)) by lia.
  pose proof (kn_slots _ _ HK) as HS. fold n in HS. unfold wstep, put. cbn [wslots wlog wthreads whandles wreads wlock]. rewrite !upd_upd, <- HS.
  assert (incl V V') as HV by (intros x Hx; right; apply in_app_iff; right; apply in_app_iff; right; exact Hx).
  assert (chunks_to V' (S n)) as HC'.
  { intros j Hj. destruct (Nat.eq_dec j n) as [->|Hne]; [left; reflexivity|]. apply HV, HC. lia. }
  split; cbn [cbase clinks].
  - pose proof (winv_move (cbase cs) t _ (WThread (Some (WPush v)) V') HI Et HV) as H1.
    assert (winv (put (cbase cs) t (Some (WPush v)) V')) as H2 by (apply H1; try reflexivity; intros q [= <-]; exact I). clear H1.
    assert (nth_error (wthreads (put (cbase cs) t (Some (WPush v)) V')) t = Some (WThread (Some (WPush v)) V')) as Et'
      by (cbn; eapply nth_upd_same; eauto).
    pose proof (winv_push eqb _ t V' v pick H2 Et') as H3. unfold wstep, put in H3. cbn [wslots wlog wthreads whandles wreads wlock] in H3.
    rewrite !upd_upd in H3. exact H3.
  - rewrite app_length. cbn [length]. fold n. destruct HK. constructor; cbn [wslots wlog wthreads whandles wreads wlock].
    + rewrite app_length. unfold new_slots. rewrite repeat_length. lia.
    + intros u th Eu A. destruct (nth_upd_cases _ _ _ _ _ Eu) as [[-> ->]|[Hne E']]; [cbn; rewrite Nat.add_1_r; exact HC'|].
      pose proof (cnt_two adds _ _ _ _ _ Hne E' Et A eq_refl). pose proof (wi_one _ HI). lia.
    + intros C. pose proof (cnt_pos adds _ _ _ (nth_upd_same _ _ (WThread (Some (WIncrDead v (length (wslots (cbase cs))))) V') _ Et) eq_refl). lia.
    + intros m h Em. destruct (kn_hand0 m h Em) as [K1 K2]. split; [fold n in K1; lia|exact K2].
    + intros u th q k Eu Eq U. destruct (nth_upd_cases _ _ _ _ _ Eu) as [[-> ->]|[_ E']].
      * cbn in Eq. injection Eq as <-. discriminate.
      * destruct (kn_user0 _ _ _ _ E' Eq U) as [K1 K2]. split; [fold n in K1; lia|exact K2].
Qed.

Lemma known_begin b t V c n : known b n -> nth_error (wthreads b) t = Some (WThread None V) -> known (wbegin true b t V c) n.
Proof.
  intros HK Et.
  assert (forall m h st (q : wpc T) V', nth_error (whandles b) m = Some h -> in_add (Some q) = false -> used_slot q = Some (whid h) ->
    incl (whborn h) V' ->
    known (put (put_handles b (upd (whandles b) m (WHandle (whid h) (whval h) st (whborn h) (whused h)))) t (Some q) V') n) as G.
  { intros m h st q V' Em A U HV. destruct HK.
    pose proof (cnt_upd adds _ _ (WThread (Some q) V') _ Et) as CU.
    change (adds (WThread (Some q) V')) with (in_add (Some q)) in CU. rewrite A in CU. change (adds (WThread (T := T) None V)) with false in CU. cbn [b2n] in CU.
    constructor; cbn; auto.
    - intros u th Eu Ax. destruct (nth_upd_cases _ _ _ _ _ Eu) as [[-> ->]|[_ E']]; [|eauto]. unfold adds in Ax. cbn [wpos] in Ax. congruence.
    - intros C. apply kn_lock0. lia.
    - intros m' h' E. destruct (nth_upd_cases _ _ _ _ _ E) as [[-> ->]|[_ E']]; eauto. cbn. eauto.
    - intros u th q' k Eu Eq U'. destruct (nth_upd_cases _ _ _ _ _ Eu) as [[-> ->]|[_ E']]; [|eauto].
      cbn in Eq. injection Eq as <-. rewrite U in U'. injection U' as <-. destruct (kn_hand0 _ _ Em) as [K1 K2]. split; [exact K1|].
      eapply chunks_incl; [exact HV|exact K2]. }
  unfold wbegin. destruct c as [v|m|m|m].
  - destruct (existsb _ _) eqn:X; [exact HK|].
    assert (cnt adds (wthreads b) = 0%nat) as C0.
    { apply cnt_zero. intros y Hy. destruct (adds y) eqn:A; [|reflexivity].
      assert (existsb (fun th => in_add (wpos th)) (wthreads b) = true) by (apply existsb_exists; eauto). congruence. }
    destruct HK. constructor; cbn; auto.
    + intros u th Eu Ax. destruct (nth_upd_cases _ _ _ _ _ Eu) as [[-> ->]|[_ E']]; [|eauto]. cbn.
      eapply chunks_incl; [apply incl_appl, incl_refl|]. auto.
    + intros u th q k Eu Eq U. destruct (nth_upd_cases _ _ _ _ _ Eu) as [[-> ->]|[_ E']]; [|eauto]. cbn in Eq. injection Eq as <-. discriminate.
  - destruct (nth_error (whandles b) m) as [[k x [u| |] bn us]|] eqn:En; auto.
    apply (G m (WHandle k x (Held u) bn us)); auto. cbn. apply incl_appl, incl_refl.
  - destruct (nth_error (whandles b) m) as [[k x [[|u]| |] bn us]|] eqn:En; auto.
    apply (G m (WHandle k x (Held 0) bn us)); auto. cbn. apply incl_appl, incl_refl.
  - destruct (nth_error (whandles b) m) as [[k x [u| |] bn us]|] eqn:En; auto.
    apply (G m (WHandle k x (Held u) bn us)); auto. cbn. apply incl_appl, incl_refl.
Qed.

Lemma cinv_step cs a : cinv cs -> cinv (cconf_step eqb true cs a).
Proof.
  intros HC. destruct a as [[t c|t pick|t u] stale]; cbn [cconf_step].
  - destruct HC as [HI HK]. split; [apply (winv_step eqb eqb_eq _ (WBegin t c) HI)|]. cbn [cbase clinks wconf_step].
    destruct (nth_error (wthreads (cbase cs)) t) as [[[p|] V]|] eqn:Et; auto. apply known_begin; auto.
  - destruct (nth_error (wthreads (cbase cs)) t) as [[[p|] V]|] eqn:Et; auto.
    assert ((exists v, p = WPush v) \/ (forall v, p <> WPush v)) as [[v ->]|HN]
      by (destruct p; try (right; intros v'; discriminate); left; eauto).
    + destruct (cinv_push cs t pick v V HC Et) as [H E]. destruct stale; [rewrite E|]; exact H.
    + pose proof (cinv_look cs t pick stale p V HC Et HN) as H. destruct p; try exact H. destruct (HN v eq_refl).
  - destruct HC as [HI HK]. split; [apply (winv_step eqb eqb_eq _ (WSync t u) HI)|]. cbn [cbase clinks wconf_step].
    destruct (nth_error (wthreads (cbase cs)) t) as [[[p|] V]|] eqn:Et; auto.
    destruct (nth_error (wthreads (cbase cs)) u) as [[[p|] U]|] eqn:Eu; auto. apply known_see; auto.
Qed.

Lemma cinv_initial n capacity : cinv (cinitial n capacity).
Proof.
  split; [apply winv_initial|]. unfold cinitial, winitial. cbn [cbase clinks]. rewrite repeat_length.
  set (c := ((capacity + 32 - 1) / 32)%nat).
  assert (chunks_to (map Chunk (seq 0 c)) c) as HC by (intros j Hj; apply in_map, in_seq; lia).
  constructor; cbn [wslots wlog wthreads whandles wreads wlock].
  - induction c as [|x IH]; [reflexivity|]. cbn [repeat concat]. rewrite app_length, IH. unfold new_slots. rewrite repeat_length. lia.
    intros j Hj. apply in_map, in_seq. lia.
  - intros t th E. apply nth_error_In, repeat_spec in E. subst th. discriminate.
  - auto.
  - intros [|m] h; discriminate.
  - intros t th p k E Ep. apply nth_error_In, repeat_spec in E. subst th. discriminate.
Qed.

Lemma cinv_exec acts cs : cinv cs -> cinv (cexec eqb true acts cs).
Proof. revert cs. induction acts as [|a acts IH]; intros cs HI; [exact HI|]. cbn. apply IH, cinv_step, HI. Qed.
End Inv.
