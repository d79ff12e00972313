(** The shared interner without a lock, its threads taking turns in calling [add]: invariant.  It is
    that of the interner with a lock, in a configuration where the lock holds what the last call of
    [add] has seen. *)
From Coq Require Import ZArith List Bool PeanoNat Lia.
From Verif Require Import Base Arith ConcInternModel ConcInternProofs WeakInternModel WeakInternSpec WeakInternProofs WeakChunkModel WeakChunkProofs WeakTurnSpec.
Import ListNotations.
Local Open Scope Z_scope.
Local Arguments cnt : simpl never.

Section Inv.
Context {T : Type} (eqb : T -> T -> bool).
Hypothesis eqb_eq : forall a b, eqb a b = true -> a = b.
Implicit Types (V L : view) (s : wslot T) (th : wthread T) (p : wpc T) (b : wconf T) (cs : cconf T).

Definition relock cs L : cconf T := CConf (put_lock (cbase cs) L) (clinks cs).

Lemma wstep_relock b L t pick p V :
  exists L', wstep eqb true (put_lock b L) t pick p V = put_lock (wstep eqb false b t pick p V) L'.
Proof.
  destruct p; cbn [wstep put_lock wslots wlog wthreads whandles wreads wlock];
    repeat match goal with
    | |- context [match ?x with _ => _ end] =>
      match x with
      | nth_error _ _ => destruct x
      | load_refs _ _ _ _ _ => destruct x
      | update_refs _ _ _ _ => destruct x
      | fst _ =? _ => destruct x
      | wcont _ => destruct x
      | _ =? 0 => destruct x
      end
    end; eexists; reflexivity.
Qed.

Lemma put_relock b L t (p : option (wpc T)) V : put (put_lock b L) t p V = put_lock (put b t p V) L.
Proof. reflexivity. Qed.

Lemma cstep_relock cs L t pick stale p V :
  exists L', cstep eqb true (relock cs L) t pick stale p V = relock (cstep eqb false cs t pick stale p V) L'.
Proof.
  assert (forall v, p = WPush v -> exists L', cstep eqb true (relock cs L) t pick stale p V = relock (cstep eqb false cs t pick stale p V) L') as HP.
  { intros v ->. unfold cstep, relock. cbn [cbase clinks]. rewrite put_relock.
    destruct (wstep_relock (put (cbase cs) t (Some (WPush v)) (Chunk (length (clinks cs)) :: map Chunk (seq 0 (length (clinks cs))) ++ concat (clinks cs) ++ V))
      L t pick (WPush v) (Chunk (length (clinks cs)) :: map Chunk (seq 0 (length (clinks cs))) ++ concat (clinks cs) ++ V)) as [L' ->].
    exists L'. reflexivity. }
  assert ((forall v, p <> WPush v) -> exists L', cstep eqb true (relock cs L) t pick stale p V = relock (cstep eqb false cs t pick stale p V) L') as HO.
  { intros HN. clear HP.
    assert (exists L', match looks_up p with
      | None => CConf (wstep eqb true (put_lock (cbase cs) L) t pick p V) (clinks cs)
      | Some i =>
        match reach (clinks cs) stale V i with
        | Some V' => CConf (wstep eqb true (put (put_lock (cbase cs) L) t (Some p) V') t pick p V') (clinks cs)
        | None => CConf (put (put_lock (cbase cs) L) t (Some (match p with WFindRefs v _ => WPush v | _ => WBroken end)) V) (clinks cs)
        end
      end = relock (match looks_up p with
      | None => CConf (wstep eqb false (cbase cs) t pick p V) (clinks cs)
      | Some i =>
        match reach (clinks cs) stale V i with
        | Some V' => CConf (wstep eqb false (put (cbase cs) t (Some p) V') t pick p V') (clinks cs)
        | None => CConf (put (cbase cs) t (Some (match p with WFindRefs v _ => WPush v | _ => WBroken end)) V) (clinks cs)
        end
      end) L') as H.
    { destruct (looks_up p); [destruct (reach _ _ _ _)|].
      - rewrite put_relock. destruct (wstep_relock (put (cbase cs) t (Some p) v) L t pick p v) as [L' ->]. exists L'. reflexivity.
      - exists L. reflexivity.
      - destruct (wstep_relock (cbase cs) L t pick p V) as [L' ->]. exists L'. reflexivity. }
    destruct p; try exact H. destruct (HN v eq_refl). }
  destruct p; try (apply HO; intros v'; discriminate). eapply HP. reflexivity.
Qed.

(** What a step of thread [t] does to the threads and the lock. *)
Definition moves b b' (t : nat) p V : Prop := exists (p' : option (wpc T)) V',
  wthreads b' = upd (wthreads b) t (WThread p' V') /\ incl V V' /\
  (in_add (Some p) = false -> in_add p' = false /\ wlock b' = wlock b) /\
  (in_add (Some p) = true -> in_add p' = false -> wlock b' = V').

Lemma effect_moves b b' t p V : effect b b' t p V -> moves b b' t p V.
Proof. intros [_ (p' & V' & E2 & HI & _ & E4 & E5 & _)]. exists p', V'. auto. Qed.

Lemma cstep_moves cs t pick stale p V : cinv cs -> nth_error (wthreads (cbase cs)) t = Some (WThread (Some p) V) ->
  moves (cbase cs) (cbase (cstep eqb true cs t pick stale p V)) t p V.
Proof.
  intros [HI HK] Et. destruct p as [v k|v k c|v k|v k|v k|v|n k|n k|n k|n k|] eqn:Ep; rewrite <- Ep in Et.
  6: { eexists _, _. unfold cstep. cbn [cbase]. unfold wstep, put. cbn [wslots wlog wthreads whandles wreads wlock]. rewrite !upd_upd.
       split; [reflexivity|]. split; [|split; discriminate].
       intros x Hx. right. apply in_app_iff. right. apply in_app_iff. right. exact Hx. }
  all: rewrite <- Ep; set (HN := fun v => (ltac:(rewrite Ep; discriminate) : p <> WPush v)).
  all: assert (moves (cbase cs) (cbase (match looks_up p with
      | None => CConf (wstep eqb true (cbase cs) t pick p V) (clinks cs)
      | Some i =>
        match reach (clinks cs) stale V i with
        | Some V' => CConf (wstep eqb true (put (cbase cs) t (Some p) V') t pick p V') (clinks cs)
        | None => CConf (put (cbase cs) t (Some (match p with WFindRefs v _ => WPush v | _ => WBroken end)) V) (clinks cs)
        end
      end)) t p V) as H; [|rewrite Ep in *; exact H].
  all: pose proof (wi_pc _ HI _ _ _ Et eq_refl) as HPc; cbn [wview] in HPc.
  all: destruct (looks_up p) as [i|] eqn:EL; [|apply effect_moves, step_effect; auto].
  all: destruct (looks_known _ _ _ _ _ _ HI HK Et EL) as [[Hi HC]|(v0 & k0 & E0 & Ek0)];
    [destruct (reach_known (clinks cs) stale V i Hi) as [W ->]; [intros j Hj; apply HC; lia|];
     assert (nth_error (wthreads (put (cbase cs) t (Some p) (W ++ V))) t = Some (WThread (Some p) (W ++ V))) as Et'
       by (cbn; eapply nth_upd_same; eauto);
     assert (pcok (wslots (cbase cs)) (whandles (cbase cs)) (W ++ V) p) as HP' by (eapply pcok_incl; [apply incl_appr, incl_refl|exact HPc]);
     destruct (effect_moves _ _ _ _ _ (step_effect eqb _ t pick p (W ++ V) Et' HP' HN)) as (p' & V' & E2 & HV & E4 & E5);
     exists p', V'; cbn [cbase]; rewrite E2; cbn [put wthreads]; rewrite upd_upd; split; [reflexivity|];
     split; [intros x Hx; apply HV, in_app_iff; right; exact Hx|]; split; [exact E4|exact E5]|].
  all: try congruence.
  destruct (reach (clinks cs) stale V i) as [V'|] eqn:ER.
  + exfalso. apply reach_some in ER. destruct ER as [_ Lt]. pose proof (kn_slots _ _ HK). apply nth_error_None in Ek0.
    rewrite E0 in EL. cbn [looks_up] in EL. destruct (Nat.eqb (k0 mod 32) 0); [|discriminate]. assert (i = (k0 / 32)%nat) by congruence. subst i.
    pose proof (Nat.div_le_mono (32 * length (clinks cs)) k0 32 ltac:(lia) ltac:(lia)) as D.
    rewrite Nat.mul_comm, Nat.div_mul in D by lia. lia.
  + exists (Some (WPush v)), V. rewrite Ep. cbn. split; [reflexivity|]. split; [apply incl_refl|]. split; discriminate.
Qed.

(** It is the turn of thread [h]. *)
Definition tinv (h : nat) cs : Prop := exists L, cinv (relock cs L) /\
  (forall t th, nth_error (wthreads (cbase cs)) t = Some th -> adds th = true -> t = h) /\
  (forall th, nth_error (wthreads (cbase cs)) h = Some th -> adds th = false -> incl L (wview th)).

(** A thread that has seen the last call of [add] begins one. *)
Lemma begin_add b L t V v n : winv (put_lock b L) -> known (put_lock b L) n -> nth_error (wthreads b) t = Some (WThread None V) ->
  cnt adds (wthreads b) = 0%nat -> incl L V ->
  winv (put_lock (put b t (Some (WFindRefs v 0)) V) L) /\ known (put_lock (put b t (Some (WFindRefs v 0)) V) L) n.
Proof.
  intros [] [] Et C0 HL. cbn [put_lock wslots wlog wthreads whandles wreads wlock] in *.
  set (th' := WThread (Some (WFindRefs v 0)) V).
  pose proof (cnt_upd adds _ _ th' _ Et) as CA.
  change (b2n (adds th')) with 1%nat in CA. change (b2n (adds (WThread (T := T) None V))) with 0%nat in CA.
  split; constructor; cbn; fold th'; auto.
  - intros k s E. destruct (wi_count k s E) as [Hm Hc]. split; [exact Hm|]. rewrite Hc. f_equal. f_equal.
    pose proof (cnt_upd (arr k) _ _ th' _ Et) as C. cbn in C. lia.
  - lia.
  - destruct wi_lock as [L1 L2]. split; [|intros; lia]. intros u x Eu Ax. destruct (nth_upd_cases _ _ _ _ _ Eu) as [[-> ->]|[_ E']]; [|eauto].
    eapply kn_mono; [|apply L2, C0]. exact HL.
  - eapply cget_keep; eauto using grown_refl, same_use_refl. intros m X. discriminate X.
  - intros u x p Eu Ex. destruct (nth_upd_cases _ _ _ _ _ Eu) as [[-> ->]|[_ E']]; [|eauto]. cbn in Ex. injection Ex as <-. exact I.
  - eapply cuse_plain; eauto.
  - intros u th Eu Ax. destruct (nth_upd_cases _ _ _ _ _ Eu) as [[-> ->]|[_ E']]; [|eauto]. cbn.
    eapply chunks_incl; [exact HL|]. auto.
  - intros u th q k Eu Eq U. destruct (nth_upd_cases _ _ _ _ _ Eu) as [[-> ->]|[_ E']]; [|eauto]. cbn in Eq. injection Eq as <-. discriminate.
Qed.

Lemma begin_relock b L t V c : (forall v, c <> CAdd v) -> wbegin true (put_lock b L) t V c = put_lock (wbegin false b t V c) L.
Proof.
  intros HN. destruct c as [v|m|m|m]; [destruct (HN v eq_refl)| | |]; unfold wbegin; cbn [put_lock whandles];
    destruct (nth_error (whandles b) m) as [[k x [[|u]| |] bn us]|]; reflexivity.
Qed.
Lemma begin_moves b t V c : (forall v, c <> CAdd v) -> nth_error (wthreads b) t = Some (WThread None V) ->
  exists (p' : option (wpc T)) V', wthreads (wbegin false b t V c) = upd (wthreads b) t (WThread p' V') /\ incl V V' /\ in_add p' = false.
Proof.
  intros HN Et.
  assert (exists (p' : option (wpc T)) V', wthreads b = upd (wthreads b) t (WThread p' V') /\ incl V V' /\ in_add p' = false) as H0.
  { exists None, V. rewrite (upd_self _ _ _ Et). split; [reflexivity|]. split; [apply incl_refl|reflexivity]. }
  destruct c as [v|m|m|m]; [destruct (HN v eq_refl)| | |]; unfold wbegin; destruct (nth_error (whandles b) m) as [[k x [[|u]| |] bn us]|]; try exact H0;
    (eexists _, _; split; [reflexivity|]; split; [|reflexivity]); try apply incl_appr; try apply incl_refl. apply incl_appr, incl_refl.
Qed.

(** Thread [t] moves on. *)
Lemma turn_upd (h t : nat) (ths : list (wthread T)) (p p' : option (wpc T)) V V' L L' :
  nth_error ths t = Some (WThread p V) -> incl V V' ->
  (in_add p = false -> in_add p' = false /\ L' = L) -> (in_add p = true -> in_add p' = false -> L' = V') ->
  (forall u th, nth_error ths u = Some th -> adds th = true -> u = h) ->
  (forall th, nth_error ths h = Some th -> adds th = false -> incl L (wview th)) ->
  (forall u th, nth_error (upd ths t (WThread p' V')) u = Some th -> adds th = true -> u = h) /\
  (forall th, nth_error (upd ths t (WThread p' V')) h = Some th -> adds th = false -> (in_add p = false \/ t = h) -> incl L' (wview th)).
Proof.
  intros Et HV E4 E5 H1 H2. split.
  - intros u th Eu A. destruct (nth_upd_cases _ _ _ _ _ Eu) as [[-> ->]|[_ E']]; [|eauto].
    apply (H1 _ _ Et). unfold adds in *. cbn [wpos] in *. destruct (in_add p); [reflexivity|]. destruct (E4 eq_refl). congruence.
  - intros th Eu A Hp. destruct (nth_upd_cases _ _ _ _ _ Eu) as [[-> ->]|[Hne E']].
    + unfold adds in A. cbn [wpos] in A. cbn [wview]. destruct (in_add p) eqn:F.
      * rewrite (E5 eq_refl A). apply incl_refl.
      * destruct (E4 eq_refl) as [_ ->]. intros x Hx. apply HV. specialize (H2 _ Et F). cbn in H2. auto.
    + destruct Hp as [F|F]; [|congruence]. destruct (E4 F) as [_ ->]. eauto.
Qed.

Lemma tinv_go h cs t pick stale : tinv h cs -> tinv h (cconf_step eqb false cs (WGo t pick, stale)).
Proof.
  intros (L & HC & H1 & H2). pose proof (cinv_step eqb eqb_eq _ (WGo t pick, stale) HC) as HC'. cbn [cconf_step] in *.
  cbn [relock cbase put_lock wthreads] in HC'.
  destruct (nth_error (wthreads (cbase cs)) t) as [[[p|] V]|] eqn:Et; try (exists L; auto; fail).
  destruct (cstep_relock cs L t pick stale p V) as [L' EL].
  destruct (cstep_moves (relock cs L) t pick stale p V HC Et) as (p' & V' & E2 & HV & E4 & E5).
  fold (relock cs L) in HC'. rewrite EL in *. cbn [relock cbase put_lock wthreads wlock] in E2, E4, E5.
  destruct (turn_upd h t _ _ p' _ V' L L' Et HV E4 E5 H1 H2) as [G1 G2].
  exists L'. split; [exact HC'|]. rewrite E2. split; [exact G1|]. intros th Eh A. apply (G2 th Eh A).
  destruct (in_add (Some p)) eqn:F; [right; apply (H1 _ _ Et F)|left; reflexivity].
Qed.

Lemma tinv_begin h cs t c stale : tinv h cs -> (forall v, c = CAdd v -> t = h) -> tinv h (cconf_step eqb false cs (WBegin t c, stale)).
Proof.
  intros (L & HC & H1 & H2) Ht. pose proof (cinv_step eqb eqb_eq _ (WBegin t c, stale) HC) as HC'. cbn [cconf_step wconf_step] in *.
  cbn [relock cbase clinks put_lock wthreads] in HC'. unfold tinv, relock. cbn [cbase clinks].
  destruct (nth_error (wthreads (cbase cs)) t) as [[[p|] V]|] eqn:Et; try (exists L; auto; fail).
  destruct c as [v|m|m|m].
  { rewrite (Ht v eq_refl) in *. cbn [wbegin]. destruct HC as [HI HK]. cbn [relock cbase clinks] in HI, HK.
    assert (cnt adds (wthreads (cbase cs)) = 0%nat) as C0.
    { apply cnt_zero. intros y Hy. destruct (adds y) eqn:A; [|reflexivity]. apply In_nth_error in Hy. destruct Hy as [u Eu].
      rewrite (H1 _ _ Eu A), Et in Eu. injection Eu as <-. discriminate. }
    exists L. split; [|split].
    - split; cbn [cbase clinks]; apply (begin_add _ L h V v (length (clinks cs)) HI HK Et C0 (H2 _ Et eq_refl)).
    - intros u th Eu A. cbn in Eu. destruct (nth_upd_cases _ _ _ _ _ Eu) as [[-> ->]|[_ E']]; [reflexivity|eauto].
    - intros th Eu A. cbn in Eu. destruct (nth_upd_cases _ _ _ _ _ Eu) as [[_ ->]|[Hne _]]; [discriminate|congruence]. }
  all: match goal with |- context [wbegin _ _ _ _ ?c] => assert (forall v, c <> CAdd v) as HN by (intros v; discriminate) end.
  all: fold (put_lock (cbase cs) L) in HC'; rewrite (begin_relock _ _ _ _ _ HN) in HC';
    destruct (begin_moves (cbase cs) t V _ HN Et) as (p' & V' & E2 & HV & F);
    destruct (turn_upd h t _ _ p' _ V' L L Et HV (fun _ => conj F eq_refl) ltac:(discriminate) H1 H2) as [G1 G2];
    exists L; split; [exact HC'|]; rewrite E2; split; [exact G1|]; intros th Eh A; apply (G2 th Eh A); left; reflexivity.
Qed.

Lemma tinv_sync h cs t u stale : tinv h cs -> let cs' := cconf_step eqb false cs (WSync t u, stale) in
  tinv h cs' /\ (u = h -> between_calls cs t -> between_calls cs u -> tinv t cs').
Proof.
  intros (L & HC & H1 & H2) cs'. pose proof (cinv_step eqb eqb_eq _ (WSync t u, stale) HC) as HC'. subst cs'. cbn [cconf_step wconf_step] in *.
  cbn [relock cbase clinks put_lock wthreads] in HC'. unfold tinv, relock, between_calls. cbn [cbase clinks].
  destruct (nth_error (wthreads (cbase cs)) t) as [[[p|] V]|] eqn:Et;
    try (split; [exists L; auto; fail|intros _ [X EX]; discriminate]).
  destruct (nth_error (wthreads (cbase cs)) u) as [[[p|] U]|] eqn:Eu;
    try (split; [exists L; auto; fail|intros _ _ [X EX]; discriminate]).
  destruct (turn_upd h t _ _ None _ (U ++ V) L L Et ltac:(apply incl_appr, incl_refl) (fun _ => conj eq_refl eq_refl) ltac:(discriminate) H1 H2) as [G1 G2].
  split.
  - exists L. split; [exact HC'|]. split; [exact G1|]. intros th Eh A. apply (G2 th Eh A). left. reflexivity.
  - intros -> _ _. exists L. split; [exact HC'|]. split.
    + intros x th Ex A. cbn in Ex. pose proof (G1 x th Ex A) as ->. destruct (nth_upd_cases _ _ _ _ _ Ex) as [[_ ->]|[_ E']]; [discriminate|].
      rewrite Eu in E'. injection E' as <-. discriminate.
    + intros th Eh A. cbn in Eh. destruct (nth_upd_cases _ _ _ _ _ Eh) as [[_ ->]|[Hne _]]; [|congruence].
      cbn. apply incl_appl. apply (H2 _ Eu eq_refl).
Qed.

Lemma tinv_initial h n capacity : tinv h (cinitial n capacity).
Proof.
  exists (wlock (cbase (@cinitial T n capacity))). split; [apply cinv_initial|]. split.
  - intros t th E A. cbn in E. apply nth_error_In, repeat_spec in E. subst th. discriminate.
  - intros th E A. cbn in E. apply nth_error_In, repeat_spec in E. subst th. apply incl_refl.
Qed.

Lemma tinv_exec acts : forall h cs, tinv h cs -> in_turn eqb h acts cs -> exists h', tinv h' (cexec eqb false acts cs).
Proof.
  induction acts as [|[a stale] acts IH]; intros h cs HI HT; [exists h; exact HI|]. cbn [in_turn fst] in HT.
  change (cexec eqb false ((a, stale) :: acts) cs) with (cexec eqb false acts (cconf_step eqb false cs (a, stale))).
  destruct a as [t c|t pick|t u].
  - assert ((forall v, c = CAdd v -> t = h) /\ in_turn eqb h acts (cconf_step eqb false cs (WBegin t c, stale))) as [Ht HT']
      by (destruct c; [destruct HT; split; [intros _ _|]; assumption| | |]; (split; [discriminate|exact HT])).
    eapply IH; [|exact HT']. apply tinv_begin; auto.
  - eapply IH; [|exact HT]. apply tinv_go; auto.
  - destruct (tinv_sync h cs t u stale HI) as [G1 G2]. destruct HT as [HT|(E & B1 & B2 & HT)]; eapply IH; try exact HT; auto.
Qed.
End Inv.
