(** Threads that run the programs of ConcArithModel.v under weak memory: none is ever stuck, and one that goes on again and again finishes. *)
From Coq Require Import ZArith List Bool PeanoNat Lia Permutation.
From Verif Require Import Base Words Spec Arith BitSliceModel BitSliceProofs InternModel InternProofs BigIntModel BigIntSpec BigIntProofs BigIntOps ConcArithModel ConcArithWp
  ConcInternModel ConcInternSpec ConcInternProofs ConcInternMore PropInternProgress PropInternOverlap ConcBigIntModel ConcArithProofs
  WeakInternModel WeakInternSpec WeakInternProofs WeakChunkModel WeakChunkProofs WeakTurnSpec WeakTurnProofs WeakArithModel WeakArithProofs.
Import ListNotations.
Local Open Scope Z_scope.
Local Arguments cnt : simpl never.

(** ** One step *)

(** How many steps a call takes at most, if there are at most [B] slots. *)
Definition left_over (B : nat) (p : wpc (list Z)) : nat :=
  match p with
  | WFindRefs _ k => 2 * (B - k) + 5
  | WFindVal _ k _ => 2 * (B - k) + 4
  | WPush _ => 3
  | WIncrDead _ _ | WGetRefs _ _ => 2
  | WIncrLive _ _ | WSetVal _ _ | WIncr _ _ | WDecr _ _ | WGetVal _ _ => 1
  | WBroken => 0
  end.

Definition shorter (B : nat) (th' : option (wthread (list Z))) (p : wpc (list Z)) : Prop :=
  exists o V', th' = Some (WThread o V') /\ forall p', o = Some p' -> (left_over B p' < left_over B p)%nat.

Lemma wstep_shorter locked b t pick p V B th : nth_error (wthreads b) t = Some th -> (length (wslots b) <= B)%nat -> pcok (wslots b) (whandles b) V p ->
  shorter B (nth_error (wthreads (wstep list_eqb locked b t pick p V)) t) p.
Proof.
  intros Et HB HP.
  assert (forall (x : bool) (c : wc) V, wthreads (if x then put_lock c V else c) = wthreads c) as E1 by (intros [] ? ?; reflexivity).
  assert (forall o V' c, wthreads c = upd (wthreads b) t (WThread o V') -> (forall p', o = Some p' -> (left_over B p' < left_over B p)%nat) -> shorter B (nth_error (wthreads c) t) p) as X.
  { intros o V' c Ec H. rewrite Ec. rewrite (nth_upd_same _ _ _ _ Et). exists o, V'. auto. }
  assert (forall p', Some WBroken = Some p' -> (0 < left_over B p)%nat -> (left_over B p' < left_over B p)%nat) as BR. { intros p' [= <-]. auto. }
  destruct p as [v k|v k c|v k|v k|v k|v|n k|n k|n k|n k|]; cbn [wstep pcok] in *.
  - destruct (nth_error (wslots b) k) as [s|].
    + destruct (load_refs s k pick true V) as [c V']. eapply X; [reflexivity|]. intros p' [= <-]. cbn [left_over]. lia.
    + eapply X; [reflexivity|]. intros p' [= <-]. cbn [left_over]. lia.
  - destruct HP as (s & Es & _). rewrite Es. assert (k < length (wslots b))%nat by (apply nth_error_Some; congruence). eapply X; [reflexivity|]. intros p' [= <-].
    destruct (match wcont s with Some cur => list_eqb v cur | None => false end); [cbn [left_over]; lia|]. destruct (c =? 0); cbn [left_over]; lia.
  - destruct HP as (s & Es & _). rewrite Es. destruct (update_refs s k 1 V) as [s' V']. eapply X; [unfold wadded, put, put_handles; cbn [wthreads]; rewrite E1; reflexivity|]. discriminate.
  - destruct HP as (s & Es & _). rewrite Es. destruct (update_refs s k 1 V) as [s' V']. eapply X; [reflexivity|]. intros p' [= <-]. cbn [left_over]. lia.
  - destruct HP as (s & Es & _). rewrite Es. eapply X; [unfold wadded, put, put_handles; cbn [wthreads]; rewrite E1; reflexivity|]. discriminate.
  - eapply X; [reflexivity|]. intros p' [= <-]. cbn [left_over]. lia.
  - destruct HP as (h & Eh & _). destruct (nth_error (wslots b) k) as [s|]; [|eapply X; [reflexivity|]; intros p' E; apply BR; [exact E|cbn; lia]].
    destruct (update_refs s k 1 V) as [s' V']. rewrite Eh. eapply X; [reflexivity|]. discriminate.
  - destruct HP as (h & Eh & _). destruct (nth_error (wslots b) k) as [s|]; [|eapply X; [reflexivity|]; intros p' E; apply BR; [exact E|cbn; lia]].
    rewrite Eh. destruct (fst (last (wmsgs s) (0, [])) =? 0).
    + destruct (load_refs s k (length (wmsgs s) - 1) true V) as [c V']. eapply X; [reflexivity|]. discriminate.
    + destruct (update_refs s k (-1) V) as [s' V']. eapply X; [reflexivity|]. discriminate.
  - destruct (nth_error (wslots b) k) as [s|]; [|eapply X; [reflexivity|]; intros p' E; apply BR; [exact E|cbn; lia]].
    destruct (load_refs s k pick false V) as [c V']. destruct (c =? 0); (eapply X; [reflexivity|]); [discriminate|]. intros p' [= <-]. cbn [left_over]. lia.
  - destruct (nth_error (wslots b) k) as [s|]; [|eapply X; [reflexivity|]; intros p' E; apply BR; [exact E|cbn; lia]].
    destruct (wcont s) as [v|]; (eapply X; [reflexivity|]); [discriminate|]. intros p' E. apply BR; [exact E|cbn; lia].
  - contradiction.
Qed.

Lemma cstep_shorter locked cs L t pick stale p V B : winv (put_lock (cbase cs) L) -> nth_error (wthreads (cbase cs)) t = Some (WThread (Some p) V) ->
  (length (wslots (cbase cs)) <= B)%nat -> shorter B (nth_error (wthreads (cbase (cstep list_eqb locked cs t pick stale p V))) t) p.
Proof.
  intros HI Et HB. pose proof (wi_pc _ HI _ _ _ Et eq_refl) as HP. cbn [put_lock wslots whandles wview] in HP.
  assert ((forall v, p <> WPush v) -> shorter B (nth_error (wthreads (cbase (match looks_up p with
      | None => CConf (wstep list_eqb locked (cbase cs) t pick p V) (clinks cs)
      | Some i =>
        match reach (clinks cs) stale V i with
        | Some V' => CConf (wstep list_eqb locked (put (cbase cs) t (Some p) V') t pick p V') (clinks cs)
        | None => CConf (put (cbase cs) t (Some (match p with WFindRefs v _ => WPush v | _ => WBroken end)) V) (clinks cs)
        end
      end))) t) p) as H.
  { intros _. destruct (looks_up p) as [i|] eqn:El; [|eapply wstep_shorter; eauto]. destruct (reach (clinks cs) stale V i) as [V'|] eqn:ER; cbn [cbase].
    - eapply wstep_shorter; [cbn [put wthreads]; apply (nth_upd_same _ _ _ _ Et)|exact HB|]. cbn [put wslots whandles]. eapply pcok_incl; [apply (reach_some _ _ _ _ _ ER)|exact HP].
    - cbn [put wthreads]. rewrite (nth_upd_same _ _ _ _ Et). eexists _, _. split; [reflexivity|]. intros p' [= <-]. destruct p; cbn [looks_up] in El; try discriminate El; cbn [left_over]; lia. }
  destruct p as [v k|v k c|v k|v k|v k|v|n k|n k|n k|n k|] eqn:Ep; try (apply H; intros v'; discriminate).
  unfold cstep. cbn [cbase]. cbn zeta. unfold put at 1. cbn [wthreads wstep]. unfold put. cbn [wthreads whandles]. rewrite !upd_upd, (nth_upd_same _ _ _ _ Et).
  eexists _, _. split; [reflexivity|]. intros p' [= <-]. cbn [left_over]. lia.
Qed.

(** ** The threads stay there *)

Lemma threads_step {T} (eqb : T -> T -> bool) locked cs a : length (wthreads (cbase (cconf_step eqb locked cs a))) = length (wthreads (cbase cs)).
Proof.
  assert (forall b t pick p V, length (wthreads (wstep eqb locked b t pick p V)) = length (wthreads b)) as H.
  { intros b t pick p V. assert (forall (c : wconf T) t v k V, length (wthreads (wadded locked c t v k V)) = length (wthreads c)) as HW by (intros; unfold wadded; destruct locked; cbn; apply len_upd).
    destruct p; cbn [wstep];
      repeat match goal with
      | |- context [match ?x with _ => _ end] =>
        match x with nth_error _ _ => destruct x | load_refs _ _ _ _ _ => destruct x | update_refs _ _ _ _ => destruct x
        | fst _ =? _ => destruct x | _ =? 0 => destruct x end
      end; rewrite ?HW; cbn [put put_slot put_handles put_read put_log wthreads]; rewrite ?len_upd; auto.
    destruct (wcont w); cbn; apply len_upd. }
  destruct a as [[t c|t pick|t u] stale]; cbn [cconf_step cbase wconf_step].
  - destruct (nth_error (wthreads (cbase cs)) t) as [[[q|] V]|]; auto. unfold wbegin.
    destruct c; repeat match goal with |- context [match ?x with _ => _ end] => destruct x end; cbn [put put_handles wthreads]; rewrite ?len_upd; reflexivity.
  - destruct (nth_error (wthreads (cbase cs)) t) as [[[q|] V]|]; auto.
    assert ((forall v, q <> WPush v) -> length (wthreads (cbase (match looks_up q with
      | None => CConf (wstep eqb locked (cbase cs) t pick q V) (clinks cs)
      | Some i =>
        match reach (clinks cs) stale V i with
        | Some V' => CConf (wstep eqb locked (put (cbase cs) t (Some q) V') t pick q V') (clinks cs)
        | None => CConf (put (cbase cs) t (Some (match q with WFindRefs v _ => WPush v | _ => WBroken end)) V) (clinks cs)
        end
      end))) = length (wthreads (cbase cs))) as HN.
    { intros _. destruct (looks_up q); [destruct (reach _ _ _ _)|]; cbn [cbase]; auto; [rewrite H|]; cbn [put wthreads]; apply len_upd. }
    destruct q as [v k|v k c|v k|v k|v k|v|m k|m k|m k|m k|] eqn:Eq; try (apply HN; intros v'; discriminate).
    unfold cstep. cbn [cbase put wthreads wstep]. rewrite !len_upd. reflexivity.
  - destruct (nth_error (wthreads (cbase cs)) t) as [[[q|] V]|]; auto. destruct (nth_error (wthreads (cbase cs)) u) as [[[q|] V']|]; auto. cbn [put wthreads]. apply len_upd.
Qed.
Lemma now_len locked n acts : length (wthreads (now locked n acts)) = n.
Proof.
  unfold now, wrun, cexec. rewrite <- fold_left_rev_right. induction (rev acts) as [|a l IH]; cbn [fold_right]; [cbn; apply repeat_length|].
  rewrite threads_step. exact IH.
Qed.

(** ** Going on *)

Lemma pc_dec (x y : option (option (wpc (list Z)))) : {x = y} + {x <> y}.
Proof. repeat (decide equality). Qed.

Section Run.
Context {A : Type} {adds : bool} (locked : bool) (n : nat) (vs : list nat) (V : list (Z * list Z)) (L : nat) (Q : nat -> list (Z * list Z) -> A -> Prop).
Context (HQ : forall t O O' a, Permutation O O' -> Q t O a -> Q t O' a).
Context (P : list (waction (list Z) * bool) -> Prop) (P_prefix : forall a b, P (a ++ b) -> P a) (P_keeps : forall a, P a -> keeps (wrun locked n a)).
Notation W := (now locked n).
Notation S a := (seen (now locked n a)).
Notation inv := (winv_b (adds := adds) locked n vs V L Q).

(** Where thread [t] is: inside which call, or between calls. *)
Definition position (bc : wbconf A) (t : nat) : option (option (wpc (list Z))) := option_map (@wpos (list Z)) (nth_error (wthreads (W (wdone bc))) t).
Definition wfinished (bc : wbconf A) (t : nat) : Prop := exists r, nth_error (wprogs bc) t = Some (PStop r).
Definition wview (bc : wbconf A) (t : nat) := (nth_error (wprogs bc) t, position bc t).

Lemma sync_position acts t u v : option_map (@wpos (list Z)) (nth_error (wthreads (W (acts ++ [(WSync t u, false)]))) v) = option_map (@wpos (list Z)) (nth_error (wthreads (W acts)) v).
Proof.
  unfold now. rewrite wrun_app. cbn [cexec fold_left cconf_step cbase wconf_step]. fold (W acts).
  destruct (nth_error (wthreads (W acts)) t) as [[[q|] U]|] eqn:Et; auto. destruct (nth_error (wthreads (W acts)) u) as [[[q|] U']|]; auto.
  cbn [put wthreads]. destruct (Nat.eq_dec t v) as [->|Hn]; [rewrite (nth_upd_same _ _ _ _ Et), Et; reflexivity|rewrite nth_upd_other; auto].
Qed.

(** Only a thread's own steps change where it is and what it has to do. *)
Lemma wview_other bc a t : P (wdone bc) -> (forall m pick stale, a <> Step t m pick stale) -> wview (wbstep locked n vs bc a) t = wview bc t.
Proof.
  intros HP Ha. unfold wview, position. destruct a as [u m pick stale|u w]; cbn [wbstep]; [|cbn [wdone wprogs]; rewrite sync_position; reflexivity].
  assert (u <> t) as Hn by (intros ->; elim (Ha m pick stale); reflexivity).
  destruct (P_keeps _ HP) as [(lk & HI) _].
  destruct (nth_error (wthreads (W (wdone bc))) u) as [[[q|] U]|] eqn:Eu; auto; destruct (nth_error (wprogs bc) u); auto; destruct (nth_error (wowned bc) u); auto.
  - assert (nth_error (wthreads (W (wdone bc ++ [(WGo u pick, stale)]))) t = nth_error (wthreads (W (wdone bc))) t) as X.
    { rewrite (now_go _ _ _ _ _ _ _ _ Eu). fold (W (wdone bc)).
      destruct (cstep_stepped locked _ lk u pick stale q U HI Eu) as [(p' & V' & E & _)|(V' & c & E & _)]; rewrite E; fold (W (wdone bc)); apply nth_upd_other; auto. }
    destruct (nth_error (wthreads (W (wdone bc ++ [(WGo u pick, stale)]))) u) as [[[?|] ?]|]; [|destruct (resume _ _ _ _ _)|]; cbn [wdone wprogs]; rewrite X; auto.
    rewrite nth_upd_other; auto.
  - destruct (next_call _ _ _ _ _) as [c|]; auto. cbn [wdone wprogs]. rewrite (now_begin _ _ _ _ _ _ _ Eu). f_equal. f_equal.
    unfold wbegin. destruct c; repeat match goal with |- context [match ?x with _ => _ end] => destruct x end; cbn [put put_handles wthreads]; auto; apply nth_upd_other; auto.
Qed.

(** While it is where it was it has to do what it had to. *)
Lemma same_position bc a t : P (wdone bc) -> position (wbstep locked n vs bc a) t = position bc t -> wview (wbstep locked n vs bc a) t = wview bc t.
Proof.
  intros HP E. assert ((exists m pick stale, a = Step t m pick stale) \/ forall m pick stale, a <> Step t m pick stale) as [(m & pick & stale & ->)|Ha].
  { destruct a as [u m pick stale|u w]; [|right; discriminate]. destruct (Nat.eq_dec u t) as [->|Hn]; [left; eauto|right; congruence]. }
  2: apply wview_other; auto.
  unfold wview. rewrite E. f_equal. clear HP. unfold position in E. cbn [wbstep] in *.
  destruct (nth_error (wthreads (W (wdone bc))) t) as [[[q|] U]|] eqn:Et; auto; destruct (nth_error (wprogs bc) t) as [p|] eqn:Ep; auto; destruct (nth_error (wowned bc) t); auto.
  - destruct (nth_error (wthreads (W (wdone bc ++ [(WGo t pick, stale)]))) t) as [[[?|] ?]|] eqn:En; auto. destruct (resume _ _ _ _ _). cbn [wdone] in E. rewrite En in E. discriminate E.
  - destruct (next_call _ _ _ _ _) as [c|]; auto.
Qed.

Lemma progs_len s : forall bc : wbconf A, length (wprogs (wbexec locked n vs s bc)) = length (wprogs bc).
Proof.
  induction s as [|[u m pick stale|u v] s IH]; intros b; [reflexivity|..]; (etransitivity; [apply (IH (wbstep locked n vs b _))|]); cbn [wbstep]; [|reflexivity].
  destruct (nth_error (wthreads (W (wdone b))) u) as [[[q|] U]|]; auto; destruct (nth_error (wprogs b) u); auto; destruct (nth_error (wowned b) u); auto.
  - destruct (nth_error (wthreads (W (wdone b ++ [(WGo u pick, stale)]))) u) as [[[?|] ?]|]; auto. destruct (resume _ _ _ _ _). cbn [wprogs]. apply len_upd.
  - destruct (next_call _ _ _ _ _); auto.
Qed.
Lemma stop_or_not (bc : wbconf A) t : (t < length (wprogs bc))%nat -> wfinished bc t \/ exists p, nth_error (wprogs bc) t = Some p /\ forall r, p <> PStop r.
Proof.
  intros Ht. destruct (nth_error (wprogs bc) t) as [p|] eqn:E; [|apply nth_error_None in E; lia].
  destruct p; [left; eexists; exact E|right; eexists; split; [reflexivity|discriminate]..].
Qed.

(** The first [k] moves of an endless schedule. *)
Definition wafter (f : nat -> wmove) (bc : wbconf A) (k : nat) : wbconf A := wbexec locked n vs (map f (seq 0 k)) bc.
Lemma wafter_S f bc k : wafter f bc (Datatypes.S k) = wbstep locked n vs (wafter f bc k) (f k).
Proof. unfold wafter. rewrite seq_S, map_app. unfold wbexec. rewrite fold_left_app. reflexivity. Qed.

Definition goes_on (f : nat -> wmove) (bc : wbconf A) (t k : nat) : Prop := position (wafter f bc (Datatypes.S k)) t <> position (wafter f bc k) t.

Lemma first_change f bc t d : (forall k, P (wdone (wafter f bc k))) -> forall k, goes_on f bc t (d + k) ->
  exists k', (k <= k')%nat /\ goes_on f bc t k' /\ wview (wafter f bc k') t = wview (wafter f bc k) t.
Proof.
  intros HF. induction d as [|d IH]; intros k H; [exists k; auto|]. rewrite Nat.add_succ_comm in H.
  destruct (IH (Datatypes.S k) H) as (k' & Hk & H' & E).
  destruct (pc_dec (position (wafter f bc (Datatypes.S k)) t) (position (wafter f bc k) t)) as [Ep|Np]; [|exists k; auto].
  exists k'. split; [lia|]. split; auto. rewrite E. rewrite wafter_S in Ep |- *. apply same_position; auto.
Qed.

Lemma wfinishes f bc t p0 : nth_error (wprogs bc) t = Some p0 -> position bc t = Some None -> (forall k, P (wdone (wafter f bc k))) ->
  (forall k, wfinished (wafter f bc k) t \/ exists k', (k <= k')%nat /\ goes_on f bc t k') -> exists k, wfinished (wafter f bc k) t.
Proof.
  intros Ep0 Et0 HF HS.
  destruct (Z_of_nat_complete (2 ^ 62) ltac:(lia)) as (B & EB).
  assert (forall k, length (wslots (W (wdone (wafter f bc k)))) <= B)%nat as HB'. { intros k. destruct (P_keeps _ (HF k)) as [_ X]. unfold now. lia. }
  assert (forall k, wfinished (wafter f bc k) t \/ exists k', (k <= k')%nat /\ goes_on f bc t k' /\ wview (wafter f bc k') t = wview (wafter f bc k) t) as NX.
  { intros k. destruct (HS k) as [X|(k' & Hk & X)]; auto. right. apply (first_change f bc t (k' - k)); auto. replace (k' - k + k)%nat with k' by lia. exact X. }
  clear EB.
  assert (forall k1 x, wview (wafter f bc k1) t = x -> goes_on f bc t k1 -> exists m pick stale, f k1 = Step t m pick stale) as ST.
  { intros k1 x _ G. assert ((exists m pick stale, f k1 = Step t m pick stale) \/ forall m pick stale, f k1 <> Step t m pick stale) as [X|X]; auto.
    { destruct (f k1) as [u m pick stale|u w]; [|right; discriminate]. destruct (Nat.eq_dec u t) as [->|Hn]; [left; eauto|right; congruence]. }
    exfalso. apply G. rewrite wafter_S. pose proof (wview_other (wafter f bc k1) (f k1) t (HF k1) X) as E. unfold wview in E. congruence. }
  (* inside a call, by the number of steps it still needs; then by the program *)
  assert (forall p, (forall k1 cf cf' q ms, wview (wafter f bc (Datatypes.S k1)) t = (Some (fst (resume cf cf' q ms p)), Some None) -> exists k, wfinished (wafter f bc k) t) ->
    forall r k q, (left_over B q <= r)%nat -> wview (wafter f bc k) t = (Some p, Some (Some q)) -> exists k', wfinished (wafter f bc k') t) as IN.
  { intros p HR. induction r as [|r IH]; intros k q Hr Hv; (destruct (NX k) as [X|(k1 & Hk1 & G & Ev)]; [eauto|]); rewrite Hv in Ev;
      destruct (ST k1 _ Ev G) as (m & pick & stale & Ef); pose proof (wafter_S f bc k1) as Ea; rewrite Ef in Ea; cbn [wbstep] in Ea;
      unfold wview, position in Ev; injection Ev as Ep Et; destruct (nth_error (wthreads (W (wdone (wafter f bc k1)))) t) as [[o U]|] eqn:Eth; try discriminate Et;
      cbn in Et; injection Et as ->; rewrite Ep in Ea; (destruct (nth_error (wowned (wafter f bc k1)) t) as [ms|] eqn:Em; [|exfalso; apply G; rewrite Ea; reflexivity]);
      destruct (P_keeps _ (HF k1)) as [(lk & HI) _]; pose proof (cstep_shorter locked _ lk t pick stale q U B HI Eth (HB' k1)) as (o & U' & E' & Hs);
      rewrite <- (now_go _ _ _ _ _ _ _ _ Eth) in E'; rewrite E' in Ea.
    - destruct o as [q'|]; [exfalso; specialize (Hs _ eq_refl); lia|]. destruct (resume _ _ _ ms p) as [p' ms'] eqn:Er.
      eapply (HR k1). rewrite Ea. unfold wview, position. cbn [wdone wprogs]. rewrite E', (nth_upd_same _ _ _ _ Ep). cbn [option_map wpos]. rewrite Er. reflexivity.
    - destruct o as [q'|].
      + apply (IH (Datatypes.S k1) q'); [specialize (Hs _ eq_refl); lia|]. rewrite Ea. unfold wview, position. cbn [wdone wprogs]. rewrite E', Ep. reflexivity.
      + destruct (resume _ _ _ ms p) as [p' ms'] eqn:Er.
        eapply (HR k1). rewrite Ea. unfold wview, position. cbn [wdone wprogs]. rewrite E', (nth_upd_same _ _ _ _ Ep). cbn [option_map wpos]. rewrite Er. reflexivity. }
  assert (forall p k, wview (wafter f bc k) t = (Some p, Some None) -> exists k', wfinished (wafter f bc k') t) as OUT.
  { assert (forall p, (forall k1 cf cf' q ms, wview (wafter f bc (Datatypes.S k1)) t = (Some (fst (resume cf cf' q ms p)), Some None) -> exists k, wfinished (wafter f bc k) t) ->
      forall k, wview (wafter f bc k) t = (Some p, Some None) -> exists k', wfinished (wafter f bc k') t) as GO.
    { intros p HR k Hv. destruct (NX k) as [X|(k1 & Hk1 & G & Ev)]; [eauto|]. rewrite Hv in Ev. pose proof Ev as Ev0.
      destruct (ST k1 _ Ev G) as (m & pick & stale & Ef). pose proof (wafter_S f bc k1) as Ea. rewrite Ef in Ea. cbn [wbstep] in Ea.
      unfold wview, position in Ev. injection Ev as Ep Et. destruct (nth_error (wthreads (W (wdone (wafter f bc k1)))) t) as [[o U]|] eqn:Eth; try discriminate Et.
      cbn in Et. injection Et as ->. rewrite Ep in Ea. destruct (nth_error (wowned (wafter f bc k1)) t) as [ms|] eqn:Em; [|exfalso; apply G; rewrite Ea; reflexivity].
      destruct (next_call _ _ ms p m) as [c|] eqn:Ec; [|exfalso; apply G; rewrite Ea; reflexivity].
      destruct (position (wafter f bc (Datatypes.S k1)) t) as [[q|]|] eqn:Eq.
      - apply (IN p HR (left_over B q) (Datatypes.S k1) q); auto. unfold wview. rewrite Eq, Ea. cbn [wprogs]. rewrite Ep. reflexivity.
      - exfalso. apply G. rewrite Eq. unfold wview in Ev0. congruence.
      - exfalso. unfold position in Eq. destruct (nth_error (wthreads (W (wdone (wafter f bc (Datatypes.S k1))))) t) eqn:X; [discriminate|].
        apply nth_error_None in X. rewrite now_len in X. assert (t < length (wthreads (W (wdone (wafter f bc k1)))))%nat as Y by (apply nth_error_Some; congruence). rewrite now_len in Y. lia. }
    induction p as [r|k f0 IH|l f0 IH|k p IH|k p IH]; intros k0 Hv.
    - exists k0. exists r. unfold wview in Hv. congruence.
    - apply (GO (PGet k f0)) with (k := k0); auto. intros k1 cf cf' q ms Hv'. cbn [resume fst] in Hv'. destruct (last _ _) as [? [l|]]; [eauto|]. exists (Datatypes.S k1). eexists. unfold wview in Hv'. injection Hv' as -> _. reflexivity.
    - apply (GO (PAdd l f0)) with (k := k0); auto. intros k1 cf cf' q ms Hv'. cbn [resume fst] in Hv'. destruct (nth_error (handles cf') _) as [h|]; [eauto|]. exists (Datatypes.S k1). eexists. unfold wview in Hv'. injection Hv' as -> _. reflexivity.
    - apply (GO (PIncr k p)) with (k := k0); auto. intros k1 cf cf' q ms Hv'. cbn [resume fst] in Hv'. eauto.
    - apply (GO (PDecr k p)) with (k := k0); auto. intros k1 cf cf' q ms Hv'. cbn [resume fst] in Hv'. eauto. }
  apply (OUT p0 0%nat). unfold wview. change (wafter f bc 0) with bc. rewrite Ep0, Et0. reflexivity.
Qed.

(** ** Never stuck *)

(** A thread inside a call goes on, whatever its loads return. *)
Lemma inside_goes_on bc t q p : inv bc -> P (wdone bc) -> position bc t = Some (Some q) -> nth_error (wprogs bc) t = Some p ->
  forall m pick stale, position (wbstep locked n vs bc (Step t m pick stale)) t <> position bc t.
Proof.
  intros HB HP Et Ep m pick stale. rewrite Et. unfold position in *. cbn [wbstep]. destruct (nth_error (wthreads (W (wdone bc))) t) as [[o U]|] eqn:Eth; [|discriminate].
  cbn in Et. injection Et as ->. rewrite Ep.
  destruct (nth_error (wowned bc) t) as [ms|] eqn:Em.
  2: { exfalso. apply nth_error_None in Em. assert (t < length (wprogs bc))%nat by (apply nth_error_Some; congruence). rewrite (b_len _ _ _ _ _ _ _ HB) in *. lia. }
  destruct (P_keeps _ HP) as [(lk & HI) _].
  pose proof (cstep_shorter locked _ lk t pick stale q U _ HI Eth (le_n _)) as (o & U' & E' & Hs). rewrite <- (now_go _ _ _ _ _ _ _ _ Eth) in E'. rewrite E'.
  destruct o as [q'|]; [|destruct (resume _ _ _ _ _)]; cbn [wdone]; rewrite E'; cbn [option_map wpos]; [|discriminate]. intros [= ->]. specialize (Hs _ eq_refl). lia.
Qed.

(** Between calls it can make its next one: unless it has to wait for the lock. *)
Lemma begins bc t U p ms m c : inv bc -> P (wdone bc) -> nth_error (wthreads (W (wdone bc))) t = Some (WThread None U) -> nth_error (wprogs bc) t = Some p ->
  nth_error (wowned bc) t = Some ms -> next_call (S (wdone bc)) vs ms p m = Some c ->
  (locked = true -> existsb (fun th => in_add (wpos th)) (wthreads (W (wdone bc))) = false) ->
  exists q U', nth_error (wthreads (wbegin locked (W (wdone bc)) t U c)) t = Some (WThread (Some q) U').
Proof.
  intros HB HF Et Ep Em Ec Hlk. destruct (P_keeps _ HF) as [(lk & HI) _]. pose proof (wi_use _ HI) as HUse. cbn [put_lock whandles wthreads] in HUse. fold (W (wdone bc)) in HUse.
  pose proof (w_usable _ _ _ _ _ _ _ _ _ HB Em) as HU. set (b := W (wdone bc)) in *.
  assert (forall x u mu, nth_error (wowned bc) u = Some mu -> In x mu -> In x (vs ++ ms) -> u = t) as SAME.
  { intros x u mu Eu I J. apply in_app_or in J. destruct J as [J|J]; [elim (b_apart _ _ _ _ _ _ _ HB x J); eapply in_concat_at; eauto|]. eapply nodup_at; eauto. apply (b_once _ _ _ _ _ _ _ HB). }
  assert (forall u y, nth_error (wthreads b) u = Some y -> forall q, wpos y = Some q -> exists p0 mu, nth_error (wprogs bc) u = Some p0 /\ nth_error (wowned bc) u = Some mu /\ pending vs (seen b) mu p0 (seen_call q)) as PEND.
  { intros u y Eu q Eq. apply (b_pend _ _ _ _ _ _ _ HB). fold b. cbn [seen ithreads]. rewrite nth_error_map, Eu. cbn. rewrite Eq. reflexivity. }
  assert (forall x, In x (vs ++ ms) -> exists k v bo born used, nth_error (whandles b) x = Some (WHandle k v (Held bo) born used)) as NL.
  { intros x I. destruct (HU x I) as (h0 & E0 & Hg). apply nth_seen in E0. destruct E0 as ([k v [bo| |] born used] & E & ->); eauto 7; [|elim Hg; reflexivity].
    exfalso. pose proof (HUse x) as X. rewrite E in X. cbn in X.
    destruct (cnt_exists (lev x) (wthreads b)) as (u & y & Eu & Y); [lia|]. unfold lev in Y. destruct (wpos y) as [q|] eqn:Eq; [|discriminate]. destruct q; try discriminate. apply Nat.eqb_eq in Y. subst n0.
    destruct (PEND _ _ Eu _ Eq) as (p0 & mu & E1 & E2 & PP).
    assert (In x mu) as J. { destruct p0; cbn [pending call_of seen_call] in PP; try contradiction; try discriminate PP; destruct PP as (y0 & Ey & J & _); try discriminate Ey. injection Ey as <-. exact J. }
    assert (u = t) by eauto. subst u. rewrite Et in Eu. injection Eu as <-. discriminate Eq. }
  assert (forall xs k, (forall x, In x xs -> In x (vs ++ ms)) -> usable (seen b) xs m k = true -> exists k' v bo born used, nth_error (whandles b) m = Some (WHandle k' v (Held bo) born used)) as GET.
  { intros xs k Hx Eu. apply usable_spec in Eu. destruct Eu as (I & _). apply NL, Hx, I. }
  destruct p as [r|k f|l f|k p|k p]; cbn [next_call] in Ec; try discriminate.
  - destruct (usable (seen b) (vs ++ ms) m k) eqn:Eu; [|discriminate]. injection Ec as <-. destruct (GET (vs ++ ms) k (fun x I => I) Eu) as (k' & v & bo & born & used & E).
    cbn [wbegin]. rewrite E. cbn [put put_handles wthreads]. rewrite (nth_upd_same _ _ _ _ Et). eauto.
  - injection Ec as <-. cbn [wbegin]. destruct locked; [rewrite Hlk by reflexivity|]; cbn [put wthreads]; rewrite (nth_upd_same _ _ _ _ Et); eauto.
  - destruct (usable (seen b) (vs ++ ms) m k) eqn:Eu; [|discriminate]. injection Ec as <-. destruct (GET (vs ++ ms) k (fun x I => I) Eu) as (k' & v & bo & born & used & E).
    cbn [wbegin]. rewrite E. cbn [put put_handles wthreads]. rewrite (nth_upd_same _ _ _ _ Et). eauto.
  - destruct (usable (seen b) ms m k) eqn:Eu; [|discriminate]. injection Ec as <-. destruct (GET ms k ltac:(intros; apply in_or_app; auto) Eu) as (k' & v & bo & born & used & E).
    apply usable_spec in Eu. destruct Eu as (I & _).
    assert (bo = O) as ->.
    { destruct bo as [|bo]; auto. exfalso. pose proof (HUse m) as X. rewrite E in X. cbn in X.
      destruct (cnt_exists (bor m) (wthreads b)) as (u & y & Eu & Y); [lia|]. unfold bor in Y. destruct (wpos y) as [q|] eqn:Eq; [|discriminate].
      destruct (PEND _ _ Eu _ Eq) as (p0 & mu & E1 & E2 & PP).
      assert (In m (vs ++ mu)) as J.
      { destruct q; try discriminate; apply Nat.eqb_eq in Y; subst n0; destruct p0; cbn [pending call_of seen_call] in PP; try contradiction; try discriminate PP;
          destruct PP as (y0 & Ey & J & _); try discriminate Ey; injection Ey as <-; try exact J; apply in_or_app; auto. }
      apply in_app_or in J. destruct J as [J|J]; [exact (b_apart _ _ _ _ _ _ _ HB m J (in_concat_at _ _ _ _ Em I))|].
      assert (u = t) by (apply (SAME m u mu); auto; apply in_or_app; auto). subst u. rewrite Et in Eu. injection Eu as <-. discriminate Eq. }
    cbn [wbegin]. rewrite E. cbn [put put_handles wthreads]. rewrite (nth_upd_same _ _ _ _ Et). eauto.
Qed.

(** It has a handle to make it through. *)
Lemma has_call bc t p ms : inv bc -> nth_error (wprogs bc) t = Some p -> nth_error (wowned bc) t = Some ms -> (forall r, p <> PStop r) ->
  exists m c, next_call (S (wdone bc)) vs ms p m = Some c.
Proof.
  intros HB Ep Em NS. pose proof (b_prog _ _ _ _ _ _ _ HB _ _ _ Ep Em) as Wp. pose proof (w_usable _ _ _ _ _ _ _ _ _ HB Em) as HU. set (cf := S (wdone bc)) in *.
  assert (forall xs k l, (forall x, In x xs -> usable_now cf x) -> In (k, l) (map (entry cf) xs) -> exists m, usable cf xs m k = true) as X.
  { intros xs k l U I. apply in_map_iff in I. destruct I as (m & E & I). exists m. unfold usable. apply andb_true_iff. split; [apply existsb_exists; exists m; split; auto; apply Nat.eqb_refl|].
    destruct (U m I) as (h & Eh & _). unfold entry in E. rewrite Eh in *. apply Z.eqb_eq. congruence. }
  destruct p as [r|k f|l f|k p|k p]; cbn [wp next_call] in *; [elim (NS r); auto| | | |].
  - destruct Wp as (l & I & _). rewrite <- (b_vars _ _ _ _ _ _ _ HB), <- map_app in I. destruct (X _ _ _ HU I) as (m & E). exists m. rewrite E. eauto.
  - exists O. eauto.
  - destruct Wp as (l & I & _). rewrite <- (b_vars _ _ _ _ _ _ _ HB), <- map_app in I. destruct (X _ _ _ HU I) as (m & E). exists m. rewrite E. eauto.
  - destruct Wp as (l & O1 & O2 & E & _). destruct (X ms k l) as (m & Em'); [intros x I; apply HU, in_or_app; auto|rewrite E; apply in_elt|]. exists m. rewrite Em'. eauto.
Qed.

Lemma between_goes_on bc t p m : inv bc -> P (wdone bc) -> position bc t = Some None -> nth_error (wprogs bc) t = Some p ->
  (locked = true -> existsb (fun th => in_add (wpos th)) (wthreads (W (wdone bc))) = false) ->
  forall pick stale, wdone (wbstep locked n vs bc (Step t m pick stale)) <> wdone bc -> position (wbstep locked n vs bc (Step t m pick stale)) t <> position bc t.
Proof.
  intros HB HP Et Ep Hlk pick stale. rewrite Et. unfold position in *. cbn [wbstep]. destruct (nth_error (wthreads (W (wdone bc))) t) as [[o U]|] eqn:Eth; [|discriminate].
  cbn in Et. injection Et as ->. rewrite Ep. destruct (nth_error (wowned bc) t) as [ms|] eqn:Em; [|intros X; elim X; reflexivity].
  destruct (next_call _ _ ms p m) as [c|] eqn:Ec; [|intros X; elim X; reflexivity]. intros _. cbn [wdone].
  rewrite (now_begin _ _ _ _ _ _ _ Eth). destruct (begins bc t U p ms m c HB HP Eth Ep Em Ec Hlk) as (q & U' & E). rewrite E. discriminate.
Qed.

Lemma can_go_on bc t p : inv bc -> P (wdone bc) -> (t < n)%nat -> nth_error (wprogs bc) t = Some p -> (forall r, p <> PStop r) ->
  (locked = true -> existsb (fun th => in_add (wpos th)) (wthreads (W (wdone bc))) = false) ->
  exists m, forall pick stale, position (wbstep locked n vs bc (Step t m pick stale)) t <> position bc t.
Proof.
  intros HB HP Ht Ep NS Hlk. destruct (position bc t) as [[q|]|] eqn:Et.
  - exists O. rewrite <- Et. eapply inside_goes_on; eauto.
  - assert (exists ms, nth_error (wowned bc) t = Some ms) as (ms & Em).
    { destruct (nth_error (wowned bc) t) eqn:E; eauto. apply nth_error_None in E. assert (t < length (wprogs bc))%nat by (apply nth_error_Some; congruence). rewrite (b_len _ _ _ _ _ _ _ HB) in *. lia. }
    destruct (has_call bc t p ms HB Ep Em NS) as (m & c & Ec). exists m. intros pick stale. rewrite <- Et. apply between_goes_on with (p := p); auto.
    assert (forall (l : list (waction (list Z) * bool)) x, l ++ [x] <> l) as NE. { intros l x E. apply (f_equal (@length _)) in E. rewrite app_length in E. cbn in E. lia. }
    cbn [wbstep]. unfold position in Et. destruct (nth_error (wthreads (W (wdone bc))) t) as [[o U]|]; [|discriminate]. cbn in Et. injection Et as ->. rewrite Ep, Em, Ec. apply NE.
  - exfalso. unfold position in Et. destruct (nth_error (wthreads (W (wdone bc))) t) eqn:E; [discriminate|]. apply nth_error_None in E. rewrite now_len in E. lia.
Qed.
End Run.
