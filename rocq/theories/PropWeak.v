(** Properties C119 and C120: the shared list under weak memory (WeakListModel.v), for any number
    of threads, any programs, any interleaving and any stale reads the memory model allows. *)
From Coq Require Import List Bool PeanoNat Lia.
From Verif Require Import Base ConcListModel ConcListProofs WeakListModel WeakListSpec WeakListProofs.
Import ListNotations.

(** ** C119: no data race *)

(** False because of [len], whose first load is relaxed: it can see the head without seeing the
    node initialised, and then reads the node. *)
Theorem C119_race_free_refuted : exists (progs : list (list (action nat))) sched,
  raced (wexec sched (winitial progs)) = true.
Proof.
  exists [[Do (Push 7)]; [Do Len]], [(0, false); (0, false); (0, false); (1, false); (1, false); (1, false)].
  vm_compute. reflexivity.
Qed.
Print Assumptions C119_race_free_refuted.

(** As long as [len] is called only by threads that know of an element (their own, one that a call
    showed them, or one known to a thread they have synchronised with), no execution has a data
    race, and no null or dangling pointer is followed.  Missing: any other use of [len]. *)
Theorem C119_race_free_partial : forall (A : Type) (progs : list (list (action A))) sched,
  let cf := wexec sched (winitial progs) in
  len_when_aware (whistory cf) ->
  raced cf = false /\
  forall t th c p, nth_error (wthreads cf) t = Some th -> wcur th = Some (c, p) -> p <> Crash.
Proof.
  intros A progs sched cf H. destruct (wreachable progs sched H) as [L HI]. fold cf in HI. split; [apply (wi_race _ _ HI)|].
  intros t th c p E Ec ->. destruct (wi_th _ _ HI t th E) as (k & _ & _ & Hp). exact (Hp _ _ Ec).
Qed.
Print Assumptions C119_race_free_partial.

Lemma no_len_step {A} (cf : wconf A) ch :
  Forall (fun th => Forall (fun a => a <> Do Len) (wtodo th)) (wthreads cf) ->
  (forall t, ~ In (WInv t Len) (whistory cf)) ->
  Forall (fun th => Forall (fun a => a <> Do Len) (wtodo th)) (wthreads (wconf_step cf ch)) /\
  (forall t, ~ In (WInv t Len) (whistory (wconf_step cf ch))).
Proof.
  intros H1 H2. destruct ch as [t stale]. unfold wconf_step.
  destruct (nth_error (wthreads cf) t) as [th|] eqn:Et; auto.
  assert (forall th', Forall (fun a => a <> Do Len) (wtodo th') ->
    Forall (fun th => Forall (fun a => a <> Do Len) (wtodo th)) (upd (wthreads cf) t th')) as HU.
  { intros th' H. apply Forall_forall. intros x Hx. apply In_nth_error in Hx. destruct Hx as [j Hj].
    apply nth_upd_cases in Hj. destruct Hj as [[_ ->]|[_ Hj]]; auto. apply (proj1 (Forall_forall _ _) H1). eapply nth_error_In; eauto. }
  assert (Forall (fun a => a <> Do Len) (wtodo th)) as Hth by (apply (proj1 (Forall_forall _ _) H1); eapply nth_error_In; eauto).
  destruct (wcur th) as [[c p]|].
  - destruct (wmicro stale p (wmemory cf) (wview th)) as [[[p'|r|] m'] V']; cbn; split; auto.
    intros t' Hin. apply in_app_iff in Hin. destruct Hin as [|[|[]]]; [eapply H2; eauto|discriminate].
  - destruct (wtodo th) as [|[c|u] l] eqn:Etd; cbn; auto.
    + inversion Hth; subst. split; auto. intros t' Hin. apply in_app_iff in Hin. destruct Hin as [|[E|[]]]; [eapply H2; eauto|].
      congruence.
    + inversion Hth; subst. split; auto. intros t' Hin. apply in_app_iff in Hin. destruct Hin as [|[E|[]]]; [eapply H2; eauto|].
      congruence.
Qed.

(** In particular programs without [len] have no data race. *)
Theorem C119_without_len_partial : forall (A : Type) (progs : list (list (action A))) sched,
  Forall (Forall (fun a => a <> Do Len)) progs -> raced (wexec sched (winitial progs)) = false.
Proof.
  intros A progs sched H. apply C119_race_free_partial.
  assert (forall cf : wconf A, Forall (fun th => Forall (fun a => a <> Do Len) (wtodo th)) (wthreads cf) ->
    (forall t, ~ In (WInv t Len) (whistory cf)) -> forall t, ~ In (WInv t Len) (whistory (wexec sched cf))) as K.
  { induction sched as [|ch sched IH]; intros cf H1 H2; auto. cbn. destruct (no_len_step cf ch H1 H2). apply IH; auto. }
  intros h1 t h2 E. exfalso. apply (K (winitial progs)) with t.
  - cbn. clear -H. induction H; cbn; constructor; auto.
  - intros t'. cbn. auto.
  - rewrite E. apply in_app_iff. right. left. auto.
Qed.
Print Assumptions C119_without_len_partial.

Fixpoint len_check (pre h : list (wevent nat)) : bool :=
  match h with
  | [] => true
  | e :: h' => (match e with WInv t Len => 0 <? aware pre t | _ => true end) && len_check (pre ++ [e]) h'
  end.

Lemma len_check_ok : forall h pre, len_check pre h = true ->
  forall h1 t h2, h = h1 ++ WInv t Len :: h2 -> 0 < aware (pre ++ h1) t.
Proof.
  induction h as [|e h IH]; intros pre H [|e' h1] t h2 E; try discriminate; cbn [len_check] in H;
    apply andb_true_iff in H; destruct H as [H H']; cbn in E.
  - injection E as -> _. rewrite app_nil_r. apply Nat.ltb_lt. auto.
  - injection E as <- E. specialize (IH _ H' h1 t h2 E). rewrite <- app_assoc in IH. auto.
Qed.

(** Two pushes race, a third thread iterates with stale reads and then synchronises and asks for
    the length. *)
Definition weak_busy : wconf nat :=
  wexec (concat (repeat [(0, false); (1, true); (2, true)] 20))
    (winitial [[Do (Push 10)]; [Do (Push 20); Do (Get 1)]; [Do IterAll; Sync 0; Sync 1; Do IterAll; Do Len]]).
Example C119_demo : len_when_aware (whistory weak_busy) /\ raced weak_busy = false /\
  whistory weak_busy =
    [WInv 0 (Push 10); WInv 1 (Push 20); WInv 2 IterAll; WRet 2 IterAll (RList []); WRet 0 (Push 10) (RNat 1);
     WSynced 2 0; WSynced 2 1; WInv 2 IterAll; WRet 1 (Push 20) (RNat 2); WInv 1 (Get 1);
     WRet 2 IterAll (RList [10]); WInv 2 Len; WRet 2 Len (RNat 1); WRet 1 (Get 1) (ROpt (Some 20))].
Proof.
  split; [|vm_compute; auto 20]. intros h1 t h2. apply (len_check_ok _ []). vm_compute. reflexivity.
Qed.

(** ** C120: what the threads see *)

(** At every moment the pointers in memory spell out exactly the values of the pushes that have
    returned, in the order of their returns, and the list only grows at its end. *)
Theorem C120_contents : forall (A : Type) (progs : list (list (action A))) sched later,
  let cf := wexec sched (winitial progs) in
  len_when_aware (whistory (wexec later cf)) ->
  wcontents (wmemory cf) = Some (wpushed (whistory cf)) /\
  exists l, wcontents (wmemory (wexec later cf)) = Some (wpushed (whistory cf) ++ l).
Proof.
  intros A progs sched later cf H. destruct (whistory_grows later cf) as [h Hh].
  assert (wexec (sched ++ later) (winitial progs) = wexec later cf) as EX by (unfold wexec, cf; apply fold_left_app).
  split.
  - destruct (wreachable progs sched) as [L HI]. { eapply len_when_aware_prefix. fold cf. rewrite <- Hh. exact H. }
    eapply wcontents_linked. apply (wi_linked _ _ HI).
  - destruct (wreachable progs (sched ++ later)) as [L HI]. { rewrite EX. exact H. }
    pose proof (wcontents_linked _ _ _ (wi_linked _ _ HI)) as E. rewrite EX in E. rewrite E, Hh, wpushed_app. eauto.
Qed.
Print Assumptions C120_contents.

(** Every call answers as if it saw some first part of the list, one that contains at least all
    the elements its thread knows of. *)
Theorem C120_answers : forall (A : Type) (progs : list (list (action A))) sched h1 t c r h2,
  let cf := wexec sched (winitial progs) in
  len_when_aware (whistory cf) -> whistory cf = h1 ++ WRet t c r :: h2 ->
  exists k, aware h1 t <= k <= length (wpushed h1) /\ seen_answer (firstn k (wpushed h1)) c r.
Proof.
  intros A progs sched h1 t c r h2 cf H E. destruct (wreachable progs sched H) as [L HI].
  exact (wi_hist _ _ HI h1 t c r h2 E).
Qed.
Print Assumptions C120_answers.

Lemma learn_mono {A} (aw : nat -> nat) len (e : wevent A) t : aw t <= learn aw len e t.
Proof.
  destruct e as [u c|u c r|u u']; cbn; auto.
  - destruct c, r as [|[]| |[]]; auto; destruct (Nat.eqb_spec t u); subst; auto; lia.
  - destruct (Nat.eqb_spec t u); subst; auto; lia.
Qed.

Lemma aware_mono {A} (h h' : list (wevent A)) t : aware h t <= aware (h ++ h') t.
Proof.
  induction h' as [|e h' IH] using rev_ind; [rewrite app_nil_r; auto|].
  rewrite app_assoc, aware_snoc. pose proof (learn_mono (aware (h ++ h')) (length (wpushed (h ++ h'))) e t). lia.
Qed.

(** A thread finds what it pushed itself where it was pushed, and so does a thread that
    synchronised with it after the push. *)
Theorem C120_published : forall (A : Type) (progs : list (list (action A))) sched h1 t v n h2 u h3 i r h4,
  let cf := wexec sched (winitial progs) in
  let position := length (wpushed h1) in
  len_when_aware (whistory cf) ->
  whistory cf = h1 ++ WRet t (Push v) n :: h2 ++ u :: h3 ++ WRet i (Get position) r :: h4 ->
  i = t \/ u = WSynced i t -> r = ROpt (Some v).
Proof.
  intros A progs sched h1 t v n h2 u h3 i r h4 cf position H E Hu.
  assert (whistory cf = (h1 ++ WRet t (Push v) n :: h2 ++ u :: h3) ++ WRet i (Get position) r :: h4) as E'.
  { rewrite E, <- app_assoc. cbn. rewrite <- app_assoc. auto. }
  destruct (C120_answers A progs sched _ i _ r h4 H E') as (k & [Hk1 Hk2] & Ha).
  assert (position + 1 <= aware (h1 ++ [WRet t (Push v) n]) t) as Ht.
  { rewrite aware_snoc. cbn. rewrite Nat.eqb_refl. unfold position. lia. }
  assert (position + 1 <= k) as Hp.
  { eapply Nat.le_trans; [|exact Hk1]. eapply Nat.le_trans; [exact Ht|].
    replace (h1 ++ WRet t (Push v) n :: h2 ++ u :: h3) with (((h1 ++ [WRet t (Push v) n]) ++ h2) ++ (u :: h3))
      by (rewrite <- !app_assoc; auto).
    destruct Hu as [->| ->].
    - rewrite <- app_assoc. apply aware_mono.
    - change (WSynced i t :: h3) with ([WSynced i t] ++ h3).
      generalize (h1 ++ [WRet t (Push v) n]) as g. intros g. rewrite (app_assoc (g ++ h2)).
      eapply Nat.le_trans; [|apply aware_mono]. rewrite aware_snoc. cbn [learn]. rewrite Nat.eqb_refl.
      pose proof (aware_mono g h2 t). lia. }
  cbn in Ha. destruct r as [|o| |]; try contradiction. subst o. f_equal.
  assert (nth_error (wpushed (h1 ++ WRet t (Push v) n :: h2 ++ u :: h3)) position = Some v) as Ev.
  { rewrite wpushed_app, nth_error_app2 by (unfold position; lia). unfold position. rewrite Nat.sub_diag. reflexivity. }
  rewrite <- Ev. clear -Hp. revert Hp. generalize (wpushed (h1 ++ WRet t (Push v) n :: h2 ++ u :: h3)) as l.
  generalize position as q. clear. intros q l. revert q k. induction l as [|x l IH]; intros [|q] [|k] H; cbn; auto; try lia.
  apply IH. lia.
Qed.
Print Assumptions C120_published.

(** The hypotheses of C120 are met, in an execution where the reader first sees nothing, then one
    element, while its own pusher finds the second one where it put it. *)
Example C120_demo : len_when_aware (whistory weak_busy) /\
  wcontents (wmemory weak_busy) = Some [10; 20] /\
  exists h1 n h2 u h3 h4, length (wpushed h1) = 1 /\
    whistory weak_busy = h1 ++ WRet 1 (Push 20) n :: h2 ++ u :: h3 ++ WRet 1 (Get 1) (ROpt (Some 20)) :: h4.
Proof.
  split; [apply C119_demo|]. split; [vm_compute; reflexivity|].
  exists [WInv 0 (Push 10); WInv 1 (Push 20); WInv 2 IterAll; WRet 2 IterAll (RList []); WRet 0 (Push 10) (RNat 1);
     WSynced 2 0; WSynced 2 1; WInv 2 IterAll], (RNat 2), [], (WInv 1 (Get 1)),
    [WRet 2 IterAll (RList [10]); WInv 2 Len; WRet 2 Len (RNat 1)], [].
  vm_compute. auto.
Qed.

(** ** C118 again: dropping the list under weak memory *)

Lemma good_full {A} (cf : wconf A) L t th : winv cf L -> nth_error (wthreads cf) t = Some th ->
  aware (whistory cf) t = length (wpushed (whistory cf)) -> good L (wview th) (length L).
Proof.
  intros HI Et Ha. destruct (wi_th _ _ HI t th Et) as (k & G & Hk & _).
  pose proof (wl_len _ _ _ (wi_linked _ _ HI)) as E. pose proof (g_len _ _ _ G).
  assert (k = length L) as -> by lia. auto.
Qed.

(** A thread that owns the list, because every other thread is done with it and has been
    synchronised with, drops it with relaxed loads only; still every node is freed, exactly once,
    the values are dropped in their order, and nothing is touched that it does not know to be
    initialised. *)
Theorem C118_drop_weak : forall (A : Type) (progs : list (list (action A))) sched t th stale stales,
  let cf := wexec sched (winitial progs) in
  len_when_aware (whistory cf) ->
  Forall (fun th => wcur th = None) (wthreads cf) ->
  nth_error (wthreads cf) t = Some th ->
  aware (whistory cf) t = length (wpushed (whistory cf)) ->
  length (wpushed (whistory cf)) <= length stales ->
  exists hp, wdrop stale stales (wmemory cf) (wview th) = WFreed hp (wpushed (whistory cf)) /\
    length hp = length (wpushed (whistory cf)) /\ length hp = length (wheap (wmemory cf)) /\
    Forall (fun x => x = None) hp.
Proof.
  intros A progs sched t th stale stales cf HLen Hidle Et Ha Hs.
  destruct (wreachable progs sched HLen) as [L HI]. fold cf in HI.
  pose proof (wcounted_exec progs sched HLen) as HC. fold cf in HC. unfold wcounted in HC.
  assert (wowners (wthreads cf) = 0) as E0.
  { clear -Hidle. induction Hidle as [|x l Hx _ IH]; cbn; auto. unfold wown. rewrite Hx. auto. }
  rewrite E0, Nat.add_0_r in HC. pose proof (wi_linked _ _ HI) as HL. pose proof (wl_len _ _ _ HL) as EL.
  pose proof (good_full cf L t th HI Et Ha) as G.
  assert (forall V, good L V (length L) -> exists hp, wdrop_loop stales (map Some (wheap (wmemory cf))) (nth_error L 0) V [] =
      WFreed hp (wpushed (whistory cf)) /\
      forall a, nth_error hp a = if existsb (Nat.eqb a) L then Some None else option_map Some (nth_error (wheap (wmemory cf)) a)) as K.
  { intros V GV. destruct (wdrop_walk _ L _ HL 0 stales (map Some (wheap (wmemory cf))) V []) as (hp & E1 & E2); auto; try lia.
    - intros a. cbn. apply nth_error_map.
    - exists hp. rewrite E1. auto. }
  assert (exists hp, wdrop stale stales (wmemory cf) (wview th) = WFreed hp (wpushed (whistory cf)) /\
    forall a, nth_error hp a = if existsb (Nat.eqb a) L then Some None else option_map Some (nth_error (wheap (wmemory cf)) a)) as (hp & E1 & E2).
  { unfold wdrop. destruct L as [|a L].
    - pose proof (wl_head _ _ _ HL) as Eh. cbn in Eh. destruct (whead (wmemory cf)) as [[? ?]|] eqn:Eh'; [discriminate|].
      cbn. apply K. auto.
    - pose proof (load_head_ok _ _ _ (wview th) (length (a :: L)) false stale HL G (or_intror (Nat.lt_0_succ _))) as HH.
      destruct (load_at _ _ _ _ _) as [r V']. destruct HH as [(_ & _ & E)|(b & k' & -> & E & G' & Hk & _)]; [discriminate|].
      rewrite <- E. apply K. assert (k' = length (a :: L)) as <-; auto. pose proof (g_len _ _ _ G'). lia. }
  exists hp. split; auto.
  assert (forall a, a < length (wheap (wmemory cf)) -> In a L) as Hall.
  { intros a Hlt. destruct (in_dec Nat.eq_dec a L) as [|N]; auto. exfalso.
    assert (NoDup (a :: L)) as ND by (constructor; auto; apply (wl_nodup _ _ _ HL)).
    assert (incl (a :: L) (seq 0 (length (wheap (wmemory cf))))) as IN.
    { intros b [<-|Hb]; apply in_seq; [lia|]. apply In_nth_error in Hb. destruct Hb as [j Hj].
      destruct (wl_node _ _ _ HL j b Hj) as (v & cell & Ex & _). split; [lia|]. apply nth_error_Some. congruence. }
    pose proof (NoDup_incl_length ND IN) as Hle. rewrite seq_length in Hle. cbn in Hle. lia. }
  assert (forall a, nth_error hp a = if a <? length (wheap (wmemory cf)) then Some None else None) as E3.
  { intros a. rewrite E2. destruct (Nat.ltb_spec a (length (wheap (wmemory cf)))) as [Hlt|Hge].
    - assert (existsb (Nat.eqb a) L = true) as ->; auto. apply existsb_exists. exists a. split; [auto|apply Nat.eqb_refl].
    - assert (nth_error (wheap (wmemory cf)) a = None) as En by (apply nth_error_None; auto).
      destruct (existsb (Nat.eqb a) L) eqn:Ex; [|rewrite En; auto]. apply existsb_exists in Ex. destruct Ex as (b & Hb & Eb).
      apply Nat.eqb_eq in Eb. subst b. apply In_nth_error in Hb. destruct Hb as [j Hj].
      destruct (wl_node _ _ _ HL j a Hj) as (v & cell & Ex & _). congruence. }
  assert (length hp = length (wheap (wmemory cf))) as E4.
  { apply Nat.le_antisymm.
    - destruct (Nat.le_gt_cases (length hp) (length (wheap (wmemory cf)))) as [|Hgt]; auto. exfalso.
      apply nth_error_Some in Hgt. apply Hgt. rewrite E3, Nat.ltb_irrefl. auto.
    - destruct (Nat.le_gt_cases (length (wheap (wmemory cf))) (length hp)) as [|Hgt]; auto. exfalso.
      assert (nth_error hp (length hp) = None) as En by (apply nth_error_None; auto). rewrite E3 in En.
      rewrite (proj2 (Nat.ltb_lt _ _) Hgt) in En. discriminate. }
  split; [lia|]. split; auto. apply Forall_forall. intros x Hx. apply In_nth_error in Hx. destruct Hx as [j Hj].
  rewrite E3 in Hj. destruct (_ <? _); congruence.
Qed.
Print Assumptions C118_drop_weak.

(** Two threads push, a third joins both and drops the list. *)
Definition weak_done : wconf nat :=
  wexec (concat (repeat [(0, false); (1, true)] 20) ++ [(2, true); (2, true)])
    (winitial [[Do (Push 10); Do (Push 30)]; [Do (Push 20)]; [Sync 0; Sync 1]]).
Example C118_weak_demo : len_when_aware (whistory weak_done) /\
  Forall (fun th => wcur th = None) (wthreads weak_done) /\
  aware (whistory weak_done) 2 = 3 /\ wpushed (whistory weak_done) = [10; 20; 30] /\
  exists th, nth_error (wthreads weak_done) 2 = Some th /\
    wdrop true [true; true; true] (wmemory weak_done) (wview th) = WFreed [None; None; None] [10; 20; 30].
Proof.
  split. { intros h1 t h2. apply (len_check_ok _ []). vm_compute. reflexivity. }
  split. { vm_compute. auto. }
  split; [vm_compute; reflexivity|]. split; [vm_compute; reflexivity|]. eexists. split; vm_compute; reflexivity.
Qed.
