(** Properties C179 and C180: the shared interner under weak memory (WeakInternModel.v, WeakChunkModel.v),
    with or without a lock around [add]: its reference counts, and how long its calls take; for any
    number of threads, any calls through handles that the caller may use, any interleaving, any stale
    reads, any late links of the list of chunks, and any comparison of values. *)
From Coq Require Import ZArith List Bool PeanoNat Lia.
From Verif Require Import Base ConcInternModel ConcInternProofs WeakInternModel WeakInternProofs WeakChunkModel WeakChunkProofs WeakCountProofs.
Import ListNotations.
Local Open Scope Z_scope.

(** ** C179: references are never lost or made up *)

Section Spec.
Context {T : Type}.

(** Handles with id [k] that have not been given back. *)
Definition holders (cf : wconf T) (k : nat) : nat :=
  length (filter (fun h => Nat.eqb (whid h) k && match whst h with Gone => false | _ => true end) (whandles cf)).

(** Threads inside [add] that have raised the count of slot [k] and not yet written their value
    (intern.rs:107-109, 119-121). *)
Definition arriving (cf : wconf T) (k : nat) : nat :=
  length (filter (fun th => match wpos th with Some (WSetVal _ j) => Nat.eqb j k | _ => false end) (wthreads cf)).

(** The count of a slot, as written last. *)
Definition refs (s : wslot T) : Z := match rev (wmsgs s) with [] => -1 | m :: _ => fst m end.

(** No call is in progress. *)
Definition quiet (cf : wconf T) : Prop := forall t th, nth_error (wthreads cf) t = Some th -> wpos th = None.
End Spec.

Lemma refs_lst {T : Type} (s : wslot T) : wmsgs s <> [] -> refs s = fst (lst s).
Proof.
  unfold refs, lst. destruct (wmsgs s) as [|y l] using rev_ind; [congruence|]. intros _. rewrite rev_app_distr, last_last. reflexivity.
Qed.
Lemma holders_hw {T : Type} (cf : wconf T) k : holders cf k = cnt (hw k) (whandles cf).
Proof. unfold holders, cnt. f_equal. apply filter_ext. intros h. unfold hw, gone. destruct (whst h); reflexivity. Qed.
Lemma arriving_arr {T : Type} (cf : wconf T) k : arriving cf k = cnt (arr k) (wthreads cf).
Proof. reflexivity. Qed.

(** At every moment the count of every slot is the number of handles to it that have not been given back
    and of calls of [add] that are about to return one; an id that has a handle has a slot that holds a
    value and is not free; no call through a handle fails to find its chunk, slot or value; and every
    [get] through a handle has returned a value. *)
Theorem C179_counts : forall (T : Type) (eqb : T -> T -> bool) locked n capacity (acts : list (waction T * bool)),
  let cf := cbase (cexec eqb locked acts (cinitial n capacity)) in
  (forall k s, nth_error (wslots cf) k = Some s -> refs s = Z.of_nat (holders cf k + arriving cf k)) /\
  (forall m h, nth_error (whandles cf) m = Some h -> whst h <> Gone ->
     exists s v, nth_error (wslots cf) (whid h) = Some s /\ 1 <= refs s /\ wcont s = Some v) /\
  (forall t th, nth_error (wthreads cf) t = Some th -> wpos th <> Some WBroken) /\
  (forall m o, In (m, o) (wreads cf) -> (m < length (whandles cf))%nat /\ exists v, o = Some v).
Proof.
  intros T eqb locked n capacity acts cf. pose proof (sinv_exec eqb locked acts _ (sinv_initial n capacity)) as HU. unfold sinv, binv in HU. fold cf in HU.
  split; [|split; [|split]].
  - intros k s E. destruct (ui_count _ _ _ _ _ HU k s E) as [Hm Hc]. rewrite refs_lst, holders_hw by exact Hm. exact Hc.
  - intros m h Em Hg. assert (gone h = false) as Hg' by (unfold gone; destruct (whst h); congruence).
    destruct (ui_hand _ _ _ _ _ HU _ _ Em) as (s & Es & _ & H). destruct (H Hg') as [Hv _].
    destruct (ui_count _ _ _ _ _ HU _ s Es) as [Hm Hc].
    destruct (wcont s) as [v|] eqn:Ev; [|congruence]. exists s, v. split; [exact Es|]. split; [|exact Ev].
    rewrite refs_lst, Hc by exact Hm. pose proof (hw_some _ _ _ _ Em eq_refl Hg'). lia.
  - intros t th Et Hp. destruct (ui_pc _ _ _ _ _ HU _ _ _ Et Hp).
  - intros m o Hi. destruct (ui_reads _ _ _ _ _ HU _ _ Hi) as [Ho Hl]. split; [exact Hl|]. destruct o as [v|]; [eauto|congruence].
Qed.
Print Assumptions C179_counts.

(** When no call is in progress the counts are the numbers of handles; once all of them have been given
    back, every slot is free again. *)
Theorem C179_quiet : forall (T : Type) (eqb : T -> T -> bool) locked n capacity (acts : list (waction T * bool)),
  let cf := cbase (cexec eqb locked acts (cinitial n capacity)) in
  quiet cf ->
  (forall k s, nth_error (wslots cf) k = Some s -> refs s = Z.of_nat (holders cf k)) /\
  ((forall m h, nth_error (whandles cf) m = Some h -> whst h = Gone) -> forall k s, nth_error (wslots cf) k = Some s -> refs s = 0).
Proof.
  intros T eqb locked n capacity acts cf HQ. destruct (C179_counts T eqb locked n capacity acts) as [HC _]. fold cf in HC.
  assert (forall k, arriving cf k = 0%nat) as HA.
  { intros k. rewrite arriving_arr. apply cnt_zero. intros th Hi. apply In_nth_error in Hi. destruct Hi as [t Et]. unfold arr. rewrite (HQ _ _ Et). reflexivity. }
  assert (forall k s, nth_error (wslots cf) k = Some s -> refs s = Z.of_nat (holders cf k)) as H1.
  { intros k s E. rewrite (HC k s E), HA, Nat.add_0_r. reflexivity. }
  split; [exact H1|]. intros HG k s E. rewrite (H1 k s E), holders_hw, cnt_zero; [reflexivity|].
  intros h Hi. apply In_nth_error in Hi. destruct Hi as [m Em]. unfold hw, gone. rewrite (HG _ _ Em). apply andb_false_r.
Qed.
Print Assumptions C179_quiet.

(** Three threads without a lock: threads 0 and 1 both take the free slot 0 for different values (the
    second overwrites the first, C122 and C62), thread 2 clones and gives back; the count is still right. *)
Definition two_in_one : list (waction Z * bool) := map (fun a => (a, true)) (
  [WBegin 0 (CAdd 5); WBegin 1 (CAdd 7); WGo 0 0; WGo 1 0; WGo 0 0; WGo 1 0; WGo 0 0; WGo 1 0; WGo 0 0] ++
  [WBegin 2 (CIncr 0); WGo 2 0; WGo 1 0; WBegin 2 (CGet 0); WGo 2 1; WGo 2 0; WBegin 0 (CDecr 0); WGo 0 0]).
Example C179_demo :
  let cf := cbase (cexec Z.eqb false two_in_one (cinitial 3 1)) in
  map (fun h => (whid h, whst h)) (whandles cf) = [(0%nat, Gone); (0%nat, Held 0); (0%nat, Held 0)] /\
  quiet cf /\ option_map refs (nth_error (wslots cf) 0) = Some 2 /\ wreads cf = [(0%nat, Some 7)] /\
  (let cf' := cbase (cexec Z.eqb false (two_in_one ++ map (fun a => (a, true)) [WBegin 0 (CDecr 1); WGo 0 0; WBegin 1 (CDecr 2); WGo 1 0]) (cinitial 3 1)) in
   quiet cf' /\ (forall m h, nth_error (whandles cf') m = Some h -> whst h = Gone) /\ option_map refs (nth_error (wslots cf') 0) = Some 0).
Proof.
  cbv zeta. split; [vm_compute; reflexivity|]. split; [intros [|[|[|[|t]]]] th E; vm_compute in E; (discriminate E || (injection E as <-; reflexivity))|].
  split; [vm_compute; reflexivity|]. split; [vm_compute; reflexivity|]. split; [intros [|[|[|[|t]]]] th E; vm_compute in E; (discriminate E || (injection E as <-; reflexivity))|].
  split; [|vm_compute; reflexivity]. intros [|[|[|[|t]]]] h E; vm_compute in E; (discriminate E || (injection E as <-; reflexivity)).
Qed.

(** ** C180: no call on the shared interner waits for another thread *)

(** Thread [t] is inside a call after [acts]; in [later] it takes at least 64n+5 steps, where n is the
    number of chunks at the end of [later]: then its call returns during [later]. *)
Theorem C180_returns : forall (T : Type) (eqb : T -> T -> bool) locked n capacity (acts later : list (waction T * bool)) t th p,
  let cs := cexec eqb locked acts (cinitial n capacity) in
  nth_error (wthreads (cbase cs)) t = Some th -> wpos th = Some p ->
  (64 * length (clinks (cexec eqb locked later cs)) + 5 <=
   length (filter (fun a => match fst a with WGo u _ => Nat.eqb u t | _ => false end) later))%nat ->
  exists before after th', later = before ++ after /\
    nth_error (wthreads (cbase (cexec eqb locked before cs))) t = Some th' /\ wpos th' = None.
Proof.
  intros T eqb locked n capacity acts later t th p cs Et Ep HL.
  apply (call_returns eqb locked later cs t th p); auto; [apply sinv_exec, sinv_initial|].
  change (filter (own t) later) with (filter (fun a : waction T * bool => match fst a with WGo u _ => Nat.eqb u t | _ => false end) later).
  eapply Nat.le_trans; [|exact HL]. destruct p; cbn [left_of]; lia.
Qed.
Print Assumptions C180_returns.

(** Thread 0 has loaded the count of slot 0; thread 1 takes slots 0 and 1 before it goes on, and thread 0
    ends up in slot 0 too: its call returns, after four further steps. *)
Example C180_demo :
  let acts := [(WBegin 0 (CAdd 100), true); (WGo 0 0, true)] in
  let later := (WBegin 1 (CAdd 5), true) :: repeat (WGo 1 0, true) 4 ++ (WBegin 1 (CAdd 6), true) :: repeat (WGo 1 9, false) 6 ++ repeat (WGo 0 0, true) 69 in
  let cs := cexec Z.eqb false acts (cinitial 2 1) in
  let e := cexec Z.eqb false later cs in
  (exists th p, nth_error (wthreads (cbase cs)) 0 = Some th /\ wpos th = Some p) /\
  length (clinks e) = 1%nat /\
  (64 * length (clinks e) + 5 <= length (filter (fun a => match fst a with WGo u _ => Nat.eqb u 0 | _ => false end) later))%nat /\
  map (fun h => (whid h, whval h)) (whandles (cbase e)) = [(0%nat, 5); (1%nat, 6); (0%nat, 100)].
Proof. cbv zeta. split; [eexists _, _; vm_compute; split; reflexivity|]. split; [vm_compute; reflexivity|]. split; [apply Nat.leb_le; vm_compute; reflexivity|]. vm_compute. reflexivity. Qed.
