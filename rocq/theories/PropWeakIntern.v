(** Property C122: the shared interner under weak memory (WeakInternModel.v,
    WeakChunkModel.v), for any number of
    threads, any calls through handles that the caller may use, any interleaving and any stale reads. *)
From Coq Require Import ZArith List Bool PeanoNat Lia.
From Verif Require Import Base ConcInternModel WeakInternModel WeakInternSpec WeakInternProofs WeakChunkModel WeakChunkProofs WeakTurnSpec WeakTurnProofs.
Import ListNotations.
Local Open Scope Z_scope.

(** ** C122: no data race on the values of a shared interner *)

(** False, even when no two calls overlap: thread 1 calls [add(5)] after the [add(5)] of thread 0 has
    returned, sees the count written by thread 0 and compares the value that thread 0 has written
    after that count. *)
Definition one_after_other : list (waction Z * bool) :=
  map (fun a => (a, false)) (WBegin 0 (CAdd 5) :: repeat (WGo 0 0) 4 ++ WBegin 1 (CAdd 5) :: repeat (WGo 1 1) 3).

Theorem C122_race_free_refuted : exists (acts : list (waction Z * bool)),
  (forall i, (inside (cbase (cexec Z.eqb false (firstn i acts) (cinitial 2 1))) <= 1)%nat) /\
  race (wlog (cbase (cexec Z.eqb false acts (cinitial 2 1)))).
Proof.
  exists one_after_other. split.
  - assert (forallb (fun i => Nat.leb (inside (cbase (cexec Z.eqb false (firstn i one_after_other) (cinitial 2 1)))) 1) (seq 0 10) = true) as H
      by (vm_compute; reflexivity).
    rewrite forallb_forall in H. intros i. destruct (Nat.lt_ge_cases i 10) as [L|L].
    + apply Nat.leb_le, H, in_seq. lia.
    + rewrite firstn_all2 by (cbn; lia). apply Nat.leb_le. vm_compute. reflexivity.
  - exists 1%nat, 2%nat. eexists _, _. split; [lia|]. vm_compute. split; [reflexivity|]. split; [reflexivity|]. split; [reflexivity|].
    split; [auto|]. intros H. repeat (destruct H as [H|H]; [discriminate|]). exact H.
Qed.
Print Assumptions C122_race_free_refuted.

(** With a lock around [add] (and none around [incr], [decr] and [get]) there is no race, no call uses
    a chunk, slot or value that is not there (however late the links of the list of chunks arrive), every handle that has not been given back refers to the value
    it was created for, and [get] returned that value every time.
    Missing from the full statement: the lock, which the code does not take. *)
Theorem C122_locked_partial : forall (T : Type) (eqb : T -> T -> bool) n capacity (acts : list (waction T * bool)),
  (forall a b, eqb a b = true -> a = b) ->
  let cf := cbase (cexec eqb true acts (cinitial n capacity)) in
  ~ race (wlog cf) /\
  (forall t th, nth_error (wthreads cf) t = Some th -> wpos th <> Some WBroken) /\
  (forall m h, nth_error (whandles cf) m = Some h -> whst h <> Gone ->
     exists s, nth_error (wslots cf) (whid h) = Some s /\ wcont s = Some (whval h)) /\
  (forall m o, In (m, o) (wreads cf) -> exists h, nth_error (whandles cf) m = Some h /\ o = Some (whval h)).
Proof.
  intros T eqb n capacity acts Heq cf. pose proof (proj1 (cinv_exec eqb Heq acts _ (cinv_initial n capacity))) as HI. fold cf in HI.
  split; [apply (wi_race _ HI)|]. split; [|split; [|apply (wi_reads _ HI)]].
  - intros t th Et Hp. destruct (wi_pc _ HI _ _ _ Et Hp).
  - intros m h Em Hg. destruct (wi_hand _ HI _ _ Em) as (s & Es & H). exists s. split; [exact Es|].
    apply H. unfold gone. destruct (whst h); congruence.
Qed.
Print Assumptions C122_locked_partial.

(** Thread 0 adds 5 (pushing a chunk); thread 1 reads it through the handle while thread 0 adds 7; thread
    1 gives the handle of 5 back and adds 9, which takes its slot; thread 2 reads 9 and 7. *)
Definition interned_busy : list (waction Z * bool) := map (fun a => (a, true)) (
  WBegin 0 (CAdd 5) :: repeat (WGo 0 0) 4 ++
  WBegin 1 (CGet 0) :: WBegin 0 (CAdd 7) :: [WGo 0 0; WGo 1 1; WGo 0 1; WGo 1 1] ++ repeat (WGo 0 0) 6 ++
  WBegin 1 (CDecr 0) :: WGo 1 0 :: WBegin 1 (CAdd 9) :: repeat (WGo 1 0) 9 ++
  WBegin 2 (CGet 2) :: [WGo 2 9; WGo 2 0] ++ WBegin 2 (CGet 1) :: [WGo 2 9; WGo 2 0]).
Example C122_demo :
  let cf := cbase (cexec Z.eqb true interned_busy (cinitial 3 0)) in
  map (fun h => (whid h, whval h, whst h)) (whandles cf) = [(0%nat, 5, Gone); (1%nat, 7, Held 0); (0%nat, 9, Held 0)] /\
  wreads cf = [(0%nat, Some 5); (2%nat, Some 9); (1%nat, Some 7)] /\
  map (fun a => (aslot a, aby a)) (wlog cf) =
    [(0%nat, BySet); (0%nat, ByFind); (0%nat, ByGet 0); (1%nat, ByFind); (1%nat, BySet); (0%nat, ByFind); (0%nat, BySet);
     (0%nat, ByGet 2); (1%nat, ByGet 1)].
Proof. vm_compute. repeat split. Qed.

(** What late links do: without the lock a thread that has not seen the chunk of another
    thread appends a second one and interns the same value again, although the first call of [add] has
    returned. *)
Example C122_late_chunk_demo :
  let acts := [(WBegin 0 (CAdd 5), false)] ++ repeat (WGo 0 0, false) 4 ++ [(WBegin 1 (CAdd 5), false)] ++ repeat (WGo 1 1, true) 4 in
  let cf := cbase (cexec Z.eqb false acts (cinitial 2 0)) in
  map (fun h => (whid h, whval h)) (whandles cf) = [(0%nat, 5); (32%nat, 5)] /\ length (wslots cf) = 64%nat.
Proof. vm_compute. split; reflexivity. Qed.

(** The code as it is, without a lock, if the threads take turns in calling [add] (see [in_turn] in
    WeakTurnSpec.v): the same.
    Missing from the full statement: calls of [add] by threads of which the one has not learnt what the
    other has done. *)
Theorem C122_turns_partial : forall (T : Type) (eqb : T -> T -> bool) n capacity h (acts : list (waction T * bool)),
  (forall a b, eqb a b = true -> a = b) -> in_turn eqb h acts (cinitial n capacity) ->
  let cf := cbase (cexec eqb false acts (cinitial n capacity)) in
  ~ race (wlog cf) /\
  (forall t th, nth_error (wthreads cf) t = Some th -> wpos th <> Some WBroken) /\
  (forall m h, nth_error (whandles cf) m = Some h -> whst h <> Gone ->
     exists s, nth_error (wslots cf) (whid h) = Some s /\ wcont s = Some (whval h)) /\
  (forall m o, In (m, o) (wreads cf) -> exists h, nth_error (whandles cf) m = Some h /\ o = Some (whval h)).
Proof.
  intros T eqb n capacity h0 acts Heq HT cf.
  destruct (tinv_exec eqb Heq acts h0 _ (tinv_initial h0 n capacity) HT) as (h' & L & [HI _] & _). cbn [relock cbase] in HI. fold cf in HI.
  split; [apply (wi_race _ HI)|]. split; [|split; [|apply (wi_reads _ HI)]].
  - intros t th Et Hp. destruct (wi_pc _ HI t th _ Et Hp).
  - intros m h Em Hg. destruct (wi_hand _ HI m h Em) as (s & Es & H). exists s. split; [exact Es|].
    apply H. unfold gone. destruct (whst h); congruence.
Qed.
Print Assumptions C122_turns_partial.

(** One thread that adds, and any number that clone, give back and read. *)
Theorem C122_one_adder_partial : forall (T : Type) (eqb : T -> T -> bool) n capacity adder (acts : list (waction T * bool)),
  (forall a b, eqb a b = true -> a = b) ->
  (forall t v stale, In (WBegin t (CAdd v), stale) acts -> t = adder) ->
  let cf := cbase (cexec eqb false acts (cinitial n capacity)) in
  ~ race (wlog cf) /\
  (forall t th, nth_error (wthreads cf) t = Some th -> wpos th <> Some WBroken) /\
  (forall m h, nth_error (whandles cf) m = Some h -> whst h <> Gone ->
     exists s, nth_error (wslots cf) (whid h) = Some s /\ wcont s = Some (whval h)) /\
  (forall m o, In (m, o) (wreads cf) -> exists h, nth_error (whandles cf) m = Some h /\ o = Some (whval h)).
Proof.
  intros T eqb n capacity adder acts Heq HA. apply (C122_turns_partial T eqb n capacity adder acts Heq).
  generalize (@cinitial T n capacity) as cs. revert HA. induction acts as [|[a stale] acts IH]; intros HA cs; [exact I|]. cbn [in_turn fst].
  assert (forall cs, in_turn eqb adder acts cs) as H by (apply IH; intros t v st Hin; apply (HA t v st); right; exact Hin).
  destruct a as [t [v|m|m|m]|t pick|t u]; auto. split; [|apply H]. apply (HA t v stale). left. reflexivity.
Qed.
Print Assumptions C122_one_adder_partial.

(** Thread 0 adds 5 while nobody else adds and hands its turn to thread 1, which gives the handle of 5
    back and adds 9 in the slot, while thread 2 has its own handle of 7 read. *)
Definition interned_in_turn : list (waction Z * bool) := map (fun a => (a, true)) (
  WBegin 0 (CAdd 5) :: repeat (WGo 0 0) 4 ++ WBegin 0 (CAdd 7) :: repeat (WGo 0 0) 6 ++
  WSync 1 0 :: WBegin 1 (CDecr 0) :: WGo 1 0 :: WBegin 2 (CGet 1) :: WBegin 1 (CAdd 9) :: [WGo 1 9; WGo 2 0; WGo 1 9; WGo 2 0] ++ repeat (WGo 1 9) 3).
Example C122_turns_demo :
  in_turn Z.eqb 0 interned_in_turn (cinitial 3 0) /\
  let cf := cbase (cexec Z.eqb false interned_in_turn (cinitial 3 0)) in
  map (fun h => (whid h, whval h, whst h)) (whandles cf) = [(0%nat, 5, Gone); (1%nat, 7, Held 0); (0%nat, 9, Held 0)] /\
  wreads cf = [(1%nat, Some 7)].
Proof.
  split; [|vm_compute; repeat split].
  vm_compute. split; [reflexivity|]. split; [reflexivity|]. right. split; [reflexivity|]. split; [eexists; reflexivity|]. split; [eexists; reflexivity|].
  split; reflexivity.
Qed.
