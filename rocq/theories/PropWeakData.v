(** Properties C176 and C177: what the shared list orders between the threads that use it
    (WeakDataModel.v), for any number of threads, any programs, any interleaving and any stale reads
    the memory model allows. *)
From Coq Require Import List Bool PeanoNat Lia.
From Verif Require Import Base ConcListModel ConcListSpec ConcListProofs WeakListModel WeakListSpec WeakListProofs PropWeak WeakDataModel WeakDataSpec WeakDataProofs.
Import ListNotations.

(** ** C176: an element carries what was done before it was pushed *)

(** A program has no data race, in the list or in the other memory, if any two accesses to the same
    place of which one is a write are ordered by [happens_before]: the order of a thread, other
    synchronisation, and pushes before what is done by those that were shown the element.  ([len] as
    in C119.) *)
Theorem C176_hand_over : forall (A : Type) (progs : list (list (daction A))) sched,
  let cf := dexec sched (dinitial progs) in
  len_when_aware (list_part (dhistory cf)) ->
  (forall i j, conflict (dhistory cf) i j -> happens_before (dhistory cf) i j) ->
  draced cf = false /\ raced (dbase cf) = false.
Proof.
  intros A progs sched cf HL HO. destruct (dreachable progs sched HL) as [L HD]. fold cf in HD. split.
  - apply (dv_race _ _ HD). exact HO.
  - apply (wi_race _ _ (bi_winv _ _ _ (dv_base _ _ HD))).
Qed.
Print Assumptions C176_hand_over.

(** What the model calls a race: an access that is not ordered after an earlier one it conflicts with
    is one, if the list had nothing to do with it.  Thread 0 fills place 5 and pushes; thread 1 looks
    at place 5 with and without asking for the element. *)
Definition filler : list (daction nat) := [Plain 5 true; OnList (Do (Push 7))].
Definition round2 : list (nat * bool) := repeat (0, false) 4 ++ repeat (1, false) 5.
Definition asked : dconf nat := dexec round2 (dinitial [filler; [OnList (Do (Get 0)); Plain 5 false]]).
Definition unasked : dconf nat := dexec round2 (dinitial [filler; [Plain 5 false]]).

Lemma no_len_ok (h : list (wevent nat)) : len_check [] h = true -> len_when_aware h.
Proof. intros H h1 t h2 E. exact (len_check_ok h [] H h1 t h2 E). Qed.

Example C176_demo :
  dhistory asked = [DAccess 0 5 true; DList (WInv 0 (Push 7)); DList (WRet 0 (Push 7) (RNat 1));
                    DList (WInv 1 (Get 0)); DList (WRet 1 (Get 0) (ROpt (Some 7))); DAccess 1 5 false] /\
  len_when_aware (list_part (dhistory asked)) /\
  conflict (dhistory asked) 0 5 /\
  (forall i j, conflict (dhistory asked) i j -> happens_before (dhistory asked) i j) /\
  draced unasked = true.
Proof.
  assert (dhistory asked = [DAccess 0 5 true; DList (WInv 0 (Push 7)); DList (WRet 0 (Push 7) (RNat 1));
                    DList (WInv 1 (Get 0)); DList (WRet 1 (Get 0) (ROpt (Some 7))); DAccess 1 5 false]) as E by (vm_compute; reflexivity).
  split; [exact E|]. rewrite E. clear E. split; [apply no_len_ok; vm_compute; reflexivity|]. split; [|split].
  - split; [lia|]. exists 0, 1, 5, true, false. cbn. auto.
  - intros i j (Hij & t & u & x & w & w' & E1 & E2 & _).
    assert (i = 0) as -> by (do 6 (destruct i as [|i]; [try discriminate; try reflexivity; try (apply nth_error_lt in E2; cbn in E2; lia)|]); destruct i; discriminate).
    assert (j = 5) as -> by (do 6 (destruct j as [|j]; [try discriminate; try reflexivity; try lia|]); destruct j; discriminate).
    apply hb_more with 4; [apply hb_more with 2; [apply hb_one|]|].
    + apply by_program with 0; cbn; auto; lia.
    + apply by_list with 1 0; [lia| |reflexivity|vm_compute; lia]. split; [reflexivity|]. exists 0, 7, (RNat 1). reflexivity.
    + apply by_program with 1; cbn; auto; lia.
  - vm_compute. reflexivity.
Qed.

(** ** C177: sharing the list is safe for every element type *)

(** An element [x] stands for the place [x] that holds what is inside it; [maker x] is the thread that
    makes it.  [in_hand]: threads only look inside elements that they have made, or that [get] or an
    iteration has given them a reference to, and only the maker of an element pushes it.  Safe code
    cannot do otherwise. *)
Definition given (h : list (devent nat)) (j t x : nat) : Prop :=
  exists i, i < j /\
    ((exists q, nth_error h i = Some (DList (WRet t (Get q) (ROpt (Some x))))) \/
     (exists l, nth_error h i = Some (DList (WRet t IterAll (RList l))) /\ In x l)).
Definition in_hand (maker : nat -> nat) (h : list (devent nat)) : Prop :=
  (forall j t x w, nth_error h j = Some (DAccess t x w) -> t = maker x \/ given h j t x) /\
  (forall k t x r, nth_error h k = Some (DList (WRet t (Push x) r)) -> t = maker x).
(** Nothing is written inside an element once it is in the list. *)
Definition frozen (maker : nat -> nat) (h : list (devent nat)) : Prop :=
  forall j t x, nth_error h j = Some (DAccess t x true) ->
  t = maker x /\ forall k u r, nth_error h k = Some (DList (WRet u (Push x) r)) -> j < k.

(** False: the list may be shared whatever the elements are ([unsafe impl<T> Sync for
    UnsyncLinked<T>] has no [T: Sync]), so two threads can each get a reference to the same [Cell], or
    [Rc], and both write inside it. *)
Theorem C177_any_element_refuted : exists (progs : list (list (daction nat))) sched maker,
  let cf := dexec sched (dinitial progs) in
  len_when_aware (list_part (dhistory cf)) /\ in_hand maker (dhistory cf) /\ raced (dbase cf) = false /\
  draced cf = true.
Proof.
  exists [[OnList (Do (Push 7))]; [OnList (Do (Get 0)); Plain 7 true]; [OnList (Do (Get 0)); Plain 7 true]],
    (repeat (0, false) 3 ++ repeat (1, false) 4 ++ repeat (2, false) 4), (fun _ => 0).
  intros cf. assert (dhistory cf = [DList (WInv 0 (Push 7)); DList (WRet 0 (Push 7) (RNat 1));
    DList (WInv 1 (Get 0)); DList (WRet 1 (Get 0) (ROpt (Some 7))); DAccess 1 7 true;
    DList (WInv 2 (Get 0)); DList (WRet 2 (Get 0) (ROpt (Some 7))); DAccess 2 7 true]) as E by (vm_compute; reflexivity).
  split; [apply no_len_ok; vm_compute; reflexivity|]. split; [|split; vm_compute; reflexivity]. rewrite E. clear E. split.
  - intros j t x w Ej. right. do 8 (try (destruct j as [|j]; [try discriminate|])); [| |destruct j; discriminate]; cbn in Ej; injection Ej as <- <- <-.
    + exists 3. split; [lia|]. left. exists 0. reflexivity.
    + exists 6. split; [lia|]. left. exists 0. reflexivity.
  - intros k t x r Ek. do 8 (destruct k as [|k]; [cbn in Ek; try discriminate; try (injection Ek as <- _ _; reflexivity)|]). destruct k; discriminate.
Qed.
Print Assumptions C177_any_element_refuted.

Lemma given_pushed (h : list (devent nat)) j t x : weak_ok (list_part h) -> given h j t x ->
  exists i k q u r, k < i /\ i < j /\ nth_error h k = Some (DList (WRet u (Push x) r)) /\ pushes h k q /\ by_thread h i t /\
    q < aware (list_part (firstn (S i) h)) t.
Proof.
  intros HW (i & Hij & H).
  assert (exists c r q, nth_error h i = Some (DList (WRet t c r)) /\
    nth_error (wpushed (list_part (firstn i h))) q = Some x /\ q < aware (list_part (firstn i h) ++ [WRet t c r]) t) as (c & r & q & E & Eq & Ha).
  { assert (forall c r, nth_error h i = Some (DList (WRet t c r)) -> exists k, seen_answer (firstn k (wpushed (list_part (firstn i h)))) c r) as SA.
    { intros c r E. destruct (HW (list_part (firstn i h)) t c r (list_part (skipn (S i) h))) as (k & _ & S); [|eauto].
      rewrite (split_nth _ _ _ E) at 1. rewrite list_part_app. reflexivity. }
    assert (FN : forall (l : list nat) k q, nth_error (firstn k l) q = Some x -> nth_error l q = Some x).
    { intros l k q E. rewrite <- (firstn_skipn k l). rewrite nth_error_app1; auto. eapply nth_error_lt; eauto. }
    destruct H as [(q & E)|(l & E & I)].
    - destruct (SA _ _ E) as (k & S). cbn in S. exists (Get q), (ROpt (Some x)), q. split; auto. split; [eapply FN; eauto|].
      rewrite aware_snoc. cbn. rewrite Nat.eqb_refl. lia.
    - destruct (SA _ _ E) as (k & S). cbn in S. subst l. apply In_nth_error in I. destruct I as [q Eq].
      exists IterAll, (RList (firstn k (wpushed (list_part (firstn i h))))), q. split; auto. split; [eapply FN; eauto|].
      rewrite aware_snoc. cbn [learn]. rewrite Nat.eqb_refl. apply nth_error_lt in Eq. lia. }
  pose proof (nth_error_lt _ _ _ E) as Hi.
  destruct (nth_pushed _ _ _ Eq) as (k & u & r' & Hp & Ek). pose proof (pushes_lt _ _ _ Hp) as Hk. rewrite firstn_length in Hk.
  exists i, k, q, u, r'. split; [lia|]. split; auto.
  assert (h = firstn i h ++ skipn i h) as Hh by (symmetry; apply firstn_skipn).
  split; [rewrite Hh; rewrite nth_error_app1 by (rewrite firstn_length; lia); exact Ek|].
  split; [rewrite Hh; apply pushes_old; auto; rewrite firstn_length; lia|].
  split; [unfold by_thread; rewrite E; auto|].
  replace (firstn (S i) h) with (firstn i h ++ [DList (WRet t c r)]); [rewrite list_part_app; exact Ha|].
  symmetry. apply firstn_snoc. auto.
Qed.

(** Sharing is safe as long as the insides of an element are written only by the thread that makes it,
    before it is in the list: any number of threads may then read them.  Missing: elements with
    interior mutability that is not itself safe to share. *)
Theorem C177_frozen_partial : forall (progs : list (list (daction nat))) sched maker,
  let cf := dexec sched (dinitial progs) in
  len_when_aware (list_part (dhistory cf)) -> in_hand maker (dhistory cf) -> frozen maker (dhistory cf) ->
  draced cf = false /\ raced (dbase cf) = false.
Proof.
  intros progs sched maker cf HL (HA & HP) HF. apply C176_hand_over; auto. fold cf.
  destruct (dreachable progs sched HL) as [L HD]. fold cf in HD.
  assert (weak_ok (list_part (dhistory cf))) as HW.
  { rewrite (bi_hist _ _ _ (dv_base _ _ HD)). apply (wi_hist _ _ (bi_winv _ _ _ (dv_base _ _ HD))). }
  set (h := dhistory cf) in *. clearbody h. clear HD.
  intros i j (Hij & t & u & x & w & w' & Ei & Ej & Hw).
  assert (BI : by_thread h i t) by (unfold by_thread; rewrite Ei; auto).
  assert (BJ : by_thread h j u) by (unfold by_thread; rewrite Ej; auto).
  destruct (Nat.eq_dec t u) as [<-|N]; [apply hb_one; apply by_program with t; auto|].
  destruct w.
  - destruct (HF _ _ _ Ei) as [-> Hb]. destruct (HA _ _ _ _ Ej) as [->|HG]; [congruence|].
    destruct (given_pushed _ _ _ _ HW HG) as (i' & k & q & s & r & Hki & Hij' & Ek & Hp & Bi & Haw).
    pose proof (HP _ _ _ _ Ek) as ->. pose proof (Hb _ _ _ Ek) as Hik.
    apply hb_more with i'; [apply hb_more with k; [apply hb_one|]|].
    + apply by_program with (maker x); auto. unfold by_thread. rewrite Ek. auto.
    + apply by_list with u q; auto.
    + apply by_program with u; auto.
  - destruct Hw as [|Hw]; [discriminate|]. subst w'. destruct (HF _ _ _ Ej) as [-> Hb].
    destruct (HA _ _ _ _ Ei) as [->|HG]; [congruence|].
    destruct (given_pushed _ _ _ _ HW HG) as (i' & k & q & s & r & Hki & Hij' & Ek & _). specialize (Hb _ _ _ Ek). lia.
Qed.
Print Assumptions C177_frozen_partial.

(** Thread 0 makes element 7 and pushes it, threads 1 and 2 get it and read inside it. *)
Definition readers : dconf nat :=
  dexec (repeat (0, false) 4 ++ repeat (1, false) 6 ++ repeat (2, false) 6)
    (dinitial [[Plain 7 true; OnList (Do (Push 7))]; [OnList (Do (Get 0)); Plain 7 false]; [OnList (Do IterAll); Plain 7 false]]).
Example C177_demo : len_when_aware (list_part (dhistory readers)) /\ in_hand (fun _ => 0) (dhistory readers) /\
  frozen (fun _ => 0) (dhistory readers) /\ dlog readers = [(0, 7, true); (1, 7, false); (2, 7, false)].
Proof.
  assert (dhistory readers = [DAccess 0 7 true; DList (WInv 0 (Push 7)); DList (WRet 0 (Push 7) (RNat 1));
    DList (WInv 1 (Get 0)); DList (WRet 1 (Get 0) (ROpt (Some 7))); DAccess 1 7 false;
    DList (WInv 2 IterAll); DList (WRet 2 IterAll (RList [7])); DAccess 2 7 false]) as E by (vm_compute; reflexivity).
  split; [apply no_len_ok; vm_compute; reflexivity|]. rewrite E. clear E. split; [|split; [|vm_compute; reflexivity]].
  - split.
    + intros j t x w Ej. do 9 (try (destruct j as [|j]; [try discriminate|])); [| | |destruct j; discriminate]; cbn in Ej; injection Ej as <- <- <-.
      * left. auto.
      * right. exists 4. split; [lia|]. left. exists 0. reflexivity.
      * right. exists 7. split; [lia|]. right. exists [7]. cbn. auto.
    + intros k t x r Ek. do 9 (destruct k as [|k]; [cbn in Ek; try discriminate; try (injection Ek as <- _ _; reflexivity)|]). destruct k; discriminate.
  - intros j t x Ej. do 9 (try (destruct j as [|j]; [try discriminate|])); [|destruct j; discriminate]. cbn in Ej. injection Ej as <- <-. split; auto.
    intros [|k] u r Ek; [discriminate|lia].
Qed.
