(** Properties of the shared list and the shared interner, for any number of threads and any
    interleaving of their steps. *)
From Coq Require Import ZArith List Bool PeanoNat Lia Permutation.
From Verif Require Import Base InternModel InternProofs.
From Verif Require Import ConcInternModel ConcInternSpec ConcInternProofs ConcInternMore.
From Verif Require Import ConcListModel ConcListSpec ConcListProofs ConcListSolo.
Import ListNotations.

(** ** The list (crates/utils/src/linked.rs) *)

(** C63: at every moment of every execution the list consists of exactly the values of the
    pushes that have returned, in the order in which they returned; so it is not cyclic, a
    value in it keeps its position, and no call has followed a null or dangling pointer. *)
Theorem C63_pushes_all_there : forall (A : Type) (progs : list (list (call A))) (sched later : list nat),
  let cf := exec sched (initial progs) in
  contents (memory cf) = Some (pushed (history cf)) /\
  (exists l, contents (memory (exec later cf)) = Some (pushed (history cf) ++ l)) /\
  (forall t th c p, nth_error (threads cf) t = Some th -> cur th = Some (c, p) -> p <> Crash).
Proof.
  intros A progs sched later cf. split; [|split].
  - destruct (reachable progs sched) as [L HI]. eapply contents_linked. apply (iv_linked _ _ HI).
  - destruct (reachable progs (sched ++ later)) as [L HI].
    pose proof (contents_linked _ _ _ (iv_linked _ _ HI)) as E.
    assert (EX : exec (sched ++ later) (initial progs) = exec later cf) by (unfold exec, cf; apply fold_left_app).
    rewrite EX in E. rewrite E. destruct (history_grows later cf) as [h Hh]. rewrite Hh, pushed_app. eauto.
  - apply no_crash.
Qed.
Print Assumptions C63_pushes_all_there.

(** Three threads push while the others are in the middle of their calls. *)
Definition busy : conf nat :=
  exec (concat (repeat [0; 1; 2] 20)) (initial [[Push 10; Push 11]; [Push 20; IterAll]; [Push 30; Get 0]]).
Example C63_case : contents (memory busy) = Some [10; 20; 30; 11] /\ pushed (history busy) = [10; 20; 30; 11].
Proof. vm_compute. auto. Qed.

(** C64 is false: two threads push onto a list of one element; both are told that the list now
    has two elements, and the second value is at index 2. *)
Definition overtaken : conf nat :=
  exec ([0; 0; 0] ++ concat (repeat [1; 2] 20)) (initial [[Push 10]; [Push 20]; [Push 30]]).
Theorem C64_length_refuted :
  ~ (forall (progs : list (list (call nat))) sched t v n l,
       let cf := exec sched (initial progs) in
       In (Ret t (Push v) (RNat n)) (history cf) -> contents (memory cf) = Some l ->
       nth_error l (n - 1) = Some v).
Proof.
  intros H. specialize (H [[Push 10]; [Push 20]; [Push 30]] ([0; 0; 0] ++ concat (repeat [1; 2] 20)) 2 30 2 [10; 20; 30]).
  cbv zeta in H. assert (nth_error [10; 20; 30] (2 - 1) = Some 30) as E.
  { apply H; [|vm_compute; reflexivity]. vm_compute. auto 10. }
  discriminate E.
Qed.
Print Assumptions C64_length_refuted.

(** What does hold: a push that returns [n] put its value at the position given by the pushes
    that returned before it; [n] is at most one more than that position, and at least one more
    than the number of pushes that had returned when the call was made.  Missing for C64:
    equality when another push returns during the call. *)
Theorem C64_bounds_partial : forall (A : Type) (progs : list (list (call A))) sched h1 t v r h2,
  let cf := exec sched (initial progs) in
  history cf = h1 ++ Ret t (Push v) r :: h2 ->
  exists l n h0,
    r = RNat n /\ contents (memory cf) = Some l /\
    nth_error l (length (pushed h1)) = Some v /\
    inside h0 h1 t (Push v) /\
    length (pushed h0) + 1 <= n <= length (pushed h1) + 1.
Proof.
  intros A progs sched h1 t v r h2 cf E. destruct (reachable progs sched) as [L HI]. fold cf in HI.
  destruct (iv_hist _ _ HI h1 t (Push v) r h2 E) as (h0 & Hin & Ha).
  cbn in Ha. destruct r as [n| | |]; try contradiction.
  exists (pushed (history cf)), n, h0. split; [reflexivity|]. split; [eapply contents_linked, (iv_linked _ _ HI)|].
  split; [|split; [exact Hin|exact Ha]].
  rewrite E, pushed_app. rewrite nth_error_app2, Nat.sub_diag by lia. reflexivity.
Qed.
Print Assumptions C64_bounds_partial.

(** In particular the answer is right whenever no other push returned during the call. *)
Theorem C64_uncontended_partial : forall (A : Type) (progs : list (list (call A))) sched h0 h t v r h2,
  let cf := exec sched (initial progs) in
  history cf = h0 ++ Inv t (Push v) :: h ++ Ret t (Push v) r :: h2 ->
  Forall (fun e => thread_of e <> t) h -> pushed h = [] ->
  exists l n, r = RNat n /\ contents (memory cf) = Some l /\ 1 <= n /\ nth_error l (n - 1) = Some v.
Proof.
  intros A progs sched h0 h t v r h2 cf E Ht Hp.
  assert (E' : history cf = (h0 ++ Inv t (Push v) :: h) ++ Ret t (Push v) r :: h2)
    by (rewrite E, <- app_assoc; reflexivity).
  destruct (C64_bounds_partial A progs sched _ t v r h2 E') as (l & n & h0' & -> & El & Ev & (h' & Eh & Hh') & Hn).
  exists l, n. split; [reflexivity|]. split; [exact El|].
  assert (h0' = h0).
  { assert (HQ : forall (x y : list (event A)) u w, Forall (fun e => thread_of e <> t) u -> Forall (fun e => thread_of e <> t) w ->
                 x ++ Inv t (Push v) :: u = y ++ Inv t (Push v) :: w -> x = y).
    { clear. intros x. induction x as [|a x IH]; intros [|b y] u w Hu Hw E; cbn in E.
      - reflexivity.
      - exfalso. injection E as _ E. rewrite E in Hu. apply Forall_app in Hu. destruct Hu as [_ Hu].
        apply Forall_inv in Hu. cbn in Hu. congruence.
      - exfalso. injection E as _ E. rewrite <- E in Hw. apply Forall_app in Hw. destruct Hw as [_ Hw].
        apply Forall_inv in Hw. cbn in Hw. congruence.
      - injection E as -> E. f_equal. exact (IH y u w Hu Hw E). }
    eapply HQ; [exact Hh'|exact Ht|symmetry; exact Eh]. }
  subst h0'. rewrite pushed_app in Ev, Hn. rewrite app_length in Ev, Hn.
  assert (EP : pushed (Inv t (Push v) :: h) = []) by exact Hp. rewrite EP in Ev, Hn. cbn [length] in Ev, Hn.
  split; [lia|]. replace (n - 1) with (length (pushed h0) + 0) by lia. exact Ev.
Qed.
Print Assumptions C64_uncontended_partial.

Example C64_case : exists h0 h2,
  history busy = h0 ++ Inv 0 (Push 10) :: [Inv 1 (Push 20); Inv 2 (Push 30)] ++ Ret 0 (Push 10) (RNat 1) :: h2 /\
  pushed [Inv 1 (Push 20); Inv 2 (Push 30)] = [].
Proof. exists [], (skipn 4 (history busy)). vm_compute. auto. Qed.

(** C65: [get i] answers with the [i]-th pushed value as soon as the list is longer than [i],
    whatever the other threads do meanwhile; in general with what is there when it returns. *)
Theorem C65_get : forall (A : Type) (progs : list (list (call A))) sched h1 t i r h2,
  let cf := exec sched (initial progs) in
  history cf = h1 ++ Ret t (Get i) r :: h2 ->
  exists l h0, contents (memory cf) = Some l /\ inside h0 h1 t (Get i) /\
    r = ROpt (nth_error (pushed h1) i) /\
    (i < length (pushed h0) -> r = ROpt (nth_error l i)) /\
    (forall v, r = ROpt (Some v) -> nth_error l i = Some v).
Proof.
  intros A progs sched h1 t i r h2 cf E. destruct (reachable progs sched) as [L HI]. fold cf in HI.
  destruct (iv_hist _ _ HI h1 t (Get i) r h2 E) as (h0 & Hin & Ha).
  cbn in Ha. destruct r as [n|o| |]; try contradiction. subst o.
  exists (pushed (history cf)), h0. split; [eapply contents_linked, (iv_linked _ _ HI)|].
  split; [exact Hin|]. split; [reflexivity|]. rewrite E, pushed_app. split.
  - intros Hi. pose proof (inside_len _ _ _ _ Hin). rewrite nth_error_app1 by lia. reflexivity.
  - intros v [= Ev]. rewrite nth_error_app1; [exact Ev|]. eapply nth_error_lt, Ev.
Qed.
Print Assumptions C65_get.

(** Iteration yields a prefix of the list that contains everything pushed before it started. *)
Theorem C65_iter : forall (A : Type) (progs : list (list (call A))) sched h1 t r h2,
  let cf := exec sched (initial progs) in
  history cf = h1 ++ Ret t IterAll r :: h2 ->
  exists l l' more late h0, r = RList l' /\ contents (memory cf) = Some l /\ inside h0 h1 t IterAll /\
    l = l' ++ late /\ l' = pushed h0 ++ more.
Proof.
  intros A progs sched h1 t r h2 cf E. destruct (reachable progs sched) as [L HI]. fold cf in HI.
  destruct (iv_hist _ _ HI h1 t IterAll r h2 E) as (h0 & Hin & Ha).
  cbn in Ha. destruct r as [n|o|l'|]; try contradiction. subst l'.
  destruct Hin as (h & Eh & Hh).
  exists (pushed (history cf)), (pushed h1), (pushed (Inv t IterAll :: h)), (pushed (Ret t IterAll (RList (pushed h1)) :: h2)), h0.
  split; [reflexivity|]. split; [eapply contents_linked, (iv_linked _ _ HI)|].
  split; [exists h; auto|]. split; [rewrite E at 1; apply pushed_app|]. rewrite Eh. apply pushed_app.
Qed.
Print Assumptions C65_iter.

(** [len] and [is_empty] describe the list at the moment they return. *)
Theorem C65_len : forall (A : Type) (progs : list (list (call A))) sched h1 t r h2,
  let cf := exec sched (initial progs) in
  (history cf = h1 ++ Ret t Len r :: h2 -> r = RNat (length (pushed h1))) /\
  (history cf = h1 ++ Ret t IsEmpty r :: h2 -> exists b, r = RBool b /\ (b = true <-> pushed h1 = [])).
Proof.
  intros A progs sched h1 t r h2 cf. destruct (reachable progs sched) as [L HI]. fold cf in HI. split; intros E;
    destruct (iv_hist _ _ HI h1 t _ r h2 E) as (h0 & Hin & Ha); cbn in Ha; destruct r; try contradiction.
  - congruence.
  - eauto.
Qed.
Print Assumptions C65_len.

Example C65_case :
  history busy = firstn 10 (history busy) ++ Ret 2 (Get 0) (ROpt (Some 10)) :: skipn 11 (history busy) /\
  In (Ret 1 IterAll (RList [10; 20; 30])) (history busy) /\ contents (memory busy) = Some [10; 20; 30; 11].
Proof. vm_compute. intuition. Qed.

(** C102: a call that is left to run alone returns, from whatever position it and the other
    threads are in. *)
Theorem C102_runs_alone_returns : forall (A : Type) (progs : list (list (call A))) sched t th c p,
  let cf := exec sched (initial progs) in
  nth_error (threads cf) t = Some th -> cur th = Some (c, p) ->
  exists k r, history (exec (repeat t k) cf) = history cf ++ [Ret t c r].
Proof.
  intros A progs sched t th c p cf Et Ec. destruct (reachable progs sched) as [L HI]. fold cf in HI.
  destruct (iv_pc _ _ HI _ _ _ _ Et Ec) as (h0 & _ & Hp).
  eapply solo; [|exact Et|exact Ec|reflexivity]. eapply any_returns; [apply (iv_linked _ _ HI)|exact Hp].
Qed.
Print Assumptions C102_runs_alone_returns.

(** A push that has found a tail which is no longer the tail. *)
Example C102_case :
  let cf := exec [0; 0; 0; 1; 1; 1; 1; 1; 2; 2; 2; 2; 2; 2] (initial [[Push 10]; [Push 20]; [Push 30]]) in
  exists th v n a l, nth_error (threads cf) 1 = Some th /\ cur th = Some (Push v, PushCas v n a l) /\
    contents (memory cf) = Some [10; 30].
Proof. vm_compute. repeat eexists. Qed.

(** ** The interner (crates/utils/src/intern.rs) *)
Local Open Scope Z_scope.

(** C61: at every moment of every execution (of any length, in which no id ever has 2^64 - 1
    references at once), the reference count of
    each slot is the number of handles for it that have not been given back, plus the calls of
    [add] that have counted themselves and are about to return; so a handle that has not been
    given back keeps the count above zero, [decr] never finds zero, every id is in range, and
    no call panics. *)
Theorem C61_counts : forall (T : Type) eqb dbg n capacity (acts : list (action T)),
  counts_fit eqb dbg (iinitial n capacity) acts ->
  let cf := iexec eqb dbg acts (iinitial n capacity) in
  (forall k, 0 <= k < 32 * Z.of_nat (length (istore cf)) ->
     refcount (istore cf) k = Ok (Z.of_nat (held cf k + arriving cf k))) /\
  (forall m h, nth_error (handles cf) m = Some h -> 0 <= hid h < 32 * Z.of_nat (length (istore cf))) /\
  (forall m h, nth_error (handles cf) m = Some h -> hst h <> Gone ->
     exists c, refcount (istore cf) (hid h) = Ok c /\ 1 <= c) /\
  ~ In (Some Broken) (ithreads cf).
Proof.
  intros T eqb dbg n capacity acts HN cf. destruct (run_inv eqb dbg n capacity acts HN) as [N HI]. fold cf in HI.
  assert (HR : forall m h, nth_error (handles cf) m = Some h -> 0 <= hid h < 32 * Z.of_nat (length (istore cf))).
  { intros m h E. destruct (ij_handles _ _ HI _ _ E) as (Hk & s & Es & _). split; [exact Hk|].
    apply slot_of_range; [apply (ij_shape _ _ HI)|exact Hk|congruence]. }
  assert (HC : forall k, 0 <= k < 32 * Z.of_nat (length (istore cf)) ->
               refcount (istore cf) k = Ok (Z.of_nat (held cf k + arriving cf k))).
  { intros k [Hk Hk2]. pose proof (slot_at_offset (istore cf) k (ij_shape _ _ HI) Hk) as Hs. unfold refcount.
    destruct (offset_to_idx k) as [i j]. rewrite Hs.
    destruct (slot_of (istore cf) k) as [s|] eqn:Es.
    - cbn [unwrap bind]. rewrite (ij_refs _ _ HI k s Hk Es). reflexivity.
    - exfalso. apply (proj2 (slot_of_range _ _ (ij_shape _ _ HI) Hk)) in Hk2. congruence. }
  split; [exact HC|]. split; [exact HR|]. split.
  - intros m h E Hg. rewrite (HC _ (HR _ _ E)). eexists. split; [reflexivity|].
    assert (1 <= held cf (hid h))%nat; [|lia]. destruct h as [k v s]. cbn in *. apply (held_pos _ _ _ _ _ E Hg).
  - intros Hin. apply In_nth_error in Hin. destruct Hin as [t Et]. exact (ij_pc _ _ HI _ _ Et).
Qed.
Print Assumptions C61_counts.

(** The condition on executions: it holds of every execution of fewer than 2^64 - 1 steps. *)
Theorem C61_condition : forall (T : Type) (eqb : T -> T -> bool) dbg n capacity (acts : list (action T)),
  Z.of_nat (length acts) < 2 ^ 64 - 1 -> counts_fit eqb dbg (iinitial n capacity) acts.
Proof. intros. apply counts_fit_short. assumption. Qed.
Print Assumptions C61_condition.

(** When no call is in progress the count is the number of handles. *)
Theorem C61_quiet_counts : forall (T : Type) eqb dbg n capacity (acts : list (action T)),
  counts_fit eqb dbg (iinitial n capacity) acts ->
  let cf := iexec eqb dbg acts (iinitial n capacity) in
  quiet cf -> forall k, 0 <= k < 32 * Z.of_nat (length (istore cf)) ->
  refcount (istore cf) k = Ok (Z.of_nat (held cf k)).
Proof.
  intros T eqb dbg n capacity acts HN cf Hq k Hk.
  pose proof (proj1 (C61_counts T eqb dbg n capacity acts HN) k Hk) as E. fold cf in E. rewrite E. do 2 f_equal.
  assert (arriving cf k = 0%nat); [|lia]. apply cnt_zero. intros y Hy.
  unfold quiet in Hq. rewrite Forall_forall in Hq. rewrite (Hq y Hy). reflexivity.
Qed.
Print Assumptions C61_quiet_counts.

(** Two threads add at once, a third gives a handle back and uses another. *)
Definition two_adds : list (action Z) :=
  [Begin 0 (CAdd 5); Begin 1 (CAdd 7)] ++ concat (repeat [Go 0; Go 1] 12)%nat.
Definition mixed : list (action Z) :=
  two_adds ++ [Begin 2 (CIncr 0); Go 2; Begin 0 (CDecr 0); Begin 1 (CGet 1); Begin 2 (CAdd 9)]
           ++ concat (repeat [Go 2; Go 1; Go 0] 8)%nat.
Example C61_case :
  let cf := iexec Z.eqb true mixed (iinitial 3 0) in
  map (fun h => (hid h, hval h, match hst h with Gone => false | _ => true end)) (handles cf) =
    [(0, 5, false); (32, 7, true); (0, 5, true); (1, 9, true)] /\
  refcount (istore cf) 0 = Ok 1 /\ refcount (istore cf) 1 = Ok 1 /\ quiet cf /\
  counts_fit Z.eqb true (iinitial 3 0) mixed.
Proof.
  cbv zeta. do 4 (split; [vm_compute; repeat split; repeat constructor|]).
  apply counts_fit_short. vm_compute. reflexivity.
Qed.

(** C101: [get] through a handle that has not been given back never panics, and never reads a
    slot without a value, in any execution. *)
Theorem C101_get_returns : forall (T : Type) eqb dbg n capacity (acts : list (action T)),
  counts_fit eqb dbg (iinitial n capacity) acts ->
  let cf := iexec eqb dbg acts (iinitial n capacity) in
  (forall m o, In (m, o) (reads cf) -> o <> None) /\
  (forall m h, nth_error (handles cf) m = Some h -> hst h <> Gone ->
     exists v, try_get (istore cf) (hid h) = Ok (Some v)).
Proof.
  intros T eqb dbg n capacity acts HN cf. destruct (run_inv eqb dbg n capacity acts HN) as [N HI]. fold cf in HI.
  split; [apply (ij_reads _ _ HI)|]. intros m [k v s] E Hg. cbn [hid hst] in *.
  destruct (ij_handles _ _ HI _ _ E) as (Hk & x & Ex & Hc). cbn [hid] in *.
  rewrite (try_get_spec _ _ _ (ij_shape _ _ HI) Hk Ex).
  pose proof (held_pos _ _ _ _ _ E Hg) as Hp. pose proof (ij_refs _ _ HI _ _ Hk Ex) as Hr.
  rewrite (proj2 (Z.eqb_neq _ 0)) by lia. destruct (cont x) as [y|]; [eauto|congruence].
Qed.
Example C101_case :
  let cf := iexec Z.eqb true mixed (iinitial 3 0) in reads cf <> [] /\ Forall (fun r => snd r <> None) (reads cf).
Proof. vm_compute. split; [discriminate|repeat constructor; discriminate]. Qed.
Print Assumptions C101_get_returns.

(** C62 is false: two calls of [add] find the same free slot; both get its id, and the second
    write wins, so that the handle for 5 reads 7. *)
Theorem C62_value_refuted :
  ~ (forall (acts : list (action Z)) n capacity,
       let cf := iexec Z.eqb true acts (iinitial n capacity) in
       forall m h, nth_error (handles cf) m = Some h -> hst h <> Gone ->
       try_get (istore cf) (hid h) = Ok (Some (hval h))).
Proof.
  intros H. specialize (H two_adds 2%nat 1%nat 0%nat (Handle 0 5 (Held 0))).
  assert (E : nth_error (handles (iexec Z.eqb true two_adds (iinitial 2 1))) 0 = Some (Handle 0 5 (Held 0)))
    by (vm_compute; reflexivity).
  specialize (H E). assert (Hg : hst (Handle (T := Z) 0 5 (Held 0)) <> Gone) by discriminate.
  specialize (H Hg). vm_compute in H. discriminate H.
Qed.
Print Assumptions C62_value_refuted.

(** Even without a race for a free slot of an existing chunk: two calls that both append a
    chunk can get the same slot, because of C64. *)
Theorem C62_push_refuted :
  exists acts, let cf := iexec Z.eqb true acts (iinitial 2 0) in
  exists h1 h2, handles cf = firstn 32 (handles cf) ++ [h1; h2] /\ hid h1 = hid h2 /\ hval h1 <> hval h2 /\
    hst h1 = Held 0 /\ hst h2 = Held 0 /\ hid h1 = 32.
Proof.
  exists (concat (map (fun v => Begin 0 (CAdd v) :: repeat (Go 0) 70) (map Z.of_nat (seq 0 32)))
          ++ [Begin 0 (CAdd 100); Begin 1 (CAdd 200)] ++ concat (repeat [Go 0; Go 1] 80)).
  vm_compute. eexists. eexists. repeat split. discriminate.
Qed.
Print Assumptions C62_push_refuted.

(** What does hold: as long as calls of [add] do not overlap each other (they may overlap any
    number of calls of [incr], [decr] and [get]), a handle that has not been given back holds
    the value it was added for, and that value is what [get] through it returns.  Missing for
    C62: overlapping calls of [add]. *)
Theorem C62_one_adder_partial : forall (T : Type) (eqb : T -> T -> bool) dbg n capacity (acts : list (action T)),
  (forall a b, eqb a b = true -> a = b) ->
  counts_fit eqb dbg (iinitial n capacity) acts ->
  one_adder eqb dbg (iinitial n capacity) acts ->
  let cf := iexec eqb dbg acts (iinitial n capacity) in
  (forall m h, nth_error (handles cf) m = Some h -> hst h <> Gone ->
     try_get (istore cf) (hid h) = Ok (Some (hval h))) /\
  (forall m o, In (m, o) (reads cf) -> exists h, nth_error (handles cf) m = Some h /\ o = Some (hval h)).
Proof.
  intros T eqb dbg n capacity acts Heq HN H1 cf. destruct (run_inv eqb dbg n capacity acts HN) as [N HI]. fold cf in HI.
  assert (HX : xinv cf) by (apply (xinv_exec eqb dbg Heq acts 0); auto using iinv_initial, xinv_initial).
  split; [|apply (xi_reads _ HX)]. intros m [k v s] E Hg. cbn [hid hst hval] in *.
  destruct (xi_handles _ HX _ _ E Hg) as (x & Ex & Hc). destruct (ij_handles _ _ HI _ _ E) as (Hk & _). cbn [hid hval] in *.
  rewrite (try_get_spec _ _ _ (ij_shape _ _ HI) Hk Ex).
  pose proof (held_pos _ _ _ _ _ E Hg) as Hp. pose proof (ij_refs _ _ HI _ _ Hk Ex) as Hr.
  rewrite (proj2 (Z.eqb_neq _ 0)) by lia. rewrite Hc. reflexivity.
Qed.
Print Assumptions C62_one_adder_partial.

(** An execution with one adder at a time and other calls in between. *)
Definition one_by_one : list (action Z) :=
  (Begin 0 (CAdd 5) :: repeat (Go 0) 6 ++ [Begin 1 (CAdd 7); Go 1; Go 1; Begin 0 (CIncr 0); Go 1; Begin 2 (CGet 0); Go 0]
   ++ concat (repeat [Go 1; Go 2] 6) ++ [Begin 0 (CDecr 0); Begin 1 (CAdd 5); Go 1; Go 1; Go 0; Go 1; Go 1; Go 1]).
Example C62_case : one_adder Z.eqb true (iinitial 3 1) one_by_one /\
  let cf := iexec Z.eqb true one_by_one (iinitial 3 1) in
  map (fun h => (hid h, hval h, hst h)) (handles cf) =
    [(0, 5, Gone); (0, 5, Held 0); (1, 7, Held 0); (0, 5, Held 0)] /\ reads cf = [(0%nat, Some 5)].
Proof.
  split; [|vm_compute; auto].
  assert (H : forallb (fun k => Nat.leb (length (filter adding (ithreads
                (iexec Z.eqb true (firstn k one_by_one) (iinitial 3 1))))) 1) (seq 0 (S (length one_by_one))) = true)
    by (vm_compute; reflexivity).
  intros a1 a2 E. rewrite forallb_forall in H. specialize (H (length a1)).
  rewrite E, firstn_app, Nat.sub_diag, firstn_all, app_nil_r in H. apply Nat.leb_le, H.
  apply in_seq. rewrite app_length. lia.
Qed.
