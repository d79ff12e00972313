(** C181: arithmetic on BigInts by several threads under weak memory. *)
From Coq Require Import ZArith List Bool PeanoNat Lia Permutation.
From Verif Require Import Base Words Spec Arith BitSliceModel BigIntModel BigIntSpec BigIntProofs BigIntOps BigIntRun PropBigInt BigIntExprModel PropBigIntExpr ConcArithModel ConcArithWp
  ConcInternModel PropInternProgress ConcBigIntModel ConcArithProofs PropConcArith
  WeakInternModel WeakInternSpec WeakInternProofs WeakChunkModel WeakTurnSpec WeakArithModel WeakArithProofs WeakArithFinish.
Import ListNotations.
Local Open Scope Z_scope.

(** ** Specification *)

(** No thread is inside a call of the interner. *)
Definition idle (cf : wconf (list Z)) : Prop := forall t th, nth_error (wthreads cf) t = Some th -> wpos th = None.

(** What C168 says of threads on a machine that takes the steps of all threads one after the other ([sound], [variables] and [made_by] are of
    PropConcArith.v), and what a data race would make meaningless. *)
Definition all_well (vs : list nat) (vars xs : list Z) (es : list expr) (cf0 : wconf (list Z)) (bc : wbconf Z) (cf : wconf (list Z)) : Prop :=
  (* whoever is finished has the integer that the expression stands for, through a reference of its own *)
  (forall t e r, nth_error es t = Some e -> nth_error (wprogs bc) t = Some (PStop r) ->
     exists w ms, r = Ok w /\ nth_error (wowned bc) t = Some ms /\ made_by (seen cf) ms (value_with outcome xs e) w /\
       (length ms <= 1)%nat /\ (Z.abs (value_with outcome xs e) < 2 ^ 62 -> ms = [])) /\
  (* the variables are what they were *)
  (forall i, (i < length xs)%nat -> made_by (seen cf) vs (nth i xs 0) (nth i vars 0)) /\
  (* the limbs behind every reference are in the interner *)
  (forall m h, nth_error (whandles cf) m = Some h -> whst h <> Gone -> exists s, nth_error (wslots cf) (whid h) = Some s /\ wcont s = Some (whval h)) /\
  (* nobody has panicked, and there is no data race *)
  (forall t th, nth_error (wthreads cf) t = Some th -> wpos th <> Some WBroken) /\
  ~ race (wlog cf) /\
  (* every reference that is left was there before or is a thread's *)
  (forall m h, nth_error (whandles cf) m = Some h -> whst h <> Gone ->
     (m < length (whandles cf0))%nat \/ exists t ms, nth_error (wowned bc) t = Some ms /\ In m ms).

(** ** Soundness *)
Section Threads.
Context (locked : bool) (P : list (waction (list Z) * bool) -> Prop) (n : nat).
Context (P_prefix : forall a b, P (a ++ b) -> P a) (P_keeps : forall a, P a -> keeps (wrun locked n a)).
Context (dbg : bool) (fuel : nat) (acts : list (waction (list Z) * bool)) (vs : list nat) (vars xs : list Z) (es : list expr).
Let cf0 := now locked n acts.
Context (HQt : idle cf0) (HV : variables (seen cf0) vs vars xs) (HE : forall e, In e es -> sound dbg fuel xs e).
Let V := map (entry (seen cf0)) vs.
Let bc0 := wbstart dbg fuel acts vars es.

Lemma wstart_inv : P acts -> winv_b (adds := true) locked n vs V (length (whandles cf0)) (result xs es) bc0.
Proof.
  intros HF. pose proof (keeps_id locked n P P_keeps acts) as Hid. destruct HV as [HV1 HV2]. unfold bc0, wbstart. constructor; cbn [wdone wprogs wowned]; fold cf0.
  - rewrite map_length, repeat_length. reflexivity.
  - intros t p ms Ep Em. assert (ms = []) as ->. { apply nth_error_In, repeat_spec in Em. auto. } cbn [map].
    destruct (nth_error es t) as [e|] eqn:Ee.
    + rewrite (map_nth_error _ _ _ Ee) in Ep. injection Ep as <-. apply wp_eval with (xs := xs).
      * intros i Hi. destruct (made_num (seen cf0) vs _ _ (HV2 i Hi)) as (l & N & I); [intros m h E; apply (Hid m h HF E)|]. eauto.
      * intros O O' w PM R. eapply result_perm; eauto.
      * apply HE. eapply nth_error_In; eauto.
      * left. reflexivity.
      * rewrite app_nil_r. apply (keeps_fn locked n P P_keeps acts); auto.
      * intros c lc Nc Fc. exists lc. rewrite Ee, app_nil_r. auto.
    + exfalso. assert (nth_error (map (p_eval dbg fuel vars) es) t = None) by (apply nth_error_None; rewrite map_length; apply nth_error_None; auto). congruence.
  - reflexivity.
  - intros t q E. exfalso. cbn [seen ithreads] in E. rewrite nth_error_map in E. destruct (nth_error (wthreads cf0) t) as [th|] eqn:Et; [|discriminate].
    cbn in E. rewrite (HQt _ _ Et) in E. discriminate.
  - intros m [I|I]; [apply HV1; auto|]. exfalso. clear - I. induction (length es); cbn in I; auto.
  - clear. induction (length es); cbn; auto. constructor.
  - intros m _ I. clear - I. induction (length es); cbn in I; auto.
  - intros m (h & E & _). left. rewrite <- len_seen. apply nth_error_Some. congruence.
Qed.

Lemma all_is_well sched : let bc := wbexec locked n vs sched bc0 in P (wdone bc) -> all_well vs vars xs es cf0 bc (now locked n (wdone bc)).
Proof.
  intros bc HF. destruct (wbexec_done locked n vs sched bc0) as (ext & E). fold bc in E. unfold bc0 in E at 1. cbn [wbstart wdone] in E.
  assert (P acts) as HF0. { rewrite E in HF. exact (P_prefix _ _ HF). }
  assert (winv_b (adds := true) locked n vs V (length (whandles cf0)) (result xs es) bc) as HB.
  { apply (winv_exec_b locked n vs V _ _ ltac:(intros ? ? ? ? PM R; eapply result_perm; eauto) P P_prefix P_keeps); auto. apply wstart_inv. exact HF0. }
  set (cf := now locked n (wdone bc)). pose proof (fun m h => keeps_id locked n P P_keeps _ m h HF) as Hid. fold cf in Hid.
  destruct (P_keeps _ HF) as [(lk & HI) _]. fold (now locked n (wdone bc)) in HI. fold cf in HI.
  split; [|split; [|split; [|split; [|split]]]].
  - intros t e r Ee Ep. assert (exists ms, nth_error (wowned bc) t = Some ms) as (ms & Em).
    { destruct (nth_error (wowned bc) t) eqn:X; eauto. apply nth_error_None in X. assert (t < length (wprogs bc))%nat by (apply nth_error_Some; congruence).
      rewrite (b_len _ _ _ _ _ _ _ HB) in *. lia. }
    destruct (b_prog _ _ _ _ _ _ _ HB _ _ _ Ep Em) as (w & -> & l & N & PM). rewrite Ee in N. fold cf in PM.
    assert (made_by (seen cf) ms (value_with outcome xs e) w) as M.
    { apply (num_made (seen cf) ms _ w l); auto.
      - intros x I. eapply Permutation_in; [symmetry; exact PM|exact I].
      - intros m I. apply (b_live _ _ _ _ _ _ _ HB). right. eapply in_concat_at; eauto. }
    exists w, ms. split; auto. split; auto. split; auto.
    split; [apply Permutation_length in PM; rewrite map_length in PM; rewrite PM; unfold ref; destruct (Z.testbit w 1); cbn; lia|].
    intros Hs. rewrite (small_ref _ _ _ N Hs) in PM. apply Permutation_sym, Permutation_nil in PM. destruct ms; [auto|discriminate].
  - intros i Hi. destruct (made_num _ _ _ _ (proj2 HV i Hi)) as (l & N & I).
    { intros m h Eh. apply (keeps_id locked n P P_keeps acts m h HF0 Eh). }
    apply (num_made (seen cf) vs _ _ l); auto.
    + rewrite (b_vars _ _ _ _ _ _ _ HB : map (entry (seen cf)) vs = _). exact I.
    + intros m J. apply (b_live _ _ _ _ _ _ _ HB). auto.
  - intros m h. apply (keeps_handles locked n P P_keeps _ m h HF).
  - intros t th Et Hp. exact (wi_pc _ HI t th _ Et Hp).
  - exact (wi_race _ HI).
  - intros m h Eh Hg. destruct (b_left _ _ _ _ _ _ _ HB m) as [X|X]; auto.
    + exists (seen_handle h). split; [apply seen_nth; exact Eh|exact Hg].
    + right. apply in_concat in X. destruct X as (ms & I & J). apply In_nth_error in I. destruct I as (t & I). eauto.
Qed.
End Threads.

(** ** Statements *)

(** Threads that evaluate expressions of shared BigInts and literals at the same time, whatever the loads may return that Rust's memory model
    allows, if the threads take turns in making numbers that are not small (see [in_turn]; a number is made by every operation whose result is not
    small, and by every shift: the amount is compared with [usize::MAX], which is made a BigInt for that). *)
Theorem C181_turns_partial : forall dbg n fuel acts vs vars xs es sched h,
  idle (now false n acts) -> variables (seen (now false n acts)) vs vars xs -> (forall e, In e es -> sound dbg fuel xs e) ->
  let bc := wbexec false n vs sched (wbstart dbg fuel acts vars es) in
  let cf := now false n (wdone bc) in
  in_turn list_eqb h (wdone bc) (cinitial n 0) -> Z.of_nat (length (wslots cf)) <= 2 ^ 62 ->
  all_well vs vars xs es (now false n acts) bc cf.
Proof.
  intros dbg n fuel acts vs vars xs es sched h HQt HV HE bc cf HT HS.
  apply (all_is_well false (fun a => in_turn list_eqb h a (cinitial n 0) /\ few_slots false n a) n); auto.
  - intros a b [H1 H2]. split; [eapply in_turn_prefix; exact H1|eapply few_prefix; exact H2].
  - intros a [H1 H2]. eapply turns_keep; eauto.
Qed.
Print Assumptions C181_turns_partial.

(** With a lock around [add], which the code does not have, no condition on the threads is needed. *)
Theorem C181_locked_partial : forall dbg n fuel acts vs vars xs es sched,
  idle (now true n acts) -> variables (seen (now true n acts)) vs vars xs -> (forall e, In e es -> sound dbg fuel xs e) ->
  let bc := wbexec true n vs sched (wbstart dbg fuel acts vars es) in
  let cf := now true n (wdone bc) in
  Z.of_nat (length (wslots cf)) <= 2 ^ 62 ->
  all_well vs vars xs es (now true n acts) bc cf.
Proof.
  intros dbg n fuel acts vs vars xs es sched HQt HV HE bc cf HS.
  apply (all_is_well true (few_slots true n) n (fun a b => few_prefix true n a b) (locked_keeps n)); auto.
Qed.
Print Assumptions C181_locked_partial.

(** ** Progress *)

Section Progress.
Context (locked : bool) (P : list (waction (list Z) * bool) -> Prop) (n : nat).
Context (P_prefix : forall a b, P (a ++ b) -> P a) (P_keeps : forall a, P a -> keeps (wrun locked n a)).
Context (dbg : bool) (fuel : nat) (acts : list (waction (list Z) * bool)) (vs : list nat) (vars xs : list Z) (es : list expr).
Context (HQt : idle (now locked n acts)) (HV : variables (seen (now locked n acts)) vs vars xs) (HE : forall e, In e es -> sound dbg fuel xs e).

Lemma reached sched : let bc := wbexec locked n vs sched (wbstart dbg fuel acts vars es) in P (wdone bc) ->
  winv_b (adds := true) locked n vs (map (entry (seen (now locked n acts))) vs) (length (whandles (now locked n acts))) (result xs es) bc /\ length (wprogs bc) = length es.
Proof.
  intros bc HF. split.
  - destruct (wbexec_done locked n vs sched (wbstart dbg fuel acts vars es)) as (ext & E). fold bc in E. cbn [wbstart wdone] in E.
    apply (winv_exec_b locked n vs _ _ _ ltac:(intros ? ? ? ? PM R; eapply result_perm; eauto) P P_prefix P_keeps); auto. apply (wstart_inv locked P n P_keeps); auto.
    rewrite E in HF. exact (P_prefix _ _ HF).
  - unfold bc. rewrite progs_len. cbn [wbstart wprogs]. apply map_length.
Qed.

Lemma finish_all (Hn : (length es <= n)%nat) (f : nat -> wmove) t e : let bc k := wbexec locked n vs (map f (seq 0 k)) (wbstart dbg fuel acts vars es) in
  (forall k, P (wdone (bc k))) -> nth_error es t = Some e ->
  (forall k, wfinished (bc k) t \/ exists k', (k <= k')%nat /\ position locked n (bc (S k')) t <> position locked n (bc k') t) -> exists k, wfinished (bc k) t.
Proof.
  intros bc HF Ee HS. assert (t < length es)%nat as Ht by (apply nth_error_Some; congruence).
  eapply (wfinishes locked n vs P P_keeps f (wbstart dbg fuel acts vars es) t (p_eval dbg fuel vars e)).
  - cbn [wbstart wprogs]. apply map_nth_error. exact Ee.
  - unfold position. cbn [wbstart wdone]. destruct (nth_error (wthreads (now locked n acts)) t) as [th|] eqn:E.
    + cbn. rewrite (HQt _ _ E). reflexivity.
    + exfalso. apply nth_error_None in E. rewrite now_len in E. lia.
  - exact HF.
  - exact HS.
Qed.
End Progress.

(** As long as a thread has not finished it can take a step, whatever its loads return, and after it it is somewhere else (inside another part of a
    call, or between calls).  (Whether it is the thread's turn to make a number is not asked.) *)
Theorem C181_no_deadlock_partial : forall dbg n fuel acts vs vars xs es sched h t e,
  idle (now false n acts) -> variables (seen (now false n acts)) vs vars xs -> (forall e, In e es -> sound dbg fuel xs e) -> (length es <= n)%nat ->
  let bc := wbexec false n vs sched (wbstart dbg fuel acts vars es) in
  in_turn list_eqb h (wdone bc) (cinitial n 0) -> Z.of_nat (length (wslots (now false n (wdone bc)))) <= 2 ^ 62 ->
  nth_error es t = Some e ->
  wfinished bc t \/ exists m, forall pick stale, position false n (wbstep false n vs bc (Step t m pick stale)) t <> position false n bc t.
Proof.
  intros dbg n fuel acts vs vars xs es sched h t e HQt HV HE Hn bc HT HS Ee. set (P := fun a => in_turn list_eqb h a (cinitial n 0) /\ few_slots false n a).
  assert (forall a b, P (a ++ b) -> P a) as PP. { intros a b [H1 H2]. split; [eapply in_turn_prefix; exact H1|eapply few_prefix; exact H2]. }
  assert (forall a, P a -> keeps (wrun false n a)) as PK. { intros a [H1 H2]. eapply turns_keep; eauto. }
  assert (P (wdone bc)) as HF by (split; auto). destruct (reached false P n PP PK dbg fuel acts vs vars xs es HQt HV HE sched HF) as [HB HL]. fold bc in HB, HL.
  assert (t < length es)%nat as Ht by (apply nth_error_Some; congruence).
  destruct (stop_or_not bc t ltac:(lia)) as [X|(p & Ep & NS)]; [left; exact X|right].
  apply (can_go_on false n vs _ _ _ P PK bc t p HB HF ltac:(lia) Ep NS). discriminate.
Qed.
Print Assumptions C181_no_deadlock_partial.

(** In an endless execution every thread that keeps taking steps finishes its evaluation, whatever the others do. *)
Theorem C181_finishes_partial : forall dbg n fuel acts vs vars xs es h (f : nat -> wmove) t e,
  idle (now false n acts) -> variables (seen (now false n acts)) vs vars xs -> (forall e, In e es -> sound dbg fuel xs e) -> (length es <= n)%nat ->
  let bc k := wbexec false n vs (map f (seq 0 k)) (wbstart dbg fuel acts vars es) in
  (forall k, in_turn list_eqb h (wdone (bc k)) (cinitial n 0) /\ Z.of_nat (length (wslots (now false n (wdone (bc k))))) <= 2 ^ 62) ->
  nth_error es t = Some e ->
  (forall k, wfinished (bc k) t \/ exists k' m pick stale, (k <= k')%nat /\ f k' = Step t m pick stale /\ wdone (bc (S k')) <> wdone (bc k')) ->
  exists k, wfinished (bc k) t.
Proof.
  intros dbg n fuel acts vs vars xs es h f t e HQt HV HE Hn bc HF Ee HS. set (P := fun a => in_turn list_eqb h a (cinitial n 0) /\ few_slots false n a).
  assert (forall a b, P (a ++ b) -> P a) as PP. { intros a b [H1 H2]. split; [eapply in_turn_prefix; exact H1|eapply few_prefix; exact H2]. }
  assert (forall a, P a -> keeps (wrun false n a)) as PK. { intros a [H1 H2]. eapply turns_keep; eauto. }
  assert (t < length es)%nat as Ht by (apply nth_error_Some; congruence).
  apply (finish_all false P n PK dbg fuel acts vs vars es HQt Hn f t e); auto.
  intros k. destruct (HS k) as [X|(k' & m & pick & stale & Hk & Ef & Hd)]; [left; exact X|right; exists k'; split; [exact Hk|]].
  assert (bc (S k') = wbstep false n vs (bc k') (f k')) as Ea. { apply (wafter_S false n vs f (wbstart dbg fuel acts vars es)). }
  fold (bc (S k')). fold (bc k'). rewrite Ea, Ef in Hd |- *.
  destruct (reached false P n PP PK dbg fuel acts vs vars xs es HQt HV HE _ (HF k')) as [HB HL]. fold (bc k') in HB, HL.
  destruct (nth_error (wprogs (bc k')) t) as [p|] eqn:Ep; [|apply nth_error_None in Ep; lia].
  destruct (position false n (bc k') t) as [[q|]|] eqn:Et.
  - rewrite <- Et. eapply (inside_goes_on false n vs _ _ _ P PK); eauto. exact (HF k').
  - rewrite <- Et. eapply (between_goes_on false n vs _ _ _ P PK); eauto; [exact (HF k')|discriminate].
  - exfalso. unfold position in Et. destruct (nth_error (wthreads (now false n (wdone (bc k')))) t) eqn:E; [discriminate|]. apply nth_error_None in E. rewrite now_len in E. lia.
Qed.
Print Assumptions C181_finishes_partial.

(** With a lock around [add] a thread may have to wait, but never all of those that have not finished. *)
Theorem C181_locked_no_deadlock_partial : forall dbg n fuel acts vs vars xs es sched,
  idle (now true n acts) -> variables (seen (now true n acts)) vs vars xs -> (forall e, In e es -> sound dbg fuel xs e) -> (length es <= n)%nat ->
  let bc := wbexec true n vs sched (wbstart dbg fuel acts vars es) in
  Z.of_nat (length (wslots (now true n (wdone bc)))) <= 2 ^ 62 ->
  (forall t, (t < length es)%nat -> wfinished bc t) \/
  exists t m, (t < length es)%nat /\ forall pick stale, position true n (wbstep true n vs bc (Step t m pick stale)) t <> position true n bc t.
Proof.
  intros dbg n fuel acts vs vars xs es sched HQt HV HE Hn bc HS.
  assert (few_slots true n (wdone bc)) as HF by exact HS.
  destruct (reached true (few_slots true n) n (fun a b => few_prefix true n a b) (locked_keeps n) dbg fuel acts vs vars xs es HQt HV HE sched HF) as [HB HL]. fold bc in HB, HL.
  destruct (existsb (fun th => in_add (wpos th)) (wthreads (now true n (wdone bc)))) eqn:Ex.
  - apply existsb_exists in Ex. destruct Ex as (th & I & A). apply In_nth_error in I. destruct I as (t & Et). destruct (wpos th) as [q|] eqn:Eq; [|discriminate].
    destruct (b_pend _ _ _ _ _ _ _ HB t (seen_call q)) as (p & ms & Ep & _).
    { cbn [seen ithreads]. rewrite nth_error_map, Et. cbn. rewrite Eq. reflexivity. }
    right. exists t, O. split; [rewrite <- HL; apply nth_error_Some; congruence|].
    eapply (inside_goes_on true n vs _ _ _ (few_slots true n) (locked_keeps n)); eauto. unfold position. rewrite Et. cbn. rewrite Eq. reflexivity.
  - assert ((forall t, (t < length es)%nat -> wfinished bc t) \/ exists t p, (t < length es)%nat /\ nth_error (wprogs bc) t = Some p /\ forall r, p <> PStop r) as [X|(t & p & Ht & Ep & NS)]; [|left; exact X|].
    { assert (forall l, (l <= length es)%nat -> (forall t, (t < l)%nat -> wfinished bc t) \/ exists t p, (t < length es)%nat /\ nth_error (wprogs bc) t = Some p /\ forall r, p <> PStop r) as Y; [|apply (Y (length es)); lia].
      induction l as [|l IH]; intros Hl; [left; intros; lia|]. destruct (IH ltac:(lia)) as [Y|Y]; [|right; exact Y].
      destruct (stop_or_not bc l ltac:(lia)) as [Z0|(p & Ep & NS)]; [left|right; exists l, p; repeat split; auto; lia]. intros t Ht. destruct (Nat.eq_dec t l) as [->|]; [exact Z0|apply Y; lia]. }
    right. destruct (can_go_on true n vs _ _ _ (few_slots true n) (locked_keeps n) bc t p HB HF ltac:(lia) Ep NS) as (m & Hm); [auto|]. exists t, m. auto.
Qed.
Print Assumptions C181_locked_no_deadlock_partial.

(** A thread that, in an endless execution with the lock, goes on again and again (it does not wait from some time on) finishes. *)
Theorem C181_locked_finishes_partial : forall dbg n fuel acts vs vars xs es (f : nat -> wmove) t e,
  idle (now true n acts) -> variables (seen (now true n acts)) vs vars xs -> (forall e, In e es -> sound dbg fuel xs e) -> (length es <= n)%nat ->
  let bc k := wbexec true n vs (map f (seq 0 k)) (wbstart dbg fuel acts vars es) in
  (forall k, Z.of_nat (length (wslots (now true n (wdone (bc k))))) <= 2 ^ 62) ->
  nth_error es t = Some e ->
  (forall k, wfinished (bc k) t \/ exists k', (k <= k')%nat /\ position true n (bc (S k')) t <> position true n (bc k') t) ->
  exists k, wfinished (bc k) t.
Proof.
  intros dbg n fuel acts vs vars xs es f t e HQt HV HE Hn bc HF Ee HS.
  exact (finish_all true (few_slots true n) n (locked_keeps n) dbg fuel acts vs vars es HQt Hn f t e HF Ee HS).
Qed.
Print Assumptions C181_locked_finishes_partial.

(** ** Without turns *)

(** Two threads convert 5 * 2^64 and 7 * 2^64 from [u128]: the second begins when the first has finished, and no two calls overlap.  The accesses
    to the limbs race; and the second thread, which still sees the count of the first number as zero, puts its number in its place, so that both
    are the same word and the first BigInt has become 7 * 2^64. *)
Definition one_then_other : list wmove := repeat (Step 0 0 9 false) 7 ++ repeat (Step 1 0 0 false) 7.
Theorem C181_refuted : exists sched x y w,
  let run k := wbexec false 2 [] (firstn k sched) (wbstart true 0 [] [] [Lit t_u128 x; Lit t_u128 y]) in
  let cf := now false 2 (wdone (run (length sched))) in
  (forall z, In z [x; y] -> BitSliceModel.in_range t_u128 z = true) /\ x <> y /\
  (forall k, (inside (now false 2 (wdone (run k))) <= 1)%nat) /\
  wprogs (run (length sched)) = [PStop (Ok w); PStop (Ok w)] /\ is_inline w = false /\ race (wlog cf) /\
  exists s l, nth_error (wslots cf) (Z.to_nat (to_offset w)) = Some s /\ wcont s = Some l /\ val 64 l <> Z.abs x.
Proof.
  exists one_then_other, (5 * 2 ^ 64), (7 * 2 ^ 64), 0. cbv zeta.
  split; [|split; [discriminate|split; [|split; [|split; [|split]]]]].
  - intros z [<-|[<-|[]]]; vm_compute; reflexivity.
  - assert (forallb (fun k => Nat.leb (inside (now false 2 (wdone (wbexec false 2 [] (firstn k one_then_other)
      (wbstart true 0 [] [] [Lit t_u128 (5 * 2 ^ 64); Lit t_u128 (7 * 2 ^ 64)]))))) 1) (seq 0 15) = true) as H by (vm_compute; reflexivity).
    rewrite forallb_forall in H. intros k. destruct (Nat.lt_ge_cases k 15) as [L|L].
    + apply Nat.leb_le, H, in_seq. lia.
    + rewrite firstn_all2 by (cbn; lia). apply Nat.leb_le. vm_compute. reflexivity.
  - vm_compute. reflexivity.
  - reflexivity.
  - exists 0%nat, 1%nat. eexists _, _. split; [lia|]. split; [vm_compute; reflexivity|]. split; [vm_compute; reflexivity|]. split; [reflexivity|].
    split; [left; reflexivity|]. vm_compute. intros H. repeat (destruct H as [H|H]; [discriminate|]). exact H.
  - eexists _, [0; 7]. split; [vm_compute; reflexivity|]. split; [reflexivity|]. vm_compute. discriminate.
Qed.
Print Assumptions C181_refuted.

(** ** A case *)

(** One thread has made x = 5 * 2^64.  It computes x + x while another clones x; when the other has learnt that it has finished, it goes on with
    its own sum. *)
Definition weak_before : list (waction (list Z) * bool) := (WBegin 0 (CAdd [0; 5]), false) :: repeat (WGo 0 0, false) 4.
Definition weak_exprs : list expr := [VarVar OAdd 0 0; VarExp OAdd 0 (Cloned 0)].
Definition weak_turns : list wmove :=
  [Step 0 0 0 false; Step 1 0 0 false; Step 0 0 0 false; Step 1 0 0 false; Step 0 0 0 false] ++ repeat (Step 0 0 9 false) 20 ++ [Learn 1 0] ++ repeat (Step 1 1 9 true) 14.
Definition weak_end : wbconf Z := wbexec false 2 [0%nat] weak_turns (wbstart true 0 weak_before [0] weak_exprs).

Example C181_demo :
  idle (now false 2 weak_before) /\ variables (seen (now false 2 weak_before)) [0%nat] [0] [5 * 2 ^ 64] /\ (forall e, In e weak_exprs -> sound true 0 [5 * 2 ^ 64] e) /\
  in_turn list_eqb 0 (wdone weak_end) (cinitial 2 0) /\ Z.of_nat (length (wslots (now false 2 (wdone weak_end)))) <= 2 ^ 62 /\
  wprogs weak_end = [PStop (Ok 4); PStop (Ok 4)] /\ wowned weak_end = [[2%nat]; [3%nat]] /\ map (value [5 * 2 ^ 64]) weak_exprs = [10 * 2 ^ 64; 10 * 2 ^ 64].
Proof.
  split; [|split; [|split; [|split; [|split; [vm_compute; discriminate|split; [vm_compute; reflexivity|split; vm_compute; reflexivity]]]]]].
  - intros t th E. destruct t as [|[|t]]; [vm_compute in E; injection E as <-; reflexivity..|]. exfalso. assert (nth_error (wthreads (now false 2 weak_before)) (S (S t)) = None) as X; [|congruence].
    apply nth_error_None. replace (length (wthreads (now false 2 weak_before))) with 2%nat by (vm_compute; reflexivity). lia.
  - split.
    + intros m [<-|[]]. exists (Handle 0 [0; 5] (Held 0)). split; [vm_compute; reflexivity|discriminate].
    + intros [|i] Hi; [|cbn in Hi; lia]. exists [0; 5]. split; [repeat constructor; vm_compute; discriminate|]. split; [split; [|left]; discriminate|]. split; [vm_compute; reflexivity|].
      change (Nat.eqb (length [0; 5]) 1) with false. cbn [andb]. exists 0%nat, (Handle 0 [0; 5] (Held 0)). split; [left; reflexivity|]. repeat split; try (vm_compute; reflexivity). discriminate.
  - unfold sound. intros e [<-|[<-|[]]]; cbn [everywhere_with value_with nth length fit_op right_op outcome meaning]; unfold add_exact; repeat split; auto; lia.
  - replace (wdone weak_end) with (weak_before ++ skipn 5 (wdone weak_end)) by (vm_compute; reflexivity).
    set (l := skipn 5 (wdone weak_end)). vm_compute in l. unfold l, weak_before. cbn [app repeat]. clear l.
    cbn [in_turn fst]. repeat match goal with
    | |- _ /\ _ => split
    | |- _ = _ => reflexivity
    | |- _ \/ _ => right
    | |- between_calls _ _ => eexists; vm_compute; reflexivity
    | |- True => exact I
    end.
Qed.

(** The same moves, and thread 0 from then on: a schedule as [C181_finishes_partial] asks for. *)
Definition weak_move (k : nat) : wmove := nth k weak_turns (Step 0 0 0 false).
Definition weak_at (k : nat) : wbconf Z := wbexec false 2 [0%nat] (map weak_move (seq 0 k)) (wbstart true 0 weak_before [0] weak_exprs).
Lemma weak_last : forall t last, In (t, last) [(0, 14); (1, 39)]%nat -> (exists m pick stale, weak_move last = Step t m pick stale) /\ wdone (weak_at (S last)) <> wdone (weak_at last) /\
  forallb (fun j => match nth_error (wprogs (weak_at j)) t with Some (PStop _) => true | _ => false end) (seq (S last) (40 - last)) = true.
Proof.
  assert (forall k l l', length (wdone (weak_at (S k))) = l -> length (wdone (weak_at k)) = l' -> l <> l' -> wdone (weak_at (S k)) <> wdone (weak_at k)) as NE by (intros; congruence).
  intros t last [E|[E|[]]].
  - assert (t = 0%nat) as -> by congruence. assert (last = 14%nat) as -> by congruence. split; [eexists _, _, _; reflexivity|]. split; [|vm_compute; reflexivity].
    apply (NE 14%nat 20%nat 19%nat); [vm_compute; reflexivity..|lia].
  - assert (t = 1%nat) as -> by congruence. assert (last = 39%nat) as -> by congruence. split; [eexists _, _, _; reflexivity|]. split; [|vm_compute; reflexivity].
    apply (NE 39%nat 35%nat 34%nat); [vm_compute; reflexivity..|lia].
Qed.
Example C181_finishes_demo : let f := weak_move in let bc := weak_at in
  (forall k, in_turn list_eqb 0 (wdone (bc k)) (cinitial 2 0) /\ Z.of_nat (length (wslots (now false 2 (wdone (bc k))))) <= 2 ^ 62) /\
  (forall t k, (t < 2)%nat -> wfinished (bc k) t \/ exists k' m pick stale, (k <= k')%nat /\ f k' = Step t m pick stale /\ wdone (bc (S k')) <> wdone (bc k')).
Proof.
  intros f bc.
  assert (forall k, bc (S k) = wbstep false 2 [0%nat] (bc k) (f k)) as SS. { intros k. apply (wafter_S false 2 [0%nat] f). }
  assert (bc (length weak_turns) = weak_end) as EE. { unfold bc, weak_at, weak_end. f_equal. }
  assert (forall d, bc (d + length weak_turns)%nat = weak_end) as ST.
  { induction d as [|d IH]; [exact EE|]. cbn [Nat.add]. rewrite SS, IH. unfold f, weak_move. rewrite nth_overflow by lia. vm_compute. reflexivity. }
  assert (forall a b, exists l, wdone (bc (b + a)%nat) = wdone (bc a) ++ l) as PX.
  { intros a. induction b as [|b (l & E)]; [exists []; rewrite app_nil_r; auto|]. cbn [Nat.add]. rewrite SS.
    destruct (wbstep_done false 2 [0%nat] (bc (b + a)%nat) (f (b + a)%nat)) as (l' & E'). exists (l ++ l'). rewrite E', E, app_assoc. reflexivity. }
  split.
  - intros k. destruct (PX k (length weak_turns)) as (l & E). rewrite Nat.add_comm, ST in E. destruct C181_demo as (_ & _ & _ & T & Sl & _). rewrite E in T, Sl.
    split; [eapply in_turn_prefix; exact T|exact (few_prefix false 2 _ l Sl)].
  - assert (forall t, (t < 2)%nat -> wfinished weak_end t) as FE.
    { intros t Ht. unfold wfinished. destruct C181_demo as (_ & _ & _ & _ & _ & -> & _). destruct t as [|[|t]]; [| |lia]; (eexists; reflexivity). }
    pose proof weak_last as LS. fold f in LS. fold bc in LS.
    clearbody bc. intros t k Ht. assert (exists last, In (t, last) [(0, 14); (1, 39)]%nat) as (last & I) by (destruct t as [|[|t]]; [eexists; left; reflexivity|eexists; right; left; reflexivity|lia]).
    destruct (LS t last I) as ((m & pick & stale & L1) & L2 & L3). destruct (Nat.le_gt_cases k last) as [Hk|Hk]; [right; exists last, m, pick, stale; auto|]. left.
    destruct (Nat.le_gt_cases k 40) as [Hl|Hl].
    + rewrite forallb_forall in L3. specialize (L3 k ltac:(apply in_seq; lia)). unfold wfinished. destruct (nth_error (wprogs (bc k)) t) as [[r| | | |]|]; try discriminate L3. eauto.
    + replace k with ((k - 40) + length weak_turns)%nat by (change (length weak_turns) with 40%nat; lia). rewrite ST. apply FE. exact Ht.
Qed.
