(** C182: several threads under weak memory that only ask about shared BigInts. *)
From Coq Require Import ZArith List Bool PeanoNat Lia Permutation.
From Verif Require Import Base Words Spec Arith BitSliceModel ElementModel InternModel BigIntModel BigIntSpec BigIntProofs BigIntOps BigIntText BigIntRun PropBigInt BigIntExprModel PropBigIntExpr
  ConcArithModel ConcArithWp ConcArithSame ConcInternModel PropInternProgress ConcBigIntModel ConcArithProofs PropConcArith
  WeakInternModel WeakInternSpec WeakInternProofs WeakChunkModel WeakTurnSpec WeakArithModel WeakArithProofs WeakArithFinish PropWeakArith
  WeakReadModel WeakReadSpec WeakReadWp WeakReadProofs.
Import ListNotations.
Local Open Scope Z_scope.

(** ** Specification *)

(** [right_answer] and [question_ok] are of WeakReadSpec.v, [variables] and [made_by] of PropConcArith.v. *)
Definition all_answered (vs : list nat) (vars xs : list Z) (qss : list (list question)) (cf0 : wconf (list Z)) (bc : wbconf (list answer)) (cf : wconf (list Z)) : Prop :=
  (* whoever is finished has the right answers, and no references *)
  (forall t qs r, nth_error qss t = Some qs -> nth_error (wprogs bc) t = Some (PStop r) ->
     exists answers, r = Ok answers /\ Forall2 (right_answer xs) qs answers /\ nth_error (wowned bc) t = Some []) /\
  (* the variables are what they were *)
  (forall i, (i < length xs)%nat -> made_by (seen cf) vs (nth i xs 0) (nth i vars 0)) /\
  (* the limbs behind every reference are in the interner, which has not grown *)
  (forall m h, nth_error (whandles cf) m = Some h -> whst h <> Gone -> exists s, nth_error (wslots cf) (whid h) = Some s /\ wcont s = Some (whval h)) /\
  length (wslots cf) = length (wslots cf0) /\
  (* nobody has panicked, and there is no data race *)
  (forall t th, nth_error (wthreads cf) t = Some th -> wpos th <> Some WBroken) /\
  ~ race (wlog cf) /\
  (* every reference that is left was there before or is a thread's *)
  (forall m h, nth_error (whandles cf) m = Some h -> whst h <> Gone ->
     (m < length (whandles cf0))%nat \/ exists t ms, nth_error (wowned bc) t = Some ms /\ In m ms).

(** ** The programs are the code *)

(** Run by one thread, the programs that the threads execute are the functions that C42, C47-C49, C56, C100 and C107 are about. *)
Theorem C182_same_code : forall dbg t a b v st,
  ConcArithModel.alone dbg (p_cmp a b) st = BigIntModel.reads (fun st => bi_cmp st a b) st /\
  ConcArithModel.alone dbg (p_eq a b) st = BigIntModel.reads (fun st => bi_eq st a b) st /\
  ConcArithModel.alone dbg (p_eq_int dbg t a v) st = BigIntModel.reads (fun st => bi_eq_int dbg t st a v) st /\
  ConcArithModel.alone dbg (p_truncate dbg t a) st = bi_truncate dbg t a st /\
  ConcArithModel.alone dbg (p_try_from dbg t a) st = bi_try_from dbg t a st /\
  ConcArithModel.alone dbg (p_binary a) st = bi_binary a st.
Proof.
  intros dbg t a b v st.
  assert (forall A (p : prog A) (m : M A), same dbg p m -> ConcArithModel.alone dbg p st = m st) as X by (intros A p m H; apply H).
  split; [|split; [|split; [|split; [|split]]]].
  - apply X, same_cmp.
  - apply X. unfold p_eq. eapply same_ext; [|]. 
    2: { instantiate (1 := if a =? b then ret true else if tag_eqb (tag_of a) (tag_of b) && negb (tag_inline (tag_of a)) then
           mbind (BigIntModel.reads (fun st => bi_slice st a)) (fun la => mbind (BigIntModel.reads (fun st => bi_slice st b)) (fun lb => ret (list_eqb la lb))) else ret false).
         destruct (a =? b); [apply same_ret|]. destruct (_ && _); [|apply same_ret].
         apply same_bind; [apply same_slice|]. intros la. apply same_bind; [apply same_slice|]. intros lb. apply same_ret. }
    intros s. unfold bi_eq, BigIntModel.reads. destruct (a =? b); [reflexivity|]. destruct (_ && _); [|reflexivity].
    unfold mbind, ret. destruct (bi_slice s a) as [la| |]; cbn [bind]; auto. destruct (bi_slice s b) as [lb| |]; reflexivity.
  - apply X. unfold p_eq_int. intros s. unfold bi_eq_int, BigIntModel.reads. destruct (isigned t).
    + destruct (negb _); [reflexivity|]. destruct (if v =? imin t then _ else _) as [m| |]; cbn [pbind ConcArithModel.alone lift bind]; auto.
      unfold lift. cbn [bind].
      unfold p_slice, bi_slice, pret. destruct (is_inline a); cbn [pbind ConcArithModel.alone bind].
      * destruct (int_to_arr _ _ _ _) as [arr| |]; cbn [pbind ConcArithModel.alone bind lift]; auto. destruct (shrink arr); reflexivity.
      * destruct (intern_get s (to_offset a)) as [l| |]; cbn [bind]; auto.
        destruct (int_to_arr _ _ _ _) as [arr| |]; cbn [pbind ConcArithModel.alone bind lift]; auto. destruct (shrink arr); reflexivity.
    + unfold p_slice, bi_slice, pret. destruct (is_inline a); cbn [pbind ConcArithModel.alone bind].
      * destruct (int_to_arr _ _ _ _) as [arr| |]; cbn [pbind ConcArithModel.alone bind lift]; auto. destruct (shrink arr); reflexivity.
      * destruct (intern_get s (to_offset a)) as [l| |]; cbn [bind]; auto.
        destruct (int_to_arr _ _ _ _) as [arr| |]; cbn [pbind ConcArithModel.alone bind lift]; auto. destruct (shrink arr); reflexivity.
  - apply X. apply same_bind; [apply same_slice|]. intros l. apply same_bind; [apply same_stop|]. intros o. apply same_bind; [apply same_stop|]. intros r.
    apply same_bind; [apply same_drop|]. intros _. apply same_ret.
  - apply X, same_try_from.
  - apply X. apply same_bind; [apply same_slice|]. intros l. apply same_bind; [apply same_stop|]. intros s. apply same_ret.
Qed.
Print Assumptions C182_same_code.

(** ** Soundness *)
Section Threads.
Context (n h : nat) (dbg : bool) (fuel : nat) (acts : list (waction (list Z) * bool)) (vs : list nat) (vars xs : list Z) (qss : list (list question)).
Let cf0 := now false n acts.
Context (HQt : idle cf0) (HV : variables (seen cf0) vs vars xs) (HE : forall qs q, In qs qss -> In q qs -> question_ok dbg fuel xs q).
Context (HT : in_turn list_eqb h acts (cinitial n 0)) (HS : Z.of_nat (length (wslots cf0)) <= 2 ^ 62).
Let V := map (entry (seen cf0)) vs.
Let bc0 := wrstart dbg fuel acts vars qss.
Let P := turned n h (length (wslots cf0)).
Definition given (t : nat) (O : list (Z * list Z)) (answers : list answer) : Prop :=
  O = [] /\ exists qs, nth_error qss t = Some qs /\ Forall2 (right_answer xs) qs answers.
Lemma given_perm t O O' a : Permutation O O' -> given t O a -> given t O' a.
Proof. intros PM [-> H]. split; auto. apply Permutation_nil. exact PM. Qed.

Lemma P_start : P acts.
Proof. split; [exact HT|]. split; [exact HS|apply le_n]. Qed.

Lemma rstart_inv : winv_b (adds := false) false n vs V (length (whandles cf0)) given bc0.
Proof.
  pose proof (keeps_id false n P (turned_keeps n h _) acts) as Hid. destruct HV as [HV1 HV2]. unfold bc0, wrstart. constructor; cbn [wdone wprogs wowned]; fold cf0.
  - rewrite map_length, repeat_length. reflexivity.
  - intros t p ms Ep Em. assert (ms = []) as ->. { apply nth_error_In, repeat_spec in Em. auto. } cbn [map].
    destruct (nth_error qss t) as [qs|] eqn:Ee.
    + rewrite (map_nth_error _ _ _ Ee) in Ep. injection Ep as <-. apply (wq_asks dbg fuel V vars xs).
      * intros i Hi. destruct (made_num (seen cf0) vs _ _ (HV2 i Hi)) as (l & N & I); [intros m h' E; apply (Hid m h' P_start E)|]. eauto.
      * intros q Hq. apply (HE qs q); auto. eapply nth_error_In; eauto.
      * rewrite app_nil_r. apply (keeps_fn false n P (turned_keeps n h _) acts); auto. exact P_start.
      * intros O O' l. apply given_perm.
      * intros l Hl. split; [reflexivity|]. eauto.
    + exfalso. assert (nth_error (map (p_asks dbg fuel vars) qss) t = None) by (apply nth_error_None; rewrite map_length; apply nth_error_None; auto). congruence.
  - reflexivity.
  - intros t q E. exfalso. cbn [seen ithreads] in E. rewrite nth_error_map in E. destruct (nth_error (wthreads cf0) t) as [th|] eqn:Et; [|discriminate].
    cbn in E. rewrite (HQt _ _ Et) in E. discriminate.
  - intros m [I|I]; [apply HV1; auto|]. exfalso. clear - I. induction (length qss); cbn in I; auto.
  - clear. induction (length qss); cbn; auto. constructor.
  - intros m _ I. clear - I. induction (length qss); cbn in I; auto.
  - intros m (h' & E & _). left. rewrite <- len_seen. apply nth_error_Some. congruence.
Qed.

Lemma rreached sched : let bc := wbexec false n vs sched bc0 in
  winv_b (adds := false) false n vs V (length (whandles cf0)) given bc /\ P (wdone bc) /\ length (wprogs bc) = length qss.
Proof.
  intros bc. destruct (asking_exec n vs V (length (whandles cf0)) given given_perm h (length (wslots cf0)) sched bc0 rstart_inv P_start) as [H1 H2]. split; auto. split; auto.
  unfold bc. rewrite progs_len. unfold bc0. cbn [wrstart wprogs]. apply map_length.
Qed.

Lemma all_are_answered sched : let bc := wbexec false n vs sched bc0 in all_answered vs vars xs qss cf0 bc (now false n (wdone bc)).
Proof.
  intros bc. destruct (rreached sched) as (HB & HF & HL). fold bc in HB, HF, HL.
  set (cf := now false n (wdone bc)). pose proof (fun m h' => keeps_id false n P (turned_keeps n h _) _ m h' HF) as Hid. fold cf in Hid.
  destruct (turned_keeps _ _ _ _ HF) as [(lk & HI) _]. fold (now false n (wdone bc)) in HI. fold cf in HI.
  split; [|split; [|split; [|split; [|split; [|split]]]]].
  - intros t qs r Ee Ep. assert (exists ms, nth_error (wowned bc) t = Some ms) as (ms & Em).
    { destruct (nth_error (wowned bc) t) eqn:X; eauto. apply nth_error_None in X. assert (t < length (wprogs bc))%nat by (apply nth_error_Some; congruence).
      rewrite (b_len _ _ _ _ _ _ _ HB) in *. lia. }
    destruct (b_prog _ _ _ _ _ _ _ HB _ _ _ Ep Em) as (w & -> & E & qs' & Eq & F). assert (qs' = qs) as -> by congruence.
    exists w. split; auto. split; auto. destruct ms; [exact Em|discriminate].
  - intros i Hi. destruct (made_num _ _ _ _ (proj2 HV i Hi)) as (l & N & I).
    { intros m h' Eh. apply (keeps_id false n P (turned_keeps n h _) acts m h' P_start Eh). }
    apply (num_made (seen cf) vs _ _ l); auto.
    + rewrite (b_vars _ _ _ _ _ _ _ HB : map (entry (seen cf)) vs = _). exact I.
    + intros m J. apply (b_live _ _ _ _ _ _ _ HB). auto.
  - intros m h'. apply (keeps_handles false n P (turned_keeps n h _) _ m h' HF).
  - destruct HF as (_ & _ & HM). fold cf in HM. apply Nat.le_antisymm; [exact HM|]. unfold cf, cf0. destruct (wbexec_done false n vs sched bc0) as (ext & E). fold bc in E.
    rewrite E. unfold now. rewrite (wrun_app false n). apply slots_exec.
  - intros t th Et Hp. exact (wi_pc _ HI t th _ Et Hp).
  - exact (wi_race _ HI).
  - intros m h' Eh Hg. destruct (b_left _ _ _ _ _ _ _ HB m) as [X|X]; auto.
    + exists (seen_handle h'). split; [apply seen_nth; exact Eh|exact Hg].
    + right. apply in_concat in X. destruct X as (ms & I & J). apply In_nth_error in I. destruct I as (t & I). eauto.
Qed.
End Threads.

(** ** Statements *)

(** Whatever the threads did before (in turn, see [in_turn], as far as they made numbers that are not small), from when none of them is inside a
    call they may ask as they like, at the same time and without a lock, whatever the loads return that Rust's memory model allows. *)
Theorem C182_answers : forall dbg n fuel acts vs vars xs qss sched h,
  in_turn list_eqb h acts (cinitial n 0) -> Z.of_nat (length (wslots (now false n acts))) <= 2 ^ 62 ->
  idle (now false n acts) -> variables (seen (now false n acts)) vs vars xs -> (forall qs q, In qs qss -> In q qs -> question_ok dbg fuel xs q) ->
  let bc := wbexec false n vs sched (wrstart dbg fuel acts vars qss) in
  all_answered vs vars xs qss (now false n acts) bc (now false n (wdone bc)).
Proof. intros dbg n fuel acts vs vars xs qss sched h HT HS HQt HV HE bc. apply (all_are_answered n h dbg fuel acts); auto. Qed.
Print Assumptions C182_answers.

(** A thread that has not all its answers can take a step, whatever its loads return and wherever the others are. *)
Theorem C182_no_deadlock : forall dbg n fuel acts vs vars xs qss sched h t qs,
  in_turn list_eqb h acts (cinitial n 0) -> Z.of_nat (length (wslots (now false n acts))) <= 2 ^ 62 ->
  idle (now false n acts) -> variables (seen (now false n acts)) vs vars xs -> (forall qs q, In qs qss -> In q qs -> question_ok dbg fuel xs q) ->
  (length qss <= n)%nat -> nth_error qss t = Some qs ->
  let bc := wbexec false n vs sched (wrstart dbg fuel acts vars qss) in
  wfinished bc t \/ exists m, forall pick stale, position false n (wbstep false n vs bc (Step t m pick stale)) t <> position false n bc t.
Proof.
  intros dbg n fuel acts vs vars xs qss sched h t qs HT HS HQt HV HE Hn Ee bc.
  destruct (rreached n h dbg fuel acts vs vars xs qss HQt HV HE HT HS sched) as (HB & HF & HL). fold bc in HB, HF, HL.
  assert (t < length qss)%nat as Ht by (apply nth_error_Some; congruence).
  destruct (stop_or_not bc t ltac:(lia)) as [X|(p & Ep & NS)]; [left; exact X|right].
  apply (can_go_on false n vs _ _ _ _ (turned_keeps n h _) bc t p HB HF ltac:(lia) Ep NS). discriminate.
Qed.
Print Assumptions C182_no_deadlock.

(** In an endless execution every thread that keeps taking steps gets all its answers, whatever the others do. *)
Theorem C182_finishes : forall dbg n fuel acts vs vars xs qss h (f : nat -> wmove) t qs,
  in_turn list_eqb h acts (cinitial n 0) -> Z.of_nat (length (wslots (now false n acts))) <= 2 ^ 62 ->
  idle (now false n acts) -> variables (seen (now false n acts)) vs vars xs -> (forall qs q, In qs qss -> In q qs -> question_ok dbg fuel xs q) ->
  (length qss <= n)%nat -> nth_error qss t = Some qs ->
  let bc k := wbexec false n vs (map f (seq 0 k)) (wrstart dbg fuel acts vars qss) in
  (forall k, wfinished (bc k) t \/ exists k' m pick stale, (k <= k')%nat /\ f k' = Step t m pick stale /\ wdone (bc (S k')) <> wdone (bc k')) ->
  exists k answers, nth_error (wprogs (bc k)) t = Some (PStop (Ok answers)) /\ Forall2 (right_answer xs) qs answers.
Proof.
  intros dbg n fuel acts vs vars xs qss h f t qs HT HS HQt HV HE Hn Ee bc HG.
  assert (t < length qss)%nat as Ht by (apply nth_error_Some; congruence).
  assert (exists k, wfinished (bc k) t) as (k & r & Hk).
  2: { destruct (all_are_answered n h dbg fuel acts vs vars xs qss HQt HV HE HT HS (map f (seq 0 k))) as [X _]. fold (bc k) in X.
       destruct (X t qs r Ee Hk) as (l & -> & F & _). eauto. }
  eapply (wfinishes false n vs _ (turned_keeps n h (length (wslots (now false n acts)))) f (wrstart dbg fuel acts vars qss) t (p_asks dbg fuel vars qs)).
  - cbn [wrstart wprogs]. apply map_nth_error. exact Ee.
  - unfold position. cbn [wrstart wdone]. destruct (nth_error (wthreads (now false n acts)) t) as [th|] eqn:E.
    + cbn. rewrite (HQt _ _ E). reflexivity.
    + exfalso. apply nth_error_None in E. rewrite now_len in E. lia.
  - intros k. apply (rreached n h dbg fuel acts vs vars xs qss HQt HV HE HT HS (map f (seq 0 k))).
  - intros k. destruct (HG k) as [X|(k' & m & pick & stale & Hk & Ef & Hd)]; [left; exact X|right; exists k'; split; [exact Hk|]].
    assert (bc (S k') = wbstep false n vs (bc k') (f k')) as Ea. { apply (wafter_S false n vs f (wrstart dbg fuel acts vars qss)). }
    unfold goes_on. change (position false n (bc (S k')) t <> position false n (bc k') t). rewrite Ea, Ef in Hd |- *.
    destruct (rreached n h dbg fuel acts vs vars xs qss HQt HV HE HT HS (map f (seq 0 k'))) as (HB & HF & HL). fold (bc k') in HB, HF, HL.
    destruct (nth_error (wprogs (bc k')) t) as [p|] eqn:Ep; [|apply nth_error_None in Ep; lia].
    destruct (position false n (bc k') t) as [[q|]|] eqn:Et.
    + rewrite <- Et. eapply (inside_goes_on false n vs _ _ _ _ (turned_keeps n h _)); eauto.
    + rewrite <- Et. eapply (between_goes_on false n vs _ _ _ _ (turned_keeps n h _)); eauto. discriminate.
    + exfalso. unfold position in Et. destruct (nth_error (wthreads (now false n (wdone (bc k')))) t) eqn:E; [discriminate|]. apply nth_error_None in E. rewrite now_len in E. lia.
Qed.
Print Assumptions C182_finishes.

(** ** A case *)

(** One thread has made x = 5 * 2^64 + 3 and y = 5 * 2^64.  Then it compares them and converts x - y to [u8], while another asks whether x equals a clone of it and
    truncates a clone of y to [i32]; the third has nothing to ask. *)
Definition ask_before : list (waction (list Z) * bool) :=
  (WBegin 0 (CAdd [3; 5]), false) :: repeat (WGo 0 0, false) 4 ++ (WBegin 0 (CAdd [0; 5]), false) :: repeat (WGo 0 0, false) 6.
Definition ask_values : list Z := [5 * 2 ^ 64 + 3; 5 * 2 ^ 64].
Definition ask_questions : list (list question) :=
  [[AskCmp (Shared 0) (Shared 1); AskTry t_u8 (Made (VarVar OSub 0 1))]; [AskEq (Shared 0) (Made (Cloned 0)); AskTruncate t_i32 (Cloned 1)]; []].
Definition ask_moves : list wmove := flat_map (fun m => [Step 0 m 0 true; Step 1 m 1 false; Learn 2 0; Step 2 m 0 true]) (concat (repeat [0; 1; 2; 3]%nat 4)).
Definition ask_end : wbconf (list answer) := wbexec false 3 [0; 1]%nat ask_moves (wrstart true 0 ask_before [0; 4] ask_questions).

Example C182_demo :
  in_turn list_eqb 0 ask_before (cinitial 3 0) /\ Z.of_nat (length (wslots (now false 3 ask_before))) <= 2 ^ 62 /\
  idle (now false 3 ask_before) /\ variables (seen (now false 3 ask_before)) [0; 1]%nat [0; 4] ask_values /\
  (forall qs q, In qs ask_questions -> In q qs -> question_ok true 0 ask_values q) /\
  wprogs ask_end = [PStop (Ok [AnsCmp Gt; AnsTry (inl 3)]); PStop (Ok [AnsBool true; AnsInt 2147483647]); PStop (Ok [])] /\ wowned ask_end = [[]; []; []].
Proof.
  split; [|split; [vm_compute; discriminate|split; [|split; [|split; [|split; vm_compute; reflexivity]]]]].
  - unfold ask_before. cbn [repeat app in_turn fst]. repeat split.
  - intros t th E. destruct t as [|[|[|t]]]; [vm_compute in E; injection E as <-; reflexivity..|]. exfalso. assert (nth_error (wthreads (now false 3 ask_before)) (S (S (S t))) = None) as X; [|congruence].
    apply nth_error_None. replace (length (wthreads (now false 3 ask_before))) with 3%nat by (vm_compute; reflexivity). lia.
  - split.
    + intros m [<-|[<-|[]]]; [exists (Handle 0 [3; 5] (Held 0))|exists (Handle 1 [0; 5] (Held 0))]; (split; [vm_compute; reflexivity|discriminate]).
    + intros [|[|i]] Hi; [..|cbn in Hi; lia].
      * exists [3; 5]. split; [repeat constructor; vm_compute; discriminate|]. split; [split; [|left]; discriminate|]. split; [vm_compute; reflexivity|].
        change (Nat.eqb (length [3; 5]) 1) with false. cbn [andb]. exists 0%nat, (Handle 0 [3; 5] (Held 0)). split; [left; reflexivity|]. repeat split; try (vm_compute; reflexivity). discriminate.
      * exists [0; 5]. split; [repeat constructor; vm_compute; discriminate|]. split; [split; [|left]; discriminate|]. split; [vm_compute; reflexivity|].
        change (Nat.eqb (length [0; 5]) 1) with false. cbn [andb]. exists 1%nat, (Handle 1 [0; 5] (Held 0)). split; [right; left; reflexivity|]. repeat split; try (vm_compute; reflexivity). discriminate.
  - intros qs q [<-|[<-|[<-|[]]]]; cbn [In]; intros Hq; repeat (destruct Hq as [<-|Hq]; [|]); try contradiction; cbn [question_ok operand_ok ask_values length].
    + lia.
    + unfold sound, ask_values. cbn [everywhere_with value_with modest nth length fit_op right_op outcome meaning modest_op]. split; [|unfold std_ty; split; [left; reflexivity|cbn [ibits t_u8]; lia]].
      split; [repeat split; lia|]. split; [discriminate|]. split; [discriminate|vm_compute; reflexivity].
    + unfold sound, ask_values. cbn [everywhere_with value_with modest nth length]. repeat split; auto; lia.
    + unfold sound, ask_values. cbn [everywhere_with value_with modest nth length about]. repeat split; try lia. unfold std_ty. cbn. auto.
Qed.

(** The same moves, and thread 0 from then on: a schedule as [C182_finishes] asks for. *)
Definition ask_move (k : nat) : wmove := nth k ask_moves (Step 0 0 0 false).
Definition ask_at (k : nat) : wbconf (list answer) := wbexec false 3 [0; 1]%nat (map ask_move (seq 0 k)) (wrstart true 0 ask_before [0; 4] ask_questions).
Lemma ask_last : forall t last, In (t, last) [(0, 60); (1, 49)]%nat -> (exists m pick stale, ask_move last = Step t m pick stale) /\ wdone (ask_at (S last)) <> wdone (ask_at last) /\
  forallb (fun j => match nth_error (wprogs (ask_at j)) t with Some (PStop _) => true | _ => false end) (seq (S last) (64 - last)) = true.
Proof.
  assert (forall k l, length (wdone (ask_at (S k))) = S l -> length (wdone (ask_at k)) = l -> wdone (ask_at (S k)) <> wdone (ask_at k)) as NE.
  { intros k l E1 E2 E. rewrite E in E1. lia. }
  intros t last [E|[E|[]]].
  - assert (t = 0%nat) as -> by congruence. assert (last = 60%nat) as -> by congruence. split; [eexists _, _, _; reflexivity|]. split; [|vm_compute; reflexivity].
    eapply NE; vm_compute; reflexivity.
  - assert (t = 1%nat) as -> by congruence. assert (last = 49%nat) as -> by congruence. split; [eexists _, _, _; reflexivity|]. split; [|vm_compute; reflexivity].
    eapply NE; vm_compute; reflexivity.
Qed.
Example C182_finishes_demo : let f := ask_move in let bc := ask_at in
  forall t k, (t < 2)%nat -> wfinished (bc k) t \/ exists k' m pick stale, (k <= k')%nat /\ f k' = Step t m pick stale /\ wdone (bc (S k')) <> wdone (bc k').
Proof.
  intros f bc.
  assert (forall k, bc (S k) = wbstep false 3 [0; 1]%nat (bc k) (f k)) as SS. { intros k. apply (wafter_S false 3 [0; 1]%nat f). }
  assert (bc (length ask_moves) = ask_end) as EE. { unfold bc, ask_at, ask_end. f_equal. }
  assert (forall d, bc (d + length ask_moves)%nat = ask_end) as ST.
  { induction d as [|d IH]; [exact EE|]. cbn [Nat.add]. rewrite SS, IH. unfold f, ask_move. rewrite nth_overflow by lia. vm_compute. reflexivity. }
  assert (forall t, (t < 2)%nat -> wfinished ask_end t) as FE.
  { intros t Ht. unfold wfinished. destruct C182_demo as (_ & _ & _ & _ & _ & -> & _). destruct t as [|[|t]]; [| |lia]; (eexists; reflexivity). }
  pose proof ask_last as LS. fold f in LS. fold bc in LS.
  clearbody bc. intros t k Ht. assert (exists last, In (t, last) [(0, 60); (1, 49)]%nat) as (last & I) by (destruct t as [|[|t]]; [eexists; left; reflexivity|eexists; right; left; reflexivity|lia]).
  destruct (LS t last I) as ((m & pick & stale & L1) & L2 & L3). destruct (Nat.le_gt_cases k last) as [Hk|Hk]; [right; exists last, m, pick, stale; auto|]. left.
  destruct (Nat.le_gt_cases k 64) as [Hl|Hl].
  - rewrite forallb_forall in L3. specialize (L3 k ltac:(apply in_seq; lia)). unfold wfinished. destruct (nth_error (wprogs (bc k)) t) as [[r| | | |]|]; try discriminate L3. eauto.
  - replace k with ((k - 64) + length ask_moves)%nat by (change (length ask_moves) with 64%nat; lia). rewrite ST. apply FE. exact Ht.
Qed.
