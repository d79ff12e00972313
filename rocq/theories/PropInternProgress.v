(** C165: no call on the shared interner blocks.  C166: how large the shared interner gets. *)
From Coq Require Import ZArith List Bool Lia FinFun.
From Verif Require Import Base Arith InternModel InternProofs ConcInternModel ConcInternSpec ConcInternProofs ConcInternMore.
Import ListNotations.
Local Open Scope nat_scope.

Section Progress.
Context {T : Type} (eqb : T -> T -> bool) (dbg : bool).
Implicit Types (cf : iconf T).

(** Steps that a call still takes if the interner does not get longer than [n] chunks. *)
Definition remaining (n : nat) (p : ipc T) : nat :=
  match p with
  | FindChunk _ i => (n - i) * 65 + 6
  | FindRefs _ i j => (n - S i) * 65 + 2 * (32 - j) + 6
  | FindVal _ i j _ => (n - S i) * 65 + 2 * (32 - j) + 5
  | PushHead _ => 5 | PushTail _ => 4 | PushLink _ _ => 3
  | IncrDead _ _ _ => 2 | SetVal _ _ _ => 1 | IncrLive _ _ _ => 1
  | GetRefs _ _ => 2 | GetVal _ _ => 1 | Incr _ _ => 1 | Decr _ _ => 1
  | Broken => 0
  end.

Lemma nth_thread cf t q : nth_error (ithreads cf) t <> None -> nth_error (upd (ithreads cf) t q) t = Some q.
Proof. intros H. destruct (nth_error (ithreads cf) t) eqn:E; [|congruence]. eapply nth_upd_same; eauto. Qed.

Lemma set_handle_threads cf n s : ithreads (set_handle cf n s) = ithreads cf.
Proof. unfold set_handle. destruct (nth_error (handles cf) n); reflexivity. Qed.
Lemma unborrow_threads cf n : ithreads (unborrow cf n) = ithreads cf.
Proof. unfold unborrow. destruct (nth_error (handles cf) n) as [[? ? [ ]]|]; auto using set_handle_threads. Qed.
Lemma set_handle_store cf n s : istore (set_handle cf n s) = istore cf.
Proof. unfold set_handle. destruct (nth_error (handles cf) n); reflexivity. Qed.
Lemma unborrow_store cf n : istore (unborrow cf n) = istore cf.
Proof. unfold unborrow. destruct (nth_error (handles cf) n) as [[? ? [ ]]|]; auto using set_handle_store. Qed.
Lemma set_handle_reads cf n s : reads (set_handle cf n s) = reads cf.
Proof. unfold set_handle. destruct (nth_error (handles cf) n); reflexivity. Qed.
Lemma unborrow_reads cf n : reads (unborrow cf n) = reads cf.
Proof. unfold unborrow. destruct (nth_error (handles cf) n) as [[? ? [ ]]|]; auto using set_handle_reads. Qed.

(** A step of thread [t]: the other threads stay where they are. *)
Lemma step_threads cf t p : ithreads (istep eqb dbg cf t p) = ithreads cf \/
  exists q, ithreads (istep eqb dbg cf t p) = upd (ithreads cf) t q.
Proof.
  destruct p; cbn [istep]; unfold with_store, finish, set_thread, add_handle, add_read, set_store;
    repeat (match goal with |- context [match ?x with _ => _ end] => destruct x end; cbn [ithreads]);
    rewrite ?unborrow_threads, ?set_handle_threads; cbn [ithreads]; eauto.
Qed.

Lemma begin_threads cf t c : ithreads (begin_call cf t c) = ithreads cf \/ exists q, ithreads (begin_call cf t c) = upd (ithreads cf) t q.
Proof.
  destruct c; cbn [begin_call]; try (right; eexists; reflexivity);
    destruct (nth_error (handles cf) n) as [[? ? [[|?]| |]]|]; auto; right; eexists; cbn [set_thread ithreads];
    rewrite set_handle_threads; reflexivity.
Qed.

Lemma other_stays cf a t q : nth_error (ithreads cf) t = Some (Some q) -> a <> Go t ->
  nth_error (ithreads (iconf_step eqb dbg cf a)) t = Some (Some q).
Proof.
  intros E Na. destruct a as [u c|u]; cbn [iconf_step].
  - destruct (nth_error (ithreads cf) u) as [[q'|]|] eqn:Eu; try exact E.
    assert (u <> t) by congruence.
    destruct (begin_threads cf u c) as [->|[q' ->]]; [exact E|]. rewrite nth_upd_other by auto. exact E.
  - destruct (nth_error (ithreads cf) u) as [[q'|]|] eqn:Eu; try exact E.
    assert (u <> t) by congruence.
    destruct (step_threads cf u q') as [->|[q2 ->]]; [exact E|]. rewrite nth_upd_other by auto. exact E.
Qed.

(** The call that a thread is inside. *)
Definition call_of (p : ipc T) : option (icall T) :=
  match p with
  | FindChunk v _ | FindRefs v _ _ | FindVal v _ _ _ | IncrLive v _ _ | IncrDead v _ _ | SetVal v _ _
  | PushHead v | PushTail v | PushLink v _ => Some (CAdd v)
  | Incr n _ => Some (CIncr n)
  | Decr n _ => Some (CDecr n)
  | GetRefs n _ | GetVal n _ => Some (CGet n)
  | Broken => None
  end.

(** What the last step of a call does for its caller: [add] and [incr] hand out a handle, [decr] takes one back, [get] gives
    a value. *)
Definition returned (c : icall T) (before after : iconf T) : Prop :=
  match c with
  | CAdd v => exists k, handles after = handles before ++ [Handle k v (Held 0)]
  | CIncr m => exists h, nth_error (handles before) m = Some h /\ length (handles after) = S (length (handles before)) /\
      nth_error (handles after) (length (handles before)) = Some (Handle (hid h) (hval h) (Held 0))
  | CDecr m => exists h, nth_error (handles before) m = Some h /\ hst h = Leaving /\
      handles after = upd (handles before) m (Handle (hid h) (hval h) Gone)
  | CGet m => exists v, reads after = reads before ++ [(m, Some v)]
  end.

Lemma len_upd {B} (l : list B) : forall i x, length (upd l i x) = length l.
Proof. induction l; intros [|i] x; cbn; auto. Qed.

Lemma own_step N n cf t q : iinv N cf -> (Z.of_nat N < 2 ^ 64 - 1)%Z -> nth_error (ithreads cf) t = Some (Some q) ->
  length (istore cf) <= n ->
  (nth_error (ithreads (istep eqb dbg cf t q)) t = Some None /\
     exists c, call_of q = Some c /\ returned c cf (istep eqb dbg cf t q)) \/
  exists q', nth_error (ithreads (istep eqb dbg cf t q)) t = Some (Some q') /\ remaining n q' < remaining n q /\
    call_of q' = call_of q.
Proof.
  intros HI HN Et Hn. pose proof (iinv_istep eqb dbg _ _ _ _ HI HN Et) as HI'.
  assert (nth_error (ithreads (istep eqb dbg cf t q)) t <> Some (Some Broken)) as NB.
  { intros E. exact (ij_pc _ _ HI' _ _ E). }
  pose proof (ij_pc _ _ HI _ _ Et) as Hq. pose proof (ij_reads _ _ HI') as Hr. revert NB Hr.
  destruct q as [v i|v i j|v i j c|v i j|v i j|v i j|v|v|v len|m k|m k|m k|m k|]; cbn [istep pc_in] in *.
  10: { (* incr *) destruct (in_use _ _ _ _ _ _ HI Et (or_introl eq_refl)) as (v & b & En & Cb & Cl).
    unfold with_store. destruct (intern_incr dbg k (istore cf)) as [st'| |];
      [|cbn [set_thread ithreads]; rewrite (nth_upd_same _ _ _ _ Et); intros NB; elim NB; reflexivity..].
    cbn [set_store handles]. rewrite En. intros _ _. left. split.
    - unfold finish, set_thread, add_handle. cbn [ithreads]. rewrite unborrow_threads. cbn [ithreads]. eapply nth_upd_same, Et.
    - exists (CIncr m). split; [reflexivity|]. exists (Handle k v (Held (S b))). split; [exact En|].
      unfold finish, set_thread, add_handle. cbn [handles]. unfold unborrow, set_handle, set_store. cbn [handles]. rewrite !En. cbn [handles hid hval].
      rewrite app_length, len_upd, nth_error_app2, len_upd, Nat.sub_diag by (rewrite len_upd; lia). cbn. split; [lia|reflexivity]. }
  10: { destruct (leaving _ _ _ _ _ HI Et) as (v & En & Cb & Cl).
    unfold with_store. destruct (intern_decr k (istore cf)) as [st'| |];
      [|cbn [set_thread ithreads]; rewrite (nth_upd_same _ _ _ _ Et); intros NB; elim NB; reflexivity..].
    intros _ _. left. unfold finish, set_thread. cbn [ithreads]. rewrite set_handle_threads. split; [eapply nth_upd_same, Et|].
    exists (CDecr m). split; [reflexivity|]. exists (Handle k v Leaving). split; [exact En|]. split; [reflexivity|].
    unfold set_handle. cbn [handles set_store]. rewrite En. reflexivity. }
  all: unfold with_store, finish, set_thread, add_handle, add_read, set_store, chunk_size;
    repeat (match goal with |- context [match ?x with _ => _ end] =>
      lazymatch x with
      | Nat.ltb ?a ?b => destruct (Nat.ltb_spec a b)
      | _ => destruct x end end; cbn [ithreads istore handles reads]);
    rewrite ?unborrow_threads, ?set_handle_threads; cbn [ithreads]; rewrite ?(nth_upd_same _ _ _ _ Et);
    intros NB Hr; try (elim NB; reflexivity); try contradiction;
    try (right; eexists; split; [reflexivity|]; cbn [remaining]; unfold in_range in *; split; [lia|reflexivity]).
  all: left; split; [reflexivity|]; eexists; (split; [reflexivity|]); cbn [returned handles]; eauto.
  - elim (Hr m None); [|reflexivity]. rewrite unborrow_reads. cbn [reads]. apply in_or_app. right. left. reflexivity.
  - eexists. cbn [reads]. rewrite unborrow_reads. reflexivity.
Qed.

Definition own (t : nat) (a : action T) : bool := match a with Go u => Nat.eqb u t | Begin _ _ => false end.

Lemma slot_put_len (st : store T) i j x : length (slot_put st i j x) = length st.
Proof. unfold slot_put. destruct (nth_error st i); auto using len_upd. Qed.
Lemma incr_len st i j st' : incr_inner (T := T) dbg st i j = Ok st' -> length st' = length st.
Proof.
  unfold incr_inner. destruct (slot_at st i j); cbn [bind]; try discriminate.
  destruct (dbg && _); [discriminate|]. intros [= <-]. apply slot_put_len.
Qed.
Lemma decr_len (st : store T) i j st' : decr_inner st i j = Ok st' -> length st' = length st.
Proof. unfold decr_inner. destruct (slot_at st i j); cbn [bind]; try discriminate. intros [= <-]. apply slot_put_len. Qed.
Lemma set_len (st : store T) i j v st' : set_val st i j v = Ok st' -> length st' = length st.
Proof. unfold set_val. destruct (slot_at st i j); cbn [bind]; try discriminate. intros [= <-]. apply slot_put_len. Qed.

(** Only an append changes the number of chunks. *)
Definition appends cf (q : ipc T) : bool :=
  match q with PushHead _ => match istore cf with [] => true | _ => false end | PushLink _ _ => true | _ => false end.

Lemma step_store cf t q : length (istore (istep eqb dbg cf t q)) = (if appends cf q then 1 else 0) + length (istore cf).
Proof.
  destruct q; cbn [istep appends]; unfold with_store, finish, set_thread, add_handle, add_read, set_store, intern_incr, intern_decr;
    repeat (match goal with |- context [match ?x with _ => _ end] => let E := fresh "E" in destruct x eqn:E end; cbn [ithreads istore handles reads]);
    rewrite ?unborrow_store, ?set_handle_store; cbn [istore]; try reflexivity;
    try (apply incr_len in E || apply decr_len in E || apply set_len in E || (apply incr_len in E0) || (apply decr_len in E0); assumption).
  - rewrite app_length. cbn. lia.
Qed.

Lemma begin_store cf t c : istore (begin_call cf t c) = istore cf.
Proof.
  destruct c; cbn [begin_call]; try reflexivity;
    destruct (nth_error (handles cf) n) as [[? ? [[|?]| |]]|]; auto; cbn [set_thread istore]; apply set_handle_store.
Qed.

Lemma conf_store cf a : length (istore cf) <= length (istore (iconf_step eqb dbg cf a)).
Proof.
  destruct a as [u c|u]; cbn [iconf_step]; destruct (nth_error (ithreads cf) u) as [[q'|]|]; auto.
  - rewrite begin_store. auto.
  - rewrite step_store. lia.
Qed.

Lemma exec_store acts : forall cf, length (istore cf) <= length (istore (iexec eqb dbg acts cf)).
Proof.
  induction acts as [|a acts IH]; intros cf; [auto|]. cbn [iexec fold_left]. etransitivity; [apply (conf_store cf a)|apply IH].
Qed.

Lemma finishes later : forall N cf t q, iinv N cf -> counts_fit eqb dbg cf later ->
  nth_error (ithreads cf) t = Some (Some q) ->
  remaining (length (istore (iexec eqb dbg later cf))) q <= length (filter (own t) later) ->
  exists l1 l2 q' c, later = l1 ++ Go t :: l2 /\ call_of q = Some c /\
    nth_error (ithreads (iexec eqb dbg l1 cf)) t = Some (Some q') /\
    nth_error (ithreads (iexec eqb dbg (l1 ++ [Go t]) cf)) t = Some None /\
    call_of q' = Some c /\ returned c (iexec eqb dbg l1 cf) (iexec eqb dbg (l1 ++ [Go t]) cf).
Proof.
  induction later as [|a later IH]; intros N cf t q HI HF Et Hr.
  - exfalso. cbn in Hr. pose proof (ij_pc _ _ HI _ _ Et) as P. destruct q; cbn in Hr, P; try lia; contradiction.
  - assert (HI1 : iinv full cf) by (apply (iinv_full N); [exact HI|]; intros k; apply (HF [] (a :: later)); reflexivity).
    assert (HN : (Z.of_nat full < 2 ^ 64 - 1)%Z) by (rewrite full_val; lia).
    pose proof (iinv_conf_step eqb dbg _ _ a HI1 HN) as HI2.
    assert (HF2 : counts_fit eqb dbg (iconf_step eqb dbg cf a) later).
    { intros a1 a2 k E. apply (HF (a :: a1) a2). rewrite E. reflexivity. }
    change (iexec eqb dbg (a :: later) cf) with (iexec eqb dbg later (iconf_step eqb dbg cf a)) in Hr.
    assert (a = Go t \/ a <> Go t) as [->|Na].
    { destruct a as [u c|u]; [right; discriminate|]. destruct (Nat.eq_dec u t); [left; congruence|right; congruence]. }
    + cbn [filter own] in Hr. rewrite Nat.eqb_refl in Hr. cbn [length] in Hr.
      pose proof (exec_store (Go t :: later) cf) as L.
      change (iexec eqb dbg (Go t :: later) cf) with (iexec eqb dbg later (iconf_step eqb dbg cf (Go t))) in L.
      destruct (own_step _ _ _ _ _ HI1 HN Et L) as [(E & c & Ec & R)|(q' & E & Lt & Ec)].
      * exists [], later, q, c. split; [reflexivity|]. split; [exact Ec|]. split; [exact Et|].
        cbn [app iexec fold_left iconf_step]. rewrite Et. auto.
      * assert (iconf_step eqb dbg cf (Go t) = istep eqb dbg cf t q) as Es by (cbn [iconf_step]; rewrite Et; reflexivity).
        rewrite Es in *. destruct (IH _ _ _ _ HI2 HF2 E ltac:(lia)) as (l1 & l2 & q2 & c & El & Ec2 & E1 & E2 & Ec3 & R).
        exists (Go t :: l1), l2, q2, c. cbn [app iexec fold_left]. rewrite Es.
        split; [rewrite El; reflexivity|]. split; [congruence|]. auto.
    + assert (own t a = false) as Eo.
      { destruct a as [u c|u]; [reflexivity|]. cbn. apply Nat.eqb_neq. congruence. }
      cbn [filter] in Hr. rewrite Eo in Hr.
      destruct (IH _ _ _ _ HI2 HF2 (other_stays _ _ _ _ Et Na) Hr) as (l1 & l2 & q2 & c & El & Ec2 & E1 & E2 & Ec3 & R).
      exists (a :: l1), l2, q2, c. cbn [app iexec fold_left]. split; [rewrite El; reflexivity|]. auto.
Qed.

(** A call appends at most once. *)
Definition may_append (p : option (ipc T)) : nat :=
  match p with
  | Some (FindChunk _ _) | Some (FindRefs _ _ _) | Some (FindVal _ _ _ _) | Some (PushHead _) | Some (PushTail _)
  | Some (PushLink _ _) => 1
  | _ => 0
  end.

Lemma own_append cf t q p' : nth_error (ithreads cf) t = Some (Some q) -> nth_error (ithreads (istep eqb dbg cf t q)) t = Some p' ->
  (if appends cf q then 1 else 0) + may_append p' <= may_append (Some q).
Proof.
  intros Et. destruct q; cbn [istep appends]; unfold with_store, finish, set_thread, add_handle, add_read, set_store, intern_incr, intern_decr;
    repeat (match goal with |- context [match ?x with _ => _ end] => destruct x end; cbn [ithreads istore handles reads]);
    rewrite ?unborrow_threads, ?set_handle_threads; cbn [ithreads]; rewrite ?(nth_upd_same _ _ _ _ Et), ?Et; intros [= <-]; cbn; lia.
Qed.

Lemma solo_append t k : forall cf p, nth_error (ithreads cf) t = Some p ->
  length (istore (iexec eqb dbg (repeat (Go t) k) cf)) <= length (istore cf) + may_append p.
Proof.
  induction k as [|k IH]; intros cf p Et; [cbn; lia|].
  cbn [repeat iexec fold_left]. change (fold_left _ (repeat (Go t) k) ?c) with (iexec eqb dbg (repeat (Go t) k) c).
  cbn [iconf_step]. rewrite Et. destruct p as [q|]; [|apply IH; exact Et].
  destruct (nth_error (ithreads (istep eqb dbg cf t q)) t) as [p'|] eqn:E.
  - specialize (IH _ _ E). rewrite step_store in IH. pose proof (own_append _ _ _ _ Et E). lia.
  - exfalso. destruct (step_threads cf t q) as [X|[q2 X]]; rewrite X in E; [congruence|]. rewrite (nth_upd_same _ _ _ _ Et) in E. discriminate.
Qed.

Lemma filter_own t k : length (filter (own t) (repeat (Go t) k)) = k.
Proof. induction k; [reflexivity|]. cbn [repeat filter own]. rewrite Nat.eqb_refl. cbn. auto. Qed.

Lemma remaining_bound n st hs (q : ipc T) : pc_in st hs q -> length st <= n -> remaining n q <= 65 * n + 6.
Proof. destruct q; cbn [remaining pc_in]; unfold in_range; lia. Qed.
End Progress.

(** C165: a call of [add], [incr], [decr] or [get] returns within 65n + 6 steps of its own thread, whatever the other threads
    do meanwhile, where n is the number of chunks that the interner has reached by then; and it returns what it should: [add] and
    [incr] a handle, [get] a value. *)
Theorem C165_returns_among_others : forall (T : Type) (eqb : T -> T -> bool) dbg n capacity (acts later : list (action T)) t p,
  counts_fit eqb dbg (iinitial n capacity) (acts ++ later) ->
  let cf := iexec eqb dbg acts (iinitial n capacity) in
  nth_error (ithreads cf) t = Some (Some p) ->
  65 * length (istore (iexec eqb dbg later cf)) + 6 <= length (filter (own t) later) ->
  exists l1 l2 c, later = l1 ++ Go t :: l2 /\ call_of p = Some c /\
    (let before := iexec eqb dbg l1 cf in let after := iexec eqb dbg (l1 ++ [Go t]) cf in
     nth_error (ithreads before) t <> Some None /\ nth_error (ithreads after) t = Some None /\ returned c before after).
Proof.
  intros T eqb dbg n capacity acts later t p HF cf Et Hl.
  assert (counts_fit eqb dbg (iinitial n capacity) acts) as HF1.
  { intros a1 a2 k E. apply (HF a1 (a2 ++ later)). rewrite E, app_assoc. reflexivity. }
  destruct (run_inv eqb dbg n capacity acts HF1) as [N HI]. fold cf in HI.
  assert (counts_fit eqb dbg cf later) as HF2.
  { intros a1 a2 k E. unfold cf, iexec. rewrite <- fold_left_app. apply (HF (acts ++ a1) a2). rewrite E, app_assoc. reflexivity. }
  destruct (finishes eqb dbg later N cf t p HI HF2 Et) as (l1 & l2 & q' & c & El & Ec & E1 & E2 & _ & R).
  { etransitivity; [|exact Hl]. apply (remaining_bound _ (istore cf) (handles cf)); [apply (ij_pc _ _ HI _ _ Et)|apply exec_store]. }
  exists l1, l2, c. repeat split; auto. congruence.
Qed.
Print Assumptions C165_returns_among_others.

(** In particular a call that is left to run alone returns. *)
Theorem C165_runs_alone : forall (T : Type) (eqb : T -> T -> bool) dbg n capacity (acts : list (action T)) t p,
  let cf := iexec eqb dbg acts (iinitial n capacity) in
  let m := 65 * (length (istore cf) + 1) + 6 in
  counts_fit eqb dbg (iinitial n capacity) (acts ++ repeat (Go t) m) ->
  nth_error (ithreads cf) t = Some (Some p) ->
  exists k c, k < m /\ call_of p = Some c /\
    nth_error (ithreads (iexec eqb dbg (repeat (Go t) (k + 1)) cf)) t = Some None /\
    returned c (iexec eqb dbg (repeat (Go t) k) cf) (iexec eqb dbg (repeat (Go t) (k + 1)) cf).
Proof.
  intros T eqb dbg n capacity acts t p cf m HF Et.
  destruct (C165_returns_among_others T eqb dbg n capacity acts (repeat (Go t) m) t p HF Et) as (l1 & l2 & c & El & Ec & E1 & E2 & R).
  - fold cf. rewrite filter_own. pose proof (solo_append eqb dbg t m cf (Some p) Et) as L.
    assert (may_append (Some p) <= 1) by (destruct p; cbn; lia).
    set (X := length (istore (iexec eqb dbg (repeat (Go t) m) cf))) in *. clearbody X. unfold m. lia.
  - assert (l1 = repeat (Go t) (length l1)) as E.
    { assert (Forall (fun x => x = Go (T := T) t) (repeat (Go t) m)) as F by (apply Forall_forall; intros x Hx; eapply repeat_spec; exact Hx).
      rewrite El in F. apply Forall_app in F. destruct F as [F _]. clear - F. induction F; [reflexivity|]. cbn. congruence. }
    assert (length l1 < m) as L.
    { apply (f_equal (@length _)) in El. rewrite repeat_length, app_length in El. cbn in El. lia. }
    exists (length l1), c. rewrite repeat_app. cbn [repeat]. rewrite <- E. auto.
Qed.
Print Assumptions C165_runs_alone.

(** A thread in the middle of an [add] that was overtaken by another one. *)
Definition overtaken : list (action Z) :=
  [Begin 0 (CAdd 5%Z); Go 0; Begin 1 (CAdd 7%Z)] ++ repeat (Go 1) 8.
Example C165_case :
  let cf := iexec Z.eqb true overtaken (iinitial 2 0) in
  counts_fit Z.eqb true (iinitial 2 0) (overtaken ++ repeat (Go 0) 200) /\
  exists p, nth_error (ithreads cf) 0 = Some (Some p) /\ call_of p = Some (CAdd 5%Z) /\ length (handles cf) = 1 /\
  65 * length (istore (iexec Z.eqb true (repeat (Go 0) 200) cf)) + 6 <= length (filter (own 0) (repeat (Go (T := Z) 0) 200)).
Proof.
  cbv zeta. split; [apply counts_fit_short; vm_compute; reflexivity|]. eexists. split; [vm_compute; reflexivity|].
  split; [reflexivity|]. split; [vm_compute; reflexivity|]. apply Nat.leb_le. vm_compute. reflexivity.
Qed.

(** * C166: the size of the shared interner *)

(** Handles that have not been given back. *)
Definition live {T} (cf : iconf T) : nat :=
  length (filter (fun h => match hst h with Gone => false | _ => true end) (handles cf)).

Section Storage.
Context {T : Type} (eqb : T -> T -> bool) (dbg : bool).
Implicit Types (cf : iconf T).

Definition alive (hs : list (handle T)) (k : Z) : Prop := exists n h, nth_error hs n = Some h /\ hid h = k /\ hst h <> Gone.

Lemma alive_pigeon (hs : list (handle T)) m : (forall k, k < m -> alive hs (Z.of_nat k)) ->
  m <= length (filter (fun h => match hst h with Gone => false | _ => true end) hs).
Proof.
  intros H. set (l := map Z.of_nat (seq 0 m)). replace m with (length l) by (unfold l; rewrite map_length, seq_length; reflexivity).
  rewrite <- (map_length hid). apply NoDup_incl_length.
  - apply Injective_map_NoDup; [intros a b; apply Nat2Z.inj|apply seq_NoDup].
  - intros z Hz. apply in_map_iff in Hz. destruct Hz as (k & <- & Hk). apply in_seq in Hk. destruct (H k ltac:(lia)) as (n & h & E & <- & Hg).
    apply in_map, filter_In. split; [eapply nth_error_In; exact E|]. destruct (hst h); auto; congruence.
Qed.

Lemma alive_held cf k : alive (handles cf) k <-> 0 < cnt (hw k) (handles cf).
Proof.
  split.
  - intros (n & h & E & Ek & Hg). apply (cnt_pos _ _ _ _ E). unfold hw. rewrite Ek, Z.eqb_refl. destruct (hst h); auto; congruence.
  - intros H. unfold cnt in H. destruct (filter (hw k) (handles cf)) as [|h l] eqn:E; [cbn in H; lia|].
    assert (In h (filter (hw k) (handles cf))) as Hin by (rewrite E; left; reflexivity). apply filter_In in Hin. destruct Hin as [Hin Hw].
    apply In_nth_error in Hin. destruct Hin as [n En]. exists n, h. split; [exact En|]. unfold hw in Hw. apply andb_true_iff in Hw.
    destruct Hw as [W1 W2]. apply Z.eqb_eq in W1. split; [exact W1|]. destruct (hst h); congruence.
Qed.

Lemma alive_upd hs n k v s s' z : nth_error hs n = Some (Handle k v s) -> s <> Gone -> alive (upd hs n (Handle k v s')) z -> alive hs z.
Proof.
  intros En Hs (m & h & E & Ek & Hg). apply nth_upd_cases in E. destruct E as [(-> & ->)|[_ E]].
  - exists n, (Handle k v s). auto.
  - exists m, h. auto.
Qed.

Lemma alive_set cf n s s' k v z : nth_error (handles cf) n = Some (Handle k v s) -> s <> Gone -> alive (handles (set_handle cf n s')) z ->
  alive (handles cf) z.
Proof. intros En Hs. unfold set_handle. rewrite En. cbn [handles hid hval]. eapply alive_upd; eauto. Qed.

(** Steps outside [add] bring no id to life. *)
Lemma others_alive N cf u q z : iinv N cf -> nth_error (ithreads cf) u = Some (Some q) -> adding (Some q) = false ->
  alive (handles (istep eqb dbg cf u q)) z -> alive (handles cf) z.
Proof.
  intros HI Eu Ha. destruct q as [v i|v i j|v i j c|v i j|v i j|v i j|v|v|v len|m k|m k|m k|m k|]; cbn in Ha; try discriminate; cbn [istep].
  - destruct (in_use _ _ _ _ _ _ HI Eu (or_introl eq_refl)) as (v & b & En & Cb & Cl).
    unfold with_store. destruct (intern_incr dbg k (istore cf)) as [st'| |]; auto.
    cbn [set_store handles]. rewrite En. unfold finish, set_thread, add_handle, unborrow, set_handle, set_store. cbn [handles]. rewrite !En. cbn [handles hid hval].
    intros (n & h & E & Ek & Hg). destruct (Nat.lt_ge_cases n (length (upd (handles cf) m (Handle k v (Held (S b - 1)))))) as [L|L].
    + rewrite nth_error_app1 in E by exact L. eapply alive_upd; [exact En|discriminate|]. exists n, h. eauto.
    + rewrite nth_error_app2 in E by exact L. destruct (n - _) as [|[|x]]; try discriminate. injection E as <-. cbn in Ek. subst z.
      exists m, (Handle k v (Held (S b))). split; [exact En|]. split; [reflexivity|discriminate].
  - destruct (leaving _ _ _ _ _ HI Eu) as (v & En & Cb & Cl).
    unfold with_store. destruct (intern_decr k (istore cf)) as [st'| |]; auto.
    unfold finish, set_thread, set_handle, set_store. cbn [handles]. rewrite En. cbn [handles hid hval]. eapply alive_upd; [exact En|discriminate].
  - destruct (in_use _ _ _ _ _ _ HI Eu (or_intror (or_introl eq_refl))) as (v & b & En & Cb & Cl).
    destruct (refcount (istore cf) k); auto. destruct (_ =? 0)%Z; auto.
    unfold finish, set_thread, add_read, unborrow, set_handle. cbn [handles]. rewrite !En. cbn [handles hid hval]. eapply alive_upd; [exact En|discriminate].
  - destruct (in_use _ _ _ _ _ _ HI Eu (or_intror (or_intror eq_refl))) as (v & b & En & Cb & Cl).
    destruct (offset_to_idx k) as [i j]. destruct (slot_at (istore cf) i j) as [s| |]; auto. destruct (cont s) as [y|]; auto.
    unfold finish, set_thread, add_read, unborrow, set_handle. cbn [handles]. rewrite !En. cbn [handles hid hval]. eapply alive_upd; [exact En|discriminate].
  - auto.
Qed.

Lemma begin_alive cf t c z : alive (handles (begin_call cf t c)) z -> alive (handles cf) z.
Proof.
  destruct c as [v|n|n|n]; cbn [begin_call]; auto;
    destruct (nth_error (handles cf) n) as [[k v [[|b]| |]]|] eqn:En; auto; cbn [set_thread handles]; eapply alive_set; eauto; discriminate.
Qed.

(** Slots that a call of [add] has passed because they were in use. *)
Definition scanned cf (q : ipc T) : nat :=
  match q with
  | FindChunk _ i => 32 * i
  | FindRefs _ i j => 32 * i + j
  | FindVal _ i j c => 32 * i + j + (if (c =? 0)%Z then 0 else 1)
  | PushHead _ | PushTail _ | PushLink _ _ => 32 * length (istore cf)
  | _ => 0
  end.

Definition before_scan (run : list (action T) -> iconf T) (acts : list (action T)) (q : ipc T) : Prop :=
  exists a0 a1, acts = a0 ++ a1 /\ (forall z, alive (handles (run acts)) z -> alive (handles (run a0)) z) /\
    forall k, k < scanned (run acts) q -> alive (handles (run a0)) (Z.of_nat k).

Lemma only_adder cf t u q p : length (filter adding (ithreads cf)) <= 1 -> nth_error (ithreads cf) t = Some q -> adding q = true ->
  nth_error (ithreads cf) u = Some p -> u <> t -> adding p = false.
Proof.
  intros H1 Et Ha Eu Hn. destruct (adding p) eqn:E; [|reflexivity]. pose proof (cnt_two adding _ _ _ _ _ Hn Eu Et E Ha) as H.
  unfold cnt in H. lia.
Qed.

Lemma no_arriving cf t q k : length (filter adding (ithreads cf)) <= 1 -> nth_error (ithreads cf) t = Some q -> adding q = true ->
  arr k q = false -> cnt (arr k) (ithreads cf) = 0.
Proof.
  intros H1 Et Ha Hq. apply cnt_zero. intros p Hp. apply In_nth_error in Hp. destruct Hp as [u Eu].
  destruct (Nat.eq_dec u t) as [->|Hn]; [congruence|]. pose proof (only_adder _ _ _ _ _ H1 Et Ha Eu Hn) as A.
  destruct p as [[]|]; cbn in *; auto; discriminate.
Qed.

Definition sized n0 (run : list (action T) -> iconf T) acts : Prop :=
  length (istore (run acts)) <= n0 \/
  exists a0 a1, acts = a0 ++ a1 /\ 32 * length (istore (run acts)) <= live (run a0) + 32.

Lemma own_scan N (run : list (action T) -> iconf T) acts t q q' cf' : iinv N (run acts) ->
  length (filter adding (ithreads (run acts))) <= 1 -> nth_error (ithreads (run acts)) t = Some (Some q) -> adding (Some q) = true ->
  before_scan run acts q -> cf' = istep eqb dbg (run acts) t q -> run (acts ++ [Go t]) = cf' ->
  nth_error (ithreads cf') t = Some (Some q') -> adding (Some q') = true ->
  before_scan run (acts ++ [Go t]) q'.
Proof.
  intros HI H1 Et Ha (a0 & a1 & Ea & Hal & Hsc) -> Er E' Ha'. exists a0, (a1 ++ [Go t]). split; [rewrite Ea, app_assoc; reflexivity|].
  rewrite Er. pose proof (ij_pc _ _ HI _ _ Et) as Hq.
  assert (handles (istep eqb dbg (run acts) t q) = handles (run acts) /\
          (forall k, k < scanned (istep eqb dbg (run acts) t q) q' -> k < scanned (run acts) q \/ alive (handles (run acts)) (Z.of_nat k))) as [Eh Hk].
  2: { rewrite Eh. split; [exact Hal|]. intros k Hlt. destruct (Hk k Hlt) as [H|H]; auto. }
  clear Er Hal Hsc. revert E'.
  destruct q as [v i|v i j|v i j c|v i j|v i j|v i j|v|v|v len|m k|m k|m k|m k|]; cbn in Ha; try discriminate; cbn [istep pc_in] in *.
  - destruct (Nat.ltb_spec i (length (istore (run acts)))) as [L|L]; cbn [set_thread ithreads istore handles]; rewrite (nth_upd_same _ _ _ _ Et);
      intros [= <-]; (split; [reflexivity|]); intros k Hlt; cbn [scanned set_thread istore] in *; left; lia.
  - destruct (in_range_slot _ _ _ (ij_shape _ _ HI) Hq) as [s Es]. rewrite slot_at_of by (apply Hq || apply (ij_shape _ _ HI)). rewrite Es. cbn [unwrap].
    cbn [set_thread ithreads istore handles]. rewrite (nth_upd_same _ _ _ _ Et). intros [= <-]. split; [reflexivity|]. intros k Hlt. cbn [scanned set_thread istore] in *.
    destruct (Nat.lt_ge_cases k (32 * i + j)) as [L|L]; [left; exact L|right].
    destruct (Z.eqb_spec (refs s) 0) as [_|Hr]; [lia|]. replace (Z.of_nat k) with (idx_to_offset i j) by (unfold idx_to_offset; lia).
    apply alive_held. pose proof (ij_refs _ _ HI _ _ (offset_nonneg i j) Es) as R.
    rewrite (no_arriving _ _ _ (idx_to_offset i j) H1 Et eq_refl eq_refl) in R. lia.
  - destruct (in_range_slot _ _ _ (ij_shape _ _ HI) Hq) as [s Es]. rewrite slot_at_of by (apply Hq || apply (ij_shape _ _ HI)). rewrite Es. cbn [unwrap].
    destruct (match cont s with Some cur => eqb v cur | None => false end);
      [|destruct (Z.eqb_spec c 0); [|unfold chunk_size; destruct (Nat.ltb_spec (S j) 32)]];
      cbn [set_thread ithreads istore handles]; rewrite (nth_upd_same _ _ _ _ Et); intros [= <-]; (split; [reflexivity|]); intros k Hlt;
      cbn [scanned set_thread istore] in *; rewrite ?(proj2 (Z.eqb_neq c 0)) by assumption; destruct Hq; left; lia.
  - unfold with_store. destruct (incr_inner dbg (istore (run acts)) i j); cbn [finish set_thread add_handle ithreads];
      rewrite (nth_upd_same _ _ _ _ Et); intros [= <-]; discriminate.
  - unfold with_store. destruct (incr_inner dbg (istore (run acts)) i j); cbn [finish set_thread set_store add_handle ithreads handles];
      rewrite (nth_upd_same _ _ _ _ Et); intros [= <-]; try discriminate. split; [reflexivity|]. cbn. intros; lia.
  - unfold with_store. destruct (set_val (istore (run acts)) i j v); cbn [finish set_thread add_handle ithreads];
      rewrite (nth_upd_same _ _ _ _ Et); intros [= <-]; discriminate.
  - destruct (istore (run acts)) eqn:Est; cbn [set_thread set_store ithreads handles istore]; rewrite (nth_upd_same _ _ _ _ Et); intros [= <-];
      (split; [reflexivity|]); cbn [scanned set_thread istore]; rewrite ?Est; intros; auto.
  - cbn [set_thread set_store ithreads handles istore]; rewrite (nth_upd_same _ _ _ _ Et); intros [= <-]; split; [reflexivity|]; cbn [scanned set_thread istore]; auto.
  - cbn [set_thread set_store ithreads handles istore]; rewrite (nth_upd_same _ _ _ _ Et); intros [= <-]; split; [reflexivity|]; cbn; intros; lia.
Qed.

Lemma storage n capacity (run := fun acts => iexec eqb dbg acts (iinitial n capacity)) acts :
  counts_fit eqb dbg (iinitial n capacity) acts -> one_adder eqb dbg (iinitial n capacity) acts ->
  sized (Nat.div (capacity + 31) 32) run acts /\
  forall t q, nth_error (ithreads (run acts)) t = Some (Some q) -> adding (Some q) = true -> before_scan run acts q.
Proof.
  induction acts as [|a acts IH] using rev_ind; intros HF H1.
  - split.
    + left. change (length (repeat (new_chunk (T := T)) (Nat.div (capacity + 32 - 1) 32)) <= Nat.div (capacity + 31) 32). rewrite repeat_length. apply Nat.div_le_mono; lia.
    + intros t q E. cbn in E. apply nth_error_In, repeat_spec in E. discriminate.
  - assert (counts_fit eqb dbg (iinitial n capacity) acts) as HF1.
    { intros a1 a2 k E. apply (HF a1 (a2 ++ [a])). rewrite E, app_assoc. reflexivity. }
    assert (one_adder eqb dbg (iinitial n capacity) acts) as H2.
    { intros a1 a2 E. apply (H1 a1 (a2 ++ [a])). rewrite E, app_assoc. reflexivity. }
    specialize (IH HF1 H2). destruct IH as [IS IB].
    destruct (run_inv eqb dbg n capacity acts HF1) as [N HI]. change (iexec eqb dbg acts (iinitial n capacity)) with (run acts) in HI.
    assert (run (acts ++ [a]) = iconf_step eqb dbg (run acts) a) as Er by (unfold run, iexec; rewrite fold_left_app; reflexivity).
    assert (length (filter adding (ithreads (run acts))) <= 1) as L1 by (apply (H2 acts []); rewrite app_nil_r; reflexivity).
    assert (length (filter adding (ithreads (run (acts ++ [a])))) <= 1) as L2 by (apply (H1 (acts ++ [a]) []); rewrite app_nil_r; reflexivity).
    assert (forall t, a = Go t \/ (exists c, a = Begin t c) \/ match a with Go u | Begin u _ => u <> t end) as Ht.
    { intros t. destruct a as [u c|u]; destruct (Nat.eq_dec u t) as [->|]; eauto. }
    split.
    + (* the size *)
      assert (sized (Nat.div (capacity + 31) 32) run (acts ++ [a]) \/ length (istore (run (acts ++ [a]))) <> length (istore (run acts))) as [|NE]; [|exact H|].
      { destruct (Nat.eq_dec (length (istore (run (acts ++ [a])))) (length (istore (run acts)))) as [E|]; [left|right; assumption].
        destruct IS as [IS|(a0 & a1 & Ea & IS)]; [left; lia|]. right. exists a0, (a1 ++ [a]). split; [rewrite Ea, app_assoc; reflexivity|]. rewrite E. exact IS. }
      rewrite Er in NE. destruct a as [u c|u]; cbn [iconf_step] in NE; destruct (nth_error (ithreads (run acts)) u) as [[q|]|] eqn:Eu; try congruence.
      * rewrite begin_store in NE. congruence.
      * rewrite step_store in NE. destruct (appends (run acts) q) eqn:Ap; [|elim NE; reflexivity].
        assert (length (istore (run (acts ++ [Go u]))) = S (length (istore (run acts)))) as El.
        { rewrite Er. cbn [iconf_step]. rewrite Eu, step_store, Ap. reflexivity. }
        assert (adding (Some q) = true) as Ad by (destruct q; try discriminate Ap; reflexivity).
        destruct (IB _ _ Eu Ad) as (a0 & a1 & Ea & Hal & Hsc). right. exists a0, (a1 ++ [Go u]). split; [rewrite Ea, app_assoc; reflexivity|].
        rewrite El. enough (32 * length (istore (run acts)) <= live (run a0)) by lia. unfold live. apply alive_pigeon.
        intros k Hk. apply Hsc. destruct q; try discriminate Ap; exact Hk.
    + intros t q E Ad. rewrite Er in E.
      assert (nth_error (ithreads (run acts)) t = Some (Some q) -> a <> Go t -> before_scan run (acts ++ [a]) q) as Same.
      { intros E0 Na. destruct (IB _ _ E0 Ad) as (a0 & a1 & Ea & Hal & Hsc). exists a0, (a1 ++ [a]). split; [rewrite Ea, app_assoc; reflexivity|].
        assert (alive (handles (run (acts ++ [a]))) = alive (handles (run (acts ++ [a])))) by reflexivity.
        assert (forall z, alive (handles (run (acts ++ [a]))) z -> alive (handles (run acts)) z) as Sh.
        { intros z. rewrite Er. destruct a as [u c|u]; cbn [iconf_step]; destruct (nth_error (ithreads (run acts)) u) as [[q'|]|] eqn:Eu; auto.
          - apply begin_alive.
          - apply (others_alive N); auto. apply (only_adder _ _ _ _ _ L1 E0 Ad Eu). congruence. }
        split; [auto|]. intros k Hk. apply Hsc.
        replace (scanned (run acts) q) with (scanned (run (acts ++ [a])) q); [exact Hk|].
        assert (length (istore (run (acts ++ [a]))) = length (istore (run acts))) as El.
        { rewrite Er. destruct a as [u c|u]; cbn [iconf_step]; destruct (nth_error (ithreads (run acts)) u) as [[q'|]|] eqn:Eu; auto.
          - rewrite begin_store. reflexivity.
          - rewrite step_store. assert (adding (Some q') = false) as A by (apply (only_adder _ _ _ _ _ L1 E0 Ad Eu); congruence).
            destruct q'; try discriminate A; reflexivity. }
        destruct q; cbn [scanned]; rewrite ?El; reflexivity. }
      destruct (Ht t) as [->|[[c ->]|No]].
      * cbn [iconf_step] in E. destruct (nth_error (ithreads (run acts)) t) as [[q0|]|] eqn:E0; try congruence.
        assert (adding (Some q0) = true) as Ad0.
        { destruct q0; try reflexivity; exfalso; revert E; cbn [istep]; unfold with_store, finish, set_thread, add_handle, add_read, set_store;
            repeat (match goal with |- context [match ?x with _ => _ end] => destruct x end; cbn [ithreads istore handles reads]);
            rewrite ?unborrow_threads, ?set_handle_threads; cbn [ithreads]; rewrite ?(nth_upd_same _ _ _ _ E0), ?E0; intros [= <-]; discriminate Ad. }
        eapply (own_scan N); eauto. rewrite Er. cbn [iconf_step]. rewrite E0. reflexivity.
      * cbn [iconf_step] in E. destruct (nth_error (ithreads (run acts)) t) as [[q0|]|] eqn:E0.
        -- apply Same; [congruence|discriminate].
        -- exists (acts ++ [Begin t c]), []. split; [rewrite app_nil_r; reflexivity|]. split; [auto|].
           assert (scanned (run (acts ++ [Begin t c])) q = 0) as ->; [|intros; lia].
           destruct c as [v|m|m|m]; cbn [begin_call] in E.
           ++ cbn [set_thread ithreads] in E. rewrite (nth_upd_same _ _ _ _ E0) in E. injection E as <-. reflexivity.
           ++ exfalso. destruct (nth_error (handles (run acts)) m) as [[? ? [[|?]| |]]|]; try congruence; cbn [set_thread ithreads] in E;
                rewrite set_handle_threads, (nth_upd_same _ _ _ _ E0) in E; injection E as <-; discriminate Ad.
           ++ exfalso. destruct (nth_error (handles (run acts)) m) as [[? ? [[|?]| |]]|]; try congruence; cbn [set_thread ithreads] in E;
                rewrite set_handle_threads, (nth_upd_same _ _ _ _ E0) in E; injection E as <-; discriminate Ad.
           ++ exfalso. destruct (nth_error (handles (run acts)) m) as [[? ? [[|?]| |]]|]; try congruence; cbn [set_thread ithreads] in E;
                rewrite set_handle_threads, (nth_upd_same _ _ _ _ E0) in E; injection E as <-; discriminate Ad.
        -- congruence.
      * assert (a <> Go t) as Na by (destruct a; congruence). apply Same; [|exact Na].
        destruct a as [u c|u]; cbn [iconf_step] in E; destruct (nth_error (ithreads (run acts)) u) as [[q'|]|] eqn:Eu; try exact E.
        -- destruct (begin_threads (run acts) u c) as [X|[q2 X]]; rewrite X in E; [exact E|]. rewrite nth_upd_other in E by auto. exact E.
        -- destruct (step_threads eqb dbg (run acts) u q') as [X|[q2 X]]; rewrite X in E; [exact E|]. rewrite nth_upd_other in E by auto. exact E.
Qed.

End Storage.

(** C166 as stated -- the interner never has 32 slots more than it needs, beyond the capacity it was made with -- is false when
    calls of [add] overlap: four threads that find the interner empty each append a chunk. *)
Definition four_adds : list (action Z) :=
  map (fun t => Begin t (CAdd (Z.of_nat t))) [0; 1; 2; 3] ++ concat (repeat [Go 0; Go 1; Go 2; Go 3] 8).

Theorem C166_bounded_refuted : exists acts,
  let run a := iexec Z.eqb true a (iinitial 4 0) in
  (forall a1 a2, acts = a1 ++ a2 -> live (run a1) <= 4) /\ length (istore (run acts)) = 4.
Proof.
  exists four_adds. cbv zeta. split; [|vm_compute; reflexivity].
  assert (H : forallb (fun k => Nat.leb (live (iexec Z.eqb true (firstn k four_adds) (iinitial 4 0))) 4)
                      (seq 0 (S (length four_adds))) = true) by (vm_compute; reflexivity).
  intros a1 a2 E. rewrite forallb_forall in H. specialize (H (length a1)).
  rewrite E, firstn_app, Nat.sub_diag, firstn_all, app_nil_r in H. apply Nat.leb_le, H.
  apply in_seq. rewrite app_length. lia.
Qed.
Print Assumptions C166_bounded_refuted.

(** As long as calls of [add] do not overlap each other (other calls may overlap them and each other), the interner either has
    not grown, or its slots are at most 32 more than the handles that were out at some one moment.  Missing: overlapping calls
    of [add]. *)
Theorem C166_bounded_partial : forall (T : Type) (eqb : T -> T -> bool) dbg n capacity (acts : list (action T)),
  counts_fit eqb dbg (iinitial n capacity) acts -> one_adder eqb dbg (iinitial n capacity) acts ->
  let run a := iexec eqb dbg a (iinitial n capacity) in
  length (istore (run acts)) = Nat.div (capacity + 31) 32 \/
  exists a1 a2, acts = a1 ++ a2 /\ 32 * length (istore (run acts)) <= live (run a1) + 32.
Proof.
  intros T eqb dbg n capacity acts HF H1 run. destruct (storage eqb dbg n capacity acts HF H1) as [[H|H] _]; [left|right; exact H].
  pose proof (exec_store eqb dbg acts (iinitial n capacity)) as L.
  assert (length (istore (iinitial (T := T) n capacity)) = Nat.div (capacity + 31) 32) as E.
  { cbn [iinitial istore]. unfold with_capacity, chunk_size. rewrite repeat_length. f_equal. lia. }
  rewrite E in L. apply Nat.le_antisymm; [exact H|exact L].
Qed.
Print Assumptions C166_bounded_partial.

(** Thirty-three values added by one thread while another reads. *)
Definition keep33 : list (action Z) :=
  concat (map (fun v => Begin 0 (CAdd (Z.of_nat v)) :: Begin 1 (CGet 0) :: concat (repeat [Go 0; Go 1] 80)) (seq 0 33)).
Example C166_case :
  let run a := iexec Z.eqb true a (iinitial 2 0) in
  counts_fit Z.eqb true (iinitial 2 0) keep33 /\ one_adder Z.eqb true (iinitial 2 0) keep33 /\
  length (istore (run keep33)) = 2 /\ live (run keep33) = 33 /\ length (reads (run keep33)) = 32.
Proof.
  cbv zeta. split; [apply counts_fit_short; vm_compute; reflexivity|]. split; [|vm_compute; auto].
  assert (H : forallb (fun k => Nat.leb (length (filter adding (ithreads
                (iexec Z.eqb true (firstn k keep33) (iinitial 2 0))))) 1) (seq 0 (S (length keep33))) = true)
    by (vm_compute; reflexivity).
  intros a1 a2 E. rewrite forallb_forall in H. specialize (H (length a1)).
  rewrite E, firstn_app, Nat.sub_diag, firstn_all, app_nil_r in H. apply Nat.leb_le, H.
  apply in_seq. rewrite app_length. lia.
Qed.
