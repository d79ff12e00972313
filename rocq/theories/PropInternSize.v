(** C166 for calls of [add] that overlap, as long as those that take or append a slot overlap no other. *)
From Coq Require Import ZArith List Bool Lia.
From Verif Require Import Base Arith InternModel InternProofs ConcInternModel ConcInternSpec ConcInternProofs ConcInternMore PropInternProgress
  PropInternOverlap.
Import ListNotations.
Local Open Scope nat_scope.

Section Storage.
Context {T : Type} (eqb : T -> T -> bool) (dbg : bool).
Implicit Types (cf : iconf T).

Lemma filter_lone {A} (f : A -> bool) (l : list A) t : (forall u p, u <> t -> nth_error l u = Some p -> f p = false) -> length (filter f l) <= 1.
Proof.
  revert t. induction l as [|x l IH]; intros t H; [cbn; lia|]. cbn [filter]. destruct t as [|t].
  - assert (filter f l = []) as ->; [|destruct (f x); cbn; lia]. destruct (filter f l) as [|y r] eqn:E; [reflexivity|]. exfalso.
    assert (In y (filter f l)) as I by (rewrite E; left; reflexivity). apply filter_In in I. destruct I as [I F].
    apply In_nth_error in I. destruct I as [u I]. specialize (H (S u) y ltac:(discriminate) I). congruence.
  - rewrite (H 0 x) by (auto; discriminate). apply (IH t). intros u p Hn E. apply (H (S u)); auto.
Qed.

Lemma alone_now (run : list (action T) -> iconf T) acts t q : ~ overlapped run acts t -> nth_error (ithreads (run acts)) t = Some q ->
  adding q = true -> forall u p, u <> t -> nth_error (ithreads (run acts)) u = Some p -> adding p = false.
Proof.
  intros N Et A u p Hn Eu. destruct (adding p) eqn:Ap; [|reflexivity]. exfalso. apply N. apply (overlapped_now run acts t u); auto.
  - unfold place. rewrite Et. exact A.
  - unfold place. rewrite Eu. exact Ap.
Qed.

Lemma storage_overlap n capacity (run := fun acts => iexec eqb dbg acts (iinitial n capacity)) acts :
  counts_fit eqb dbg (iinitial n capacity) acts -> writers_alone eqb dbg (iinitial n capacity) acts ->
  sized (Nat.div (capacity + 31) 32) run acts /\
  forall t q, nth_error (ithreads (run acts)) t = Some (Some q) -> adding (Some q) = true -> ~ overlapped run acts t -> before_scan run acts q.
Proof.
  induction acts as [|a acts IH] using rev_ind; intros HF H1.
  - split.
    + left. change (length (repeat (new_chunk (T := T)) (Nat.div (capacity + 32 - 1) 32)) <= Nat.div (capacity + 31) 32). rewrite repeat_length. apply Nat.div_le_mono; lia.
    + intros t q E. cbn in E. apply nth_error_In, repeat_spec in E. discriminate.
  - assert (counts_fit eqb dbg (iinitial n capacity) acts) as HF1.
    { intros a1 a2 k E. apply (HF a1 (a2 ++ [a])). rewrite E, app_assoc. reflexivity. }
    assert (writers_alone eqb dbg (iinitial n capacity) acts) as H2.
    { intros a1 a2 t E. apply (H1 a1 (a2 ++ [a])). rewrite E, app_assoc. reflexivity. }
    specialize (IH HF1 H2). destruct IH as [IS IB].
    destruct (run_inv eqb dbg n capacity acts HF1) as [N HI]. change (iexec eqb dbg acts (iinitial n capacity)) with (run acts) in HI.
    assert (run (acts ++ [a]) = iconf_step eqb dbg (run acts) a) as Er by (unfold run, iexec; rewrite fold_left_app; reflexivity).
    assert (forall t, a = Go t \/ (exists c, a = Begin t c) \/ match a with Go u | Begin u _ => u <> t end) as Ht.
    { intros t. destruct a as [u c|u]; destruct (Nat.eq_dec u t) as [->|]; eauto. }
    split.
    + (* the size *)
      assert (sized (Nat.div (capacity + 31) 32) run (acts ++ [a]) \/ length (istore (run (acts ++ [a]))) <> length (istore (run acts))) as [|NE]; [|exact H|].
      { destruct (Nat.eq_dec (length (istore (run (acts ++ [a])))) (length (istore (run acts)))) as [E|]; [left|right; assumption].
        destruct IS as [IS|(a0 & a1 & Ea & IS)]; [left; lia|]. right. exists a0, (a1 ++ [a]). split; [rewrite Ea, app_assoc; reflexivity|]. rewrite E. exact IS. }
      rewrite Er in NE. destruct a as [u c|u]; cbn [iconf_step] in NE; destruct (nth_error (ithreads (run acts)) u) as [[q|]|] eqn:Eu; try congruence.
      * rewrite begin_store in NE. congruence.
      * rewrite step_store in NE. destruct (appends (run acts) q) eqn:Ap; [|elim NE; reflexivity].
        assert (length (istore (run (acts ++ [Go u]))) = S (length (istore (run acts)))) as El.
        { rewrite Er. cbn [iconf_step]. rewrite Eu, step_store, Ap. reflexivity. }
        assert (adding (Some q) = true) as Ad by (destruct q; try discriminate Ap; reflexivity).
        assert (~ overlapped run acts u) as No.
        { intros O. specialize (H2 acts [] u (eq_sym (app_nil_r _)) O). change (iexec eqb dbg acts (iinitial n capacity)) with (run acts) in H2.
          unfold place in H2. rewrite Eu in H2. destruct q; try discriminate Ap; discriminate H2. }
        destruct (IB _ _ Eu Ad No) as (a0 & a1 & Ea & Hal & Hsc). right. exists a0, (a1 ++ [Go u]). split; [rewrite Ea, app_assoc; reflexivity|].
        rewrite El. enough (32 * length (istore (run acts)) <= live (run a0)) by lia. unfold live. apply alive_pigeon.
        intros k Hk. apply Hsc. destruct q; try discriminate Ap; exact Hk.
    + intros t q E Ad No. pose proof E as E1. rewrite Er in E.
      assert (forall q0, nth_error (ithreads (run acts)) t = Some (Some q0) -> adding (Some q0) = true -> ~ overlapped run acts t) as No0.
      { intros q0 E0 A0 O. apply No, overlapped_snoc; auto. unfold place. rewrite E1. exact Ad. }
      assert (nth_error (ithreads (run acts)) t = Some (Some q) -> a <> Go t -> before_scan run (acts ++ [a]) q) as Same.
      { intros E0 Na. pose proof (No0 _ E0 Ad) as N0. pose proof (alone_now run acts t _ N0 E0 Ad) as Lone.
        destruct (IB _ _ E0 Ad N0) as (a0 & a1 & Ea & Hal & Hsc). exists a0, (a1 ++ [a]). split; [rewrite Ea, app_assoc; reflexivity|].
        assert (forall z, alive (handles (run (acts ++ [a]))) z -> alive (handles (run acts)) z) as Sh.
        { intros z. rewrite Er. destruct a as [u c|u]; cbn [iconf_step]; destruct (nth_error (ithreads (run acts)) u) as [[q'|]|] eqn:Eu; auto.
          - apply begin_alive.
          - apply (others_alive eqb dbg N); auto. apply (Lone u); auto; congruence. }
        split; [auto|]. intros k Hk. apply Hsc.
        replace (scanned (run acts) q) with (scanned (run (acts ++ [a])) q); [exact Hk|].
        assert (length (istore (run (acts ++ [a]))) = length (istore (run acts))) as El.
        { rewrite Er. destruct a as [u c|u]; cbn [iconf_step]; destruct (nth_error (ithreads (run acts)) u) as [[q'|]|] eqn:Eu; auto.
          - rewrite begin_store. reflexivity.
          - rewrite step_store. assert (adding (Some q') = false) as A by (apply (Lone u); auto; congruence).
            destruct q'; try discriminate A; reflexivity. }
        destruct q; cbn [scanned]; rewrite ?El; reflexivity. }
      destruct (Ht t) as [->|[[c ->]|Nt]].
      * cbn [iconf_step] in E. destruct (nth_error (ithreads (run acts)) t) as [[q0|]|] eqn:E0; try congruence.
        assert (adding (Some q0) = true) as Ad0.
        { destruct q0; try reflexivity; exfalso; revert E; cbn [istep]; unfold with_store, finish, set_thread, add_handle, add_read, set_store;
            repeat (match goal with |- context [match ?x with _ => _ end] => destruct x end; cbn [ithreads istore handles reads]);
            rewrite ?unborrow_threads, ?set_handle_threads; cbn [ithreads]; rewrite ?(nth_upd_same _ _ _ _ E0), ?E0; intros [= <-]; discriminate Ad. }
        pose proof (No0 _ eq_refl Ad0) as N0.
        eapply (own_scan eqb dbg N); eauto; [|rewrite Er; cbn [iconf_step]; rewrite E0; reflexivity].
        apply (filter_lone adding _ t). eapply alone_now; eauto.
      * cbn [iconf_step] in E. destruct (nth_error (ithreads (run acts)) t) as [[q0|]|] eqn:E0.
        -- apply Same; [congruence|discriminate].
        -- exists (acts ++ [Begin t c]), []. split; [rewrite app_nil_r; reflexivity|]. split; [auto|].
           assert (scanned (run (acts ++ [Begin t c])) q = 0) as ->; [|intros; lia].
           destruct c as [v|m|m|m]; cbn [begin_call] in E.
           ++ cbn [set_thread ithreads] in E. rewrite (nth_upd_same _ _ _ _ E0) in E. injection E as <-. reflexivity.
           ++ exfalso. destruct (nth_error (handles (run acts)) m) as [[? ? [[|?]| |]]|]; try congruence; cbn [set_thread ithreads] in E;
                rewrite set_handle_threads, (nth_upd_same _ _ _ _ E0) in E; injection E as <-; discriminate Ad.
           ++ exfalso. destruct (nth_error (handles (run acts)) m) as [[? ? [[|?]| |]]|]; try congruence; cbn [set_thread ithreads] in E;
                rewrite set_handle_threads, (nth_upd_same _ _ _ _ E0) in E; injection E as <-; discriminate Ad.
           ++ exfalso. destruct (nth_error (handles (run acts)) m) as [[? ? [[|?]| |]]|]; try congruence; cbn [set_thread ithreads] in E;
                rewrite set_handle_threads, (nth_upd_same _ _ _ _ E0) in E; injection E as <-; discriminate Ad.
        -- congruence.
      * assert (a <> Go t) as Na by (destruct a; congruence). apply Same; [|exact Na].
        destruct a as [u c|u]; cbn [iconf_step] in E; destruct (nth_error (ithreads (run acts)) u) as [[q'|]|] eqn:Eu; try exact E.
        -- destruct (begin_threads (run acts) u c) as [X|[q2 X]]; rewrite X in E; [exact E|]. rewrite nth_upd_other in E by auto. exact E.
        -- destruct (step_threads eqb dbg (run acts) u q') as [X|[q2 X]]; rewrite X in E; [exact E|]. rewrite nth_upd_other in E by auto. exact E.
Qed.

End Storage.

(** C166 with overlapping calls of [add]: as long as those that overlap another find their value in the interner, the interner
    either has not grown, or its slots are at most 32 more than the handles that were out at some one moment.  This includes
    C166_bounded_partial (C62_condition).  Missing: overlapping calls of which one takes or appends a slot. *)
Theorem C166_overlapping_partial : forall (T : Type) (eqb : T -> T -> bool) dbg n capacity (acts : list (action T)),
  counts_fit eqb dbg (iinitial n capacity) acts -> writers_alone eqb dbg (iinitial n capacity) acts ->
  let run a := iexec eqb dbg a (iinitial n capacity) in
  length (istore (run acts)) = Nat.div (capacity + 31) 32 \/
  exists a1 a2, acts = a1 ++ a2 /\ 32 * length (istore (run acts)) <= live (run a1) + 32.
Proof.
  intros T eqb dbg n capacity acts HF H1 run. destruct (storage_overlap eqb dbg n capacity acts HF H1) as [[H|H] _]; [left|right; exact H].
  pose proof (exec_store eqb dbg acts (iinitial n capacity)) as L.
  assert (length (istore (iinitial (T := T) n capacity)) = Nat.div (capacity + 31) 32) as E.
  { cbn [iinitial istore]. unfold with_capacity, chunk_size. rewrite repeat_length. f_equal. lia. }
  rewrite E in L. apply Nat.le_antisymm; [exact H|exact L].
Qed.
Print Assumptions C166_overlapping_partial.

(** The interner of C62_overlapping_case: one slot is in use, the calls of [add] overlap, and there is still one chunk. *)
Example C166_overlapping_case :
  writers_alone Z.eqb true (iinitial 3 1) (alone ++ together) /\ counts_fit Z.eqb true (iinitial 3 1) (alone ++ together) /\
  ~ one_adder Z.eqb true (iinitial 3 1) (alone ++ together) /\
  length (istore (iexec Z.eqb true (alone ++ together) (iinitial 3 1))) = 1.
Proof.
  destruct C62_overlapping_case as (A & B & C & _). split; [exact A|]. split; [exact B|]. split; [exact C|].
  vm_compute. reflexivity.
Qed.
