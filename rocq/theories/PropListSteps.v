(** Property C102, second part: how long a call on the shared list can take while other threads
    go on using the list. *)
From Coq Require Import List Bool PeanoNat Lia.
From Verif Require Import Base ConcListModel ConcListSpec ConcListProofs.
Import ListNotations.

Section Proofs.
Context {A : Type}.
Implicit Types (m : mem A) (L : list nat) (p : pc A) (c : call A).

(** At most [r] more steps of the thread itself until the call returns, if the list never has more
    than [N] elements. *)
Definition ranked L (N : nat) p (r : nat) : Prop :=
  match p with
  | PushNew _ => r = 3 * N + 2
  | PushHead _ _ => r = 3 * N + 1
  | TailHead (ForPush _ _) => 0 < length L /\ r = 3 * N
  | TailHead ForLen | GetHead _ | EmptyHead | IterAt None _ => r = 3 * N + 1
  | TailNext _ a _ | GetNext _ a _ => exists j, nth_error L j = Some a /\ r = 3 * (N - 1 - j) + 2
  | TailLoad _ a _ | GetLoad _ a _ => exists j, nth_error L j = Some a /\ S j < length L /\ r = 3 * (N - 1 - j) + 1
  | PushCas _ _ a _ | IterAt (Some a) _ => exists j, nth_error L j = Some a /\ r = 3 * (N - 1 - j) + 1
  | PushRetry _ _ a _ => exists j, nth_error L j = Some a /\
      ((S j < length L /\ r = 3 * (N - 1 - j)) \/ r = 3 * (N - 1 - j) + 2)
  | PushReload _ _ a _ => exists j, nth_error L j = Some a /\ S j < length L /\ r + 1 = 3 * (N - 1 - j)
  | Crash => False
  end.

Lemma ranked_pos L N p r : ranked L N p r -> length L <= N -> 0 < r.
Proof.
  destruct p as [v|v n|[v n|]|k a len|k a len|v n a len|v n a len|v n a len| |i|i a k|i a k|[a|] acc|]; cbn; try lia; try tauto;
    intros H HN; try (destruct H as (j & E & H)); lia.
Qed.

Lemma ranked_grow L L' N p r : ranked L N p r -> ranked (L ++ L') N p r.
Proof.
  assert (forall j a, nth_error L j = Some a -> nth_error (L ++ L') j = Some a) as K
    by (intros j a E; rewrite nth_error_app1; auto; eapply nth_error_lt; eauto).
  assert (length (L ++ L') = length L + length L') as EL by apply app_length.
  destruct p as [v|v n|[v n|]|k a len|k a len|v n a len|v n a len|v n a len| |i|i a k|i a k|[a|] acc|]; cbn; auto;
    intros H; try lia; destruct H as (j & E & H); exists j; split; auto; lia.
Qed.

(** Where a call is, it is ranked. *)
Lemma pcok_ranked s L vs c p N : pcok s L vs c p -> length L <= N -> exists r, ranked L N p r /\ r <= 3 * N + 2.
Proof.
  intros H HN.
  destruct p as [v|v n|[v n|]|k a len|k a len|v n a len|v n a len|v n a len| |i|i a k|i a k|[a|] acc|]; cbn in *;
    try (eexists; split; [reflexivity|lia]).
  - destruct H as (-> & H). exists (3 * N). split; [split; [|lia]|lia]. destruct L; [exfalso; apply H; [discriminate|reflexivity]|cbn; lia].
  - destruct H as (_ & Hl & E). pose proof (nth_error_lt _ _ _ E). eexists. split; [eexists; eauto|lia].
  - destruct H as (_ & Hl & E). pose proof (nth_error_lt _ _ _ E).
    eexists. split; [exists (len - 1); split; [eauto|split; [lia|reflexivity]]|lia].
  - destruct H as (_ & _ & j & E & _). pose proof (nth_error_lt _ _ _ E). eexists. split; [eexists; eauto|lia].
  - destruct H as (_ & _ & j & E & _). pose proof (nth_error_lt _ _ _ E). eexists. split; [exists j; split; eauto|lia].
  - destruct H as (_ & _ & j & E & _ & Hj). exists (3 * (N - 1 - j) - 1). split; [exists j; split; [auto|lia]|lia].
  - destruct H as (_ & Hl & E). pose proof (nth_error_lt _ _ _ E). eexists. split; [eexists; eauto|lia].
  - destruct H as (_ & Hl & E & Hj). eexists. split; [exists (i - S k); split; [eauto|split; [lia|reflexivity]]|lia].
  - destruct H as (_ & j & E & _). pose proof (nth_error_lt _ _ _ E). eexists. split; [eexists; eauto|lia].
  - destruct H.
Qed.

(** Each step lowers the rank. *)
Lemma ranked_step m L vs N p r p' m' : linked m L vs -> length L <= N -> ranked L N p r ->
  micro p m = (inl p', m') -> p' <> Crash -> exists r', ranked L N p' r' /\ r' < r.
Proof.
  intros HL HN HR.
  assert (head m = nth_error L 0) as EH by (rewrite (lk_head _ _ _ HL); destruct L; auto).
  assert (forall j a k, nth_error L j = Some a -> load_next m a k = k (nth_error L (S j))) as LN.
  { intros j a k E. destruct (linked_get _ _ _ _ _ HL E) as (v & Ea & _). unfold load_next. rewrite Ea. auto. }
  assert (forall j a, nth_error L j = Some a -> j < length L) as LT by (intros; eapply nth_error_lt; eauto).
  destruct p as [v|v n|k|k a len|k a len|v n a len|v n a len|v n a len| |i|i a k|i a k|loc acc|]; cbn [micro ranked] in *.
  - intros [= <- <-] _. eexists. split; [reflexivity|lia].
  - rewrite EH. destruct (nth_error L 0) eqn:E0; [|discriminate]. intros [= <- <-] _.
    pose proof (LT _ _ E0). eexists. split; [split; [lia|reflexivity]|]. lia.
  - rewrite EH. destruct (nth_error L 0) eqn:E0; [|destruct k; [intros [= <- <-] HC; congruence|discriminate]].
    intros [= <- <-] _. pose proof (LT _ _ E0). eexists. split; [exists 0; eauto|destruct k; lia].
  - destruct HR as (j & E & ->). pose proof (LT _ _ E). rewrite (LN _ _ _ E). destruct (nth_error L (S j)) eqn:E1.
    + intros [= <- <-] _. pose proof (LT _ _ E1). eexists. split; [exists j; eauto|lia].
    + destruct k; [|discriminate]. intros [= <- <-] _. eexists. split; [exists j; eauto|lia].
  - destruct HR as (j & E & Hj & ->). pose proof (LT _ _ E). rewrite (LN _ _ _ E). destruct (nth_error L (S j)) eqn:E1.
    + intros [= <- <-] _. eexists. split; [exists (S j); eauto|lia].
    + intros [= <- <-] HC. congruence.
  - destruct HR as (j & E & ->). pose proof (LT _ _ E). rewrite (LN _ _ _ E). destruct (nth_error L (S j)) eqn:E1; [|discriminate].
    intros [= <- <-] _. pose proof (LT _ _ E1). exists (3 * (N - 1 - j)). split; [exists j; auto|lia].
  - destruct HR as (j & E & Hr). pose proof (LT _ _ E). rewrite (LN _ _ _ E). destruct (nth_error L (S j)) eqn:E1.
    + intros [= <- <-] _. pose proof (LT _ _ E1). exists (3 * (N - 1 - j) - 1). split; [exists j; split; [auto|lia]|lia].
    + apply nth_error_None in E1. intros [= <- <-] _. eexists. split; [exists j; eauto|lia].
  - destruct HR as (j & E & Hj & Hr). pose proof (LT _ _ E). rewrite (LN _ _ _ E). destruct (nth_error L (S j)) eqn:E1.
    + intros [= <- <-] _. eexists. split; [exists (S j); eauto|lia].
    + intros [= <- <-] HC. congruence.
  - discriminate.
  - rewrite EH. destruct (nth_error L 0) eqn:E0; [|discriminate]. intros [= <- <-] _.
    pose proof (LT _ _ E0). eexists. split; [exists 0; eauto|lia].
  - destruct HR as (j & E & ->). pose proof (LT _ _ E). destruct k.
    + destruct (nth_error (heap m) a); [discriminate|]. intros [= <- <-] HC. congruence.
    + rewrite (LN _ _ _ E). destruct (nth_error L (S j)) eqn:E1; [|discriminate].
      intros [= <- <-] _. pose proof (LT _ _ E1). eexists. split; [exists j; eauto|lia].
  - destruct HR as (j & E & Hj & ->). pose proof (LT _ _ E). rewrite (LN _ _ _ E). destruct (nth_error L (S j)) eqn:E1.
    + intros [= <- <-] _. eexists. split; [exists (S j); eauto|lia].
    + intros [= <- <-] HC. congruence.
  - destruct loc as [a|]; cbn [load_loc].
    + destruct HR as (j & E & ->). rewrite (LN _ _ _ E). destruct (nth_error L (S j)) as [b|] eqn:E1; [|discriminate].
      pose proof (LT _ _ E1). destruct (nth_error (heap m) b); intros [= <- <-] HC; [|congruence].
      eexists. split; [exists (S j); eauto|lia].
    + subst r. rewrite EH. destruct (nth_error L 0) as [b|] eqn:E1; [|discriminate].
      pose proof (LT _ _ E1). destruct (nth_error (heap m) b); intros [= <- <-] HC; [|congruence].
      eexists. split; [exists 0; eauto|lia].
  - destruct HR.
Qed.

Lemma count_cons (l : list nat) t u :
  count_occ Nat.eq_dec (u :: l) t = (if Nat.eqb u t then 1 else 0) + count_occ Nat.eq_dec l t.
Proof.
  cbn. destruct (Nat.eq_dec u t) as [->|H]; [rewrite Nat.eqb_refl; reflexivity|].
  apply Nat.eqb_neq in H. rewrite H. reflexivity.
Qed.

Lemma bounded_steps t c later : forall (cf : conf A) L th p r,
  inv cf L -> nth_error (threads cf) t = Some th -> cur th = Some (c, p) ->
  ranked L (length (pushed (history (exec later cf)))) p r -> r <= count_occ Nat.eq_dec later t ->
  exists a h1 h2, history (exec later cf) = history cf ++ h1 ++ Ret t c a :: h2 /\
    Forall (fun e => thread_of e <> t) h1.
Proof.
  induction later as [|u later IH]; intros cf L th p r HI Et Ec HR Hr.
  - apply ranked_pos in HR; [cbn in Hr; lia|]. cbn. rewrite (lk_len _ _ _ (iv_linked _ _ HI)). lia.
  - rewrite count_cons in Hr. change (exec (u :: later) cf) with (exec later (conf_step cf u)) in *.
    destruct (inv_step _ u _ HI) as [L' HI'].
    assert (length L <= length (pushed (history (exec later (conf_step cf u))))) as HN.
    { destruct (history_grows later (conf_step cf u)) as [h2 E2]. destruct (history_grows [u] cf) as [h1 E1].
      change (exec [u] cf) with (conf_step cf u) in E1. rewrite E2, E1, !pushed_app, !app_length.
      pose proof (lk_len _ _ _ (iv_linked _ _ HI)). lia. }
    destruct (Nat.eqb u t) eqn:Eu.
    + apply Nat.eqb_eq in Eu. subst u.
      assert (conf_step cf t = let '(th', m', es) := thread_step t th (memory cf) in
              Conf m' (upd (threads cf) t th') (history cf ++ es)) as ES by (unfold conf_step; rewrite Et; reflexivity).
      unfold thread_step in ES. rewrite Ec in ES. destruct (micro p (memory cf)) as [[p'|a] m'] eqn:Em.
      * assert (nth_error (threads (conf_step cf t)) t = Some (Thread (todo th) (Some (c, p')))) as Et'.
        { rewrite ES. cbn. rewrite nth_error_upd, Nat.eqb_refl.
          rewrite (proj2 (Nat.ltb_lt _ _)); [reflexivity|eapply nth_error_lt; eauto]. }
        assert (p' <> Crash) as HC.
        { destruct (iv_pc _ _ HI' _ _ _ _ Et' eq_refl) as (h0 & _ & Hp). intros ->. exact Hp. }
        destruct (ranked_step _ _ _ _ _ _ _ _ (iv_linked _ _ HI) HN HR Em HC) as (r' & HR' & Hr').
        destruct (IH (conf_step cf t) (L ++ L') _ p' r' HI' Et' eq_refl (ranked_grow _ _ _ _ _ HR') ltac:(lia)) as (a & h1 & h2 & E & F).
        exists a, h1, h2. split; [|exact F]. rewrite E. f_equal. rewrite ES. cbn. apply app_nil_r.
      * destruct (history_grows later (conf_step cf t)) as [h2 E2].
        exists a, [], h2. split; [|constructor]. rewrite E2, ES. cbn. rewrite <- app_assoc. reflexivity.
    + apply Nat.eqb_neq in Eu.
      assert (nth_error (threads (conf_step cf u)) t = Some th) as Et'.
      { unfold conf_step. destruct (nth_error (threads cf) u); [|exact Et]. destruct (thread_step _ _ _) as [[? ?] ?]. cbn.
        rewrite nth_error_upd. apply Nat.eqb_neq in Eu. rewrite Eu. exact Et. }
      assert (exists es, history (conf_step cf u) = history cf ++ es /\ Forall (fun e => thread_of e <> t) es) as (es & E0 & F0).
      { unfold conf_step. destruct (nth_error (threads cf) u) as [th'|]; [|exists []; rewrite app_nil_r; auto].
        unfold thread_step. destruct (cur th') as [[c' q]|].
        - destruct (micro q (memory cf)) as [[?|?] ?]; cbn; eexists; split; try reflexivity; auto.
        - destruct (todo th'); cbn; eexists; split; try reflexivity; auto. }
      destruct (IH (conf_step cf u) (L ++ L') th p r HI' Et' Ec (ranked_grow _ _ _ _ _ HR) ltac:(lia)) as (a & h1 & h2 & E & F).
      exists a, (es ++ h1), h2. split; [|apply Forall_app; auto]. rewrite E, E0, <- !app_assoc. reflexivity.
Qed.
End Proofs.

(** C102: however the other threads are scheduled, a call returns within [3 n + 2] steps of its own
    thread, where [n] is the number of elements that the list has reached by then.  ([later] is any
    continuation of the execution in which the thread [t], which is inside a call, takes that many
    steps.) *)
Theorem C102_returns_among_others : forall (A : Type) (progs : list (list (call A))) sched later t th c p l,
  let cf := exec sched (initial progs) in
  nth_error (threads cf) t = Some th -> cur th = Some (c, p) ->
  contents (memory (exec later cf)) = Some l ->
  3 * length l + 2 <= count_occ Nat.eq_dec later t ->
  exists r h1 h2, history (exec later cf) = history cf ++ h1 ++ Ret t c r :: h2 /\
    Forall (fun e => thread_of e <> t) h1.
Proof.
  intros A progs sched later t th c p l cf Et Ec El Hn.
  destruct (reachable progs sched) as [L HI]. fold cf in HI.
  destruct (inv_exec later _ _ HI) as [L' HI'].
  pose proof (contents_linked _ _ _ (iv_linked _ _ HI')) as E. rewrite E in El. injection El as <-.
  destruct (iv_pc _ _ HI _ _ _ _ Et Ec) as (h0 & _ & Hp).
  assert (length L <= length (pushed (history (exec later cf)))) as HN.
  { rewrite (lk_len _ _ _ (iv_linked _ _ HI')), app_length. lia. }
  destruct (pcok_ranked _ _ _ _ _ _ Hp HN) as (r & HR & Hr).
  eapply bounded_steps; eauto. lia.
Qed.
Print Assumptions C102_returns_among_others.

(** A push that is overtaken again and again by another thread still returns. *)
Example C102_overtaken_case :
  let cf := exec [0] (initial [[Push 1]; [Push 2; Push 3; Push 4; Push 5]]) in
  let later := concat (repeat [1; 1; 1; 0] 20) in
  contents (memory (exec later cf)) = Some [2; 3; 4; 5; 1] /\ 3 * 5 + 2 <= count_occ Nat.eq_dec later 0 /\
  exists th p, nth_error (threads cf) 0 = Some th /\ cur th = Some (Push 1, p).
Proof. vm_compute. split; [reflexivity|]. split; [lia|]. repeat eexists. Qed.
