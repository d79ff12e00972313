(** Property C178: no call on the shared list blocks, also when loads may be stale (WeakListModel.v). *)
From Coq Require Import List Bool PeanoNat Lia.
From Verif Require Import Base ConcListModel ConcListSpec ConcListProofs WeakListModel WeakListSpec WeakListProofs PropWeak.
Import ListNotations.

Section Proofs.
Context {A : Type}.
Implicit Types (m : wmem A) (L : list nat) (vs : list A) (p : pc A) (c : call A) (V : view).

(** At most [r] more steps of the thread itself until the call returns, if the thread knows of [k]
    elements and the list never has more than [N]. *)
Definition wranked (k : nat) L (N : nat) p (r : nat) : Prop :=
  match p with
  | PushNew _ => r = 3 * N + 2
  | PushHead _ _ => r = 3 * N + 1
  | TailHead _ => 0 < k /\ r = 3 * N
  | GetHead _ | EmptyHead | IterAt None _ => r = 3 * N + 1
  | TailNext _ a _ | GetNext _ a _ => exists j, nth_error L j = Some a /\ j < k /\ r = 3 * (N - 1 - j) + 2
  | TailLoad _ a _ | GetLoad _ a _ => exists j, nth_error L j = Some a /\ S j < k /\ r = 3 * (N - 1 - j) + 1
  | PushCas _ _ a _ | IterAt (Some a) _ => exists j, nth_error L j = Some a /\ j < k /\ r = 3 * (N - 1 - j) + 1
  | PushRetry _ _ a _ => exists j, nth_error L j = Some a /\ j < k /\
      ((S j < k /\ r = 3 * (N - 1 - j)) \/ r = 3 * (N - 1 - j) + 2)
  | PushReload _ _ a _ => exists j, nth_error L j = Some a /\ S j < k /\ r + 1 = 3 * (N - 1 - j)
  | Crash => False
  end.

Lemma wranked_pos k L N p r : wranked k L N p r -> k <= length L -> length L <= N -> 0 < r.
Proof.
  destruct p as [v|v n|q|q a len|q a len|v n a len|v n a len|v n a len| |i|i a q|i a q|[a|] acc|]; cbn; try lia; try tauto;
    intros H HK HN; try (destruct H as (j & E & H)); lia.
Qed.

Lemma wranked_grow k L L' N p r : wranked k L N p r -> wranked k (L ++ L') N p r.
Proof.
  assert (forall j a, nth_error L j = Some a -> nth_error (L ++ L') j = Some a) as K
    by (intros j a E; rewrite nth_error_app1; auto; eapply nth_error_lt; eauto).
  destruct p as [v|v n|q|q a len|q a len|v n a len|v n a len|v n a len| |i|i a q|i a q|[a|] acc|]; cbn; auto;
    intros H; try lia; destruct H as (j & E & H); exists j; split; auto; lia.
Qed.

Lemma wpcok_ranked k aw L vs c p N : wpcok k aw L vs c p -> k <= length L -> length L <= N -> exists r, wranked k L N p r /\ r <= 3 * N + 2.
Proof.
  intros H HK HN.
  destruct p as [v|v n|q|q a len|q a len|v n a len|v n a len|v n a len| |i|i a q|i a q|[a|] acc|]; cbn in *;
    try (eexists; split; [reflexivity|lia]).
  - destruct H as (_ & H). exists (3 * N). split; [split; [|lia]|]; lia.
  - destruct H as (_ & Hl & E). eexists. split; [exists (len - 1); split; [eauto|split; [lia|reflexivity]]|lia].
  - destruct H as (_ & Hl & E). eexists. split; [exists (len - 1); split; [eauto|split; [lia|reflexivity]]|lia].
  - destruct H as (_ & _ & j & E & Hj & _). eexists. split; [exists j; split; [eauto|split; [lia|reflexivity]]|lia].
  - destruct H as (_ & _ & j & E & Hj & _). eexists. split; [exists j; split; [eauto|split; [lia|right; reflexivity]]|lia].
  - destruct H as (_ & _ & j & E & Hj & _). exists (3 * (N - 1 - j) - 1). split; [exists j; split; [auto|lia]|lia].
  - destruct H as (_ & Hl & E & Hk). eexists. split; [exists (i - q); split; [eauto|split; [lia|reflexivity]]|lia].
  - destruct H as (_ & Hl & E & Hj). eexists. split; [exists (i - S q); split; [eauto|split; [lia|reflexivity]]|lia].
  - destruct H as (_ & j & E & Hj & _). eexists. split; [exists j; split; [eauto|split; [lia|reflexivity]]|lia].
  - destruct H.
Qed.

(** Each step lowers the rank, whatever the load returns. *)
Lemma wranked_step stale m L vs V k N p r p' m' V' : wlinked m L vs -> good L V k -> length L <= N -> wranked k L N p r ->
  wmicro stale p m V = (WNext p', m', V') -> p' <> Crash ->
  exists k' r', good L V' k' /\ wranked k' L N p' r' /\ r' < r.
Proof.
  intros HL HG HN HR. pose proof (g_len _ _ _ HG) as HK.
  assert (forall j a, nth_error L j = Some a -> j < length L) as LT by (intros j a; apply nth_error_lt).
  destruct p as [v|v n|q|q a len|q a len|v n a len|v n a len|v n a len| |i|i a q|i a q|loc acc|]; cbn [wmicro wranked] in *.
  - intros [= <- <- <-] _. exists k, (3 * N + 1). split; [apply good_add_init; auto|]. split; [reflexivity|lia].
  - destruct (whead m) as [[a mv]|] eqn:Eh; [|discriminate]. intros [= <- <- <-] _.
    destruct (wl_msg0 _ _ _ HL a mv Eh) as (km & Hkm & Gm). exists (Nat.max km k), (3 * N).
    split; [apply good_cons; [apply good_join; auto|apply in_app_iff; left; apply (g_head _ _ _ Gm); auto]|]. split; [split; [lia|reflexivity]|lia].
  - destruct HR as [H0 ->]. pose proof (load_head_ok m L vs V k false stale HL HG (or_intror H0)) as HH.
    destruct (load_at EHead (whead m) false stale V) as [o V2].
    destruct HH as [(_ & _ & E)|(b & k' & -> & E1 & G' & _ & H2 & _)]; [lia|]. intros [= <- <- <-] _.
    exists k', (3 * (N - 1 - 0) + 2). pose proof (LT _ _ E1). split; auto. split; [exists 0; auto|lia].
  - destruct HR as (j & Ha & Hj & ->). pose proof (LT _ _ Ha).
    destruct (load_next_ok m L vs V k j a true stale
      (fun nx => match nx with None => of_sum (tail_found q a len) | Some _ => WNext (TailLoad q a len) end) HL HG Ha Hj (or_introl eq_refl))
      as [(-> & Ek)|(b & k' & V2 & -> & E1 & G' & _ & H2 & _)].
    + destruct q as [v n|]; cbn [tail_found of_sum]; [|discriminate]. intros [= <- <- <-] _.
      exists k, (3 * (N - 1 - j) + 1). split; auto. split; [exists j; auto|lia].
    + intros [= <- <- <-] _. exists k', (3 * (N - 1 - j) + 1). split; auto. split; [exists j; auto|lia].
  - destruct HR as (j & Ha & Hj & ->). pose proof (LT _ _ Ha).
    destruct (load_next_ok m L vs V k j a false stale
      (fun nx => match nx with None => WNext Crash | Some b => WNext (TailNext q b (len + 1)) end) HL HG Ha ltac:(lia) (or_intror Hj))
      as [(-> & Ek)|(b & k' & V2 & -> & E1 & G' & _ & H2 & _)]; [lia|].
    intros [= <- <- <-] _. pose proof (LT _ _ E1). exists k', (3 * (N - 1 - S j) + 2). split; auto. split; [exists (S j); auto|lia].
  - destruct HR as (j & Ha & Hj & ->). pose proof (LT _ _ Ha).
    destruct (wl_node _ _ _ HL j a Ha) as (x & cell & Ex & En & Ev). rewrite Ex.
    rewrite (proj2 (knows_in V (EInit a))) by (eapply g_init; eauto). cbn [wnext wval].
    destruct cell as [[b mv]|]; [|discriminate]. intros [= <- <- <-] _.
    destruct (wl_msg _ _ _ HL j a _ b mv Ha Ex eq_refl) as (km & Hkm & Gm).
    exists (Nat.max km k), (3 * (N - 1 - j)). split; [|split; [exists j; split; [auto|split; [lia|left; split; [lia|reflexivity]]]|lia]].
    apply good_cons; [apply good_join; auto|]. apply in_app_iff. left. apply (g_next _ _ _ Gm). eauto.
  - destruct HR as (j & Ha & Hj & HR). pose proof (LT _ _ Ha).
    destruct (load_next_ok m L vs V k j a true stale
      (fun nx => match nx with None => WNext (PushCas v n a len) | Some _ => WNext (PushReload v n a len) end) HL HG Ha Hj (or_introl eq_refl))
      as [(-> & Ek)|(b & k' & V2 & -> & E1 & G' & _ & H2 & _)]; intros [= <- <- <-] _.
    + exists k, (3 * (N - 1 - j) + 1). split; auto. split; [exists j; auto|lia].
    + pose proof (LT _ _ E1). exists k', (3 * (N - 1 - j) - 1). split; auto. split; [exists j; split; [auto|lia]|lia].
  - destruct HR as (j & Ha & Hj & HR).
    destruct (load_next_ok m L vs V k j a false stale
      (fun nx => match nx with None => WNext Crash | Some b => WNext (PushCas v n b len) end) HL HG Ha ltac:(lia) (or_intror Hj))
      as [(-> & Ek)|(b & k' & V2 & -> & E1 & G' & _ & H2 & _)]; [lia|].
    intros [= <- <- <-] _. pose proof (LT _ _ E1). exists k', (3 * (N - 1 - S j) + 1). split; auto. split; [exists (S j); auto|lia].
  - destruct (load_at EHead (whead m) true stale V); discriminate.
  - subst r. pose proof (load_head_ok m L vs V k true stale HL HG (or_introl eq_refl)) as HH.
    destruct (load_at EHead (whead m) true stale V) as [o V2].
    destruct HH as [(-> & _ & _)|(b & k' & -> & E1 & G' & _ & H2 & _)]; [discriminate|]. intros [= <- <- <-] _.
    exists k', (3 * (N - 1 - 0) + 2). pose proof (LT _ _ E1). split; auto. split; [exists 0; auto|lia].
  - destruct HR as (j & Ha & Hj & ->). pose proof (LT _ _ Ha). destruct q as [|q].
    + destruct (access_ok m L vs V k j a (fun x => (WDone (ROpt (Some (wval x))), V)) HL HG Ha Hj) as (x & cell & -> & _). discriminate.
    + destruct (load_next_ok m L vs V k j a true stale
        (fun nx => match nx with None => WDone (ROpt None) | Some _ => WNext (GetLoad i a q) end) HL HG Ha Hj (or_introl eq_refl))
        as [(-> & Ek)|(b & k' & V2 & -> & E1 & G' & _ & H2 & _)]; [discriminate|].
      intros [= <- <- <-] _. exists k', (3 * (N - 1 - j) + 1). split; auto. split; [exists j; auto|lia].
  - destruct HR as (j & Ha & Hj & ->). pose proof (LT _ _ Ha).
    destruct (load_next_ok m L vs V k j a false stale
      (fun nx => match nx with None => WNext Crash | Some b => WNext (GetNext i b q) end) HL HG Ha ltac:(lia) (or_intror Hj))
      as [(-> & Ek)|(b & k' & V2 & -> & E1 & G' & _ & H2 & _)]; [lia|].
    intros [= <- <- <-] _. pose proof (LT _ _ E1). exists k', (3 * (N - 1 - S j) + 2). split; auto. split; [exists (S j); auto|lia].
  - destruct loc as [a|].
    + destruct HR as (j & Ha & Hj & ->).
      match goal with |- context [access m V a ?f] =>
        destruct (access_ok m L vs V k j a f HL HG Ha Hj) as (x & cell & -> & Ex & _) end.
      pose proof (cell_ok m L vs V k j a _ true stale HL HG Ha Hj Ex (or_introl eq_refl)) as HC.
      destruct (load_at (ENext a) (wnext (WNode x cell)) true stale V) as [o V2].
      destruct HC as [(-> & _ & _)|(b & k' & -> & E1 & G' & _ & H2 & _)]; [discriminate|].
      match goal with |- context [access m V2 b ?f] =>
        destruct (access_ok m L vs V2 k' (S j) b f HL G' E1 H2) as (y & cell' & -> & _) end.
      intros [= <- <- <-] _. pose proof (LT _ _ E1). exists k', (3 * (N - 1 - S j) + 1). split; auto. split; [exists (S j); auto|lia].
    + subst r. pose proof (load_head_ok m L vs V k true stale HL HG (or_introl eq_refl)) as HH.
      destruct (load_at EHead (whead m) true stale V) as [o V2].
      destruct HH as [(-> & _ & _)|(b & k' & -> & E1 & G' & _ & H2 & _)]; [discriminate|].
      match goal with |- context [access m V2 b ?f] =>
        destruct (access_ok m L vs V2 k' 0 b f HL G' E1 H2) as (y & cell' & -> & _) end.
      intros [= <- <- <-] _. pose proof (LT _ _ E1). exists k', (3 * (N - 1 - 0) + 1). split; auto. split; [exists 0; auto|lia].
  - destruct HR.
Qed.

Definition turns (t : nat) (sched : list (nat * bool)) : nat := count_occ Nat.eq_dec (map fst sched) t.

Lemma turns_cons t u b l : turns t ((u, b) :: l) = (if Nat.eqb u t then 1 else 0) + turns t l.
Proof.
  unfold turns. cbn [map fst count_occ]. destruct (Nat.eq_dec u t) as [->|H]; [rewrite Nat.eqb_refl; reflexivity|].
  apply Nat.eqb_neq in H. rewrite H. reflexivity.
Qed.

Lemma good_grows L L' V k : good L V k -> good (L ++ L') V k.
Proof.
  revert L. induction L' as [|n L' IH]; intros L H; [rewrite app_nil_r; exact H|].
  change (L ++ n :: L') with (L ++ [n] ++ L'). rewrite app_assoc. apply IH, good_grow, H.
Qed.

Lemma wbounded_steps t c later : forall (cf : wconf A) L th p k r,
  winv cf L -> len_when_aware (whistory (wexec later cf)) ->
  nth_error (wthreads cf) t = Some th -> wcur th = Some (c, p) -> good L (wview th) k ->
  wranked k L (length (wpushed (whistory (wexec later cf)))) p r -> r <= turns t later ->
  exists a h1 h2, whistory (wexec later cf) = whistory cf ++ h1 ++ WRet t c a :: h2 /\
    Forall (fun e => wthread_of e <> t) h1.
Proof.
  induction later as [|[u s] later IH]; intros cf L th p k r HI HA Et Ec HG HR Hr.
  - apply wranked_pos in HR; [cbn in Hr; lia|apply (g_len _ _ _ HG)|]. cbn. rewrite (wl_len _ _ _ (wi_linked _ _ HI)). lia.
  - rewrite turns_cons in Hr. change (wexec ((u, s) :: later) cf) with (wexec later (wconf_step cf (u, s))) in *.
    destruct (whistory_grows later (wconf_step cf (u, s))) as [h2 E2].
    destruct (winv_step _ (u, s) _ HI) as [L' HI']; [eapply len_when_aware_prefix; rewrite <- E2; exact HA|].
    assert (length L <= length (wpushed (whistory (wexec later (wconf_step cf (u, s)))))) as HN.
    { destruct (whistory_step cf (u, s)) as [h1 E1]. rewrite E2, E1, !wpushed_app, !app_length.
      pose proof (wl_len _ _ _ (wi_linked _ _ HI)). lia. }
    destruct (Nat.eqb u t) eqn:Eu.
    + apply Nat.eqb_eq in Eu. subst u.
      destruct (wmicro s p (wmemory cf) (wview th)) as [[[p'|a|] m'] V'] eqn:Em.
      * assert (wconf_step cf (t, s) = WConf m' (upd (wthreads cf) t (WThread (wtodo th) (Some (c, p')) V')) (whistory cf) (raced cf)) as ES
          by (unfold wconf_step; rewrite Et, Ec, Em; reflexivity).
        assert (nth_error (wthreads (wconf_step cf (t, s))) t = Some (WThread (wtodo th) (Some (c, p')) V')) as Et'.
        { rewrite ES. cbn. rewrite nth_error_upd, Nat.eqb_refl.
          rewrite (proj2 (Nat.ltb_lt _ _)); [reflexivity|eapply nth_error_lt; eauto]. }
        assert (p' <> Crash) as HC.
        { destruct (wi_th _ _ HI' _ _ Et') as (k0 & _ & _ & Hp). intros ->. exact (Hp _ _ eq_refl). }
        destruct (wranked_step _ _ _ _ _ _ _ _ _ _ _ _ (wi_linked _ _ HI) HG HN HR Em HC) as (k' & r' & HG' & HR' & Hr').
        destruct (IH (wconf_step cf (t, s)) (L ++ L') _ p' k' r' HI' HA Et' eq_refl (good_grows _ _ _ _ HG') (wranked_grow _ _ _ _ _ _ HR') ltac:(lia))
          as (a & h1 & h3 & E & F).
        exists a, h1, h3. split; [|exact F]. rewrite E. f_equal. rewrite ES. reflexivity.
      * exists a, [], h2. split; [|constructor]. rewrite E2. unfold wconf_step. rewrite Et, Ec, Em. cbn. rewrite <- app_assoc. reflexivity.
      * exfalso. pose proof (wi_race _ _ HI') as K. unfold wconf_step in K. rewrite Et, Ec, Em in K. discriminate.
    + apply Nat.eqb_neq in Eu.
      assert (nth_error (wthreads (wconf_step cf (u, s))) t = Some th) as Et'.
      { unfold wconf_step. destruct (nth_error (wthreads cf) u) as [th'|]; [|exact Et].
        apply Nat.eqb_neq in Eu. destruct (wcur th') as [[c' q]|].
        - destruct (wmicro s q (wmemory cf) (wview th')) as [[[?|?|] ?] ?]; cbn; rewrite nth_error_upd, Eu; exact Et.
        - destruct (wtodo th') as [|[?|?] ?]; cbn; try rewrite nth_error_upd, Eu; exact Et. }
      assert (exists es, whistory (wconf_step cf (u, s)) = whistory cf ++ es /\ Forall (fun e => wthread_of e <> t) es) as (es & E0 & F0).
      { unfold wconf_step. destruct (nth_error (wthreads cf) u) as [th'|]; [|exists []; rewrite app_nil_r; auto].
        destruct (wcur th') as [[c' q]|].
        - destruct (wmicro s q (wmemory cf) (wview th')) as [[[?|?|] ?] ?]; cbn; try (exists []; rewrite app_nil_r; auto; fail).
          eexists; split; [reflexivity|auto].
        - destruct (wtodo th') as [|[?|?] ?]; cbn; try (exists []; rewrite app_nil_r; auto; fail); eexists; split; try reflexivity; auto. }
      destruct (IH (wconf_step cf (u, s)) (L ++ L') th p k r HI' HA Et' Ec (good_grows _ _ _ _ HG) (wranked_grow _ _ _ _ _ _ HR) ltac:(lia))
        as (a & h1 & h3 & E & F).
      exists a, (es ++ h1), h3. split; [|apply Forall_app; auto]. rewrite E, E0, <- !app_assoc. reflexivity.
Qed.
End Proofs.

(** C178: however the other threads are scheduled and however stale the values are that loads
    return, a call returns within [3 n + 2] steps of its own thread, where [n] is the number of
    elements that the list has reached by then.  ([later] is any continuation of the execution in
    which the thread [t], which is inside a call, takes that many steps.) *)
Theorem C178_returns_weak : forall (A : Type) (progs : list (list (action A))) sched later t th c p l,
  let cf := wexec sched (winitial progs) in
  len_when_aware (whistory (wexec later cf)) ->
  nth_error (wthreads cf) t = Some th -> wcur th = Some (c, p) ->
  wcontents (wmemory (wexec later cf)) = Some l ->
  3 * length l + 2 <= count_occ Nat.eq_dec (map fst later) t ->
  exists r h1 h2, whistory (wexec later cf) = whistory cf ++ h1 ++ WRet t c r :: h2 /\
    Forall (fun e => match e with WInv u _ | WRet u _ _ | WSynced u _ => u <> t end) h1.
Proof.
  intros A progs sched later t th c p l cf HA Et Ec El Hn.
  destruct (whistory_grows later cf) as [h Hh].
  destruct (wreachable progs sched) as [L HI]. { eapply len_when_aware_prefix. fold cf. rewrite <- Hh. exact HA. }
  fold cf in HI.
  destruct (winv_exec later _ _ HI HA) as [L' HI'].
  pose proof (wcontents_linked _ _ _ (wi_linked _ _ HI')) as E. rewrite E in El. injection El as <-.
  destruct (wi_th _ _ HI _ _ Et) as (k & HG & _ & Hp).
  assert (length L <= length (wpushed (whistory (wexec later cf)))) as HN.
  { rewrite (wl_len _ _ _ (wi_linked _ _ HI')), app_length. lia. }
  destruct (wpcok_ranked _ _ _ _ _ _ _ (Hp _ _ Ec) (g_len _ _ _ HG) HN) as (r & HR & Hr).
  destruct (wbounded_steps t c later cf L th p k r HI HA Et Ec HG HR) as (a & h1 & h2 & E1 & F); [unfold turns; lia|].
  exists a, h1, h2. split; [exact E1|]. eapply Forall_impl; [|exact F]. intros [u c'|u c' r'|u v]; auto.
Qed.
Print Assumptions C178_returns_weak.

(** A push whose loads are as stale as they can be, overtaken again and again by another thread. *)
Example C178_demo :
  let cf := wexec [(0, true)] (winitial [[Do (Push 1)]; [Do (Push 2); Do (Push 3); Do (Push 4); Do (Push 5)]]) in
  let later := concat (repeat [(1, false); (1, false); (1, true); (0, true)] 20) in
  len_when_aware (whistory (wexec later cf)) /\
  wcontents (wmemory (wexec later cf)) = Some [2; 3; 4; 5; 1] /\ 3 * 5 + 2 <= count_occ Nat.eq_dec (map fst later) 0 /\
  exists th p, nth_error (wthreads cf) 0 = Some th /\ wcur th = Some (Push 1, p).
Proof.
  cbv zeta. split; [intros h1 t h2; apply (len_check_ok _ []); vm_compute; reflexivity|].
  vm_compute. split; [reflexivity|]. split; [lia|]. repeat eexists.
Qed.
