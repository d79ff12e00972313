(** Property C174: dropping the shared list when the destructor of an element panics. *)
From Coq Require Import List Bool PeanoNat Lia Permutation.
From Verif Require Import Base ConcListModel ConcListSpec ConcListProofs PropListDrop ListPanicModel.
Import ListNotations.

(** The values in nodes that are still allocated. *)
Definition left_behind {A} (hp : list (option (node A))) : list A :=
  flat_map (fun c => match c with Some x => [nval x] | None => [] end) hp.

Section Proofs.
Context {A : Type} (destroy : A -> destroyed).
Implicit Types (m : mem A).

Definition freed_upto m (L : list nat) (k : nat) (hp : list (option (node A))) : Prop :=
  length hp = length (heap m) /\
  forall a, nth_error hp a = if existsb (Nat.eqb a) (firstn k L) then Some None else option_map Some (nth_error (heap m) a).

Lemma free_next m L vs k a hp : linked m L vs -> nth_error L k = Some a -> freed_upto m L k hp ->
  exists v, nth_error hp a = Some (Some (Node v (nth_error L (S k)))) /\ nth_error vs k = Some v /\ freed_upto m L (S k) (upd hp a None).
Proof.
  intros HL E (Hlen & Hh). destruct (linked_get _ _ _ _ _ HL E) as (v & Ev & Evs). exists v.
  split; [|split; [exact Evs|split]].
  - rewrite Hh, Ev. destruct (existsb (Nat.eqb a) (firstn k L)) eqn:Ex; auto. exfalso.
    apply existsb_exists in Ex. destruct Ex as (b & Hb & Eb). apply Nat.eqb_eq in Eb. subst b.
    apply In_nth_error in Hb. destruct Hb as [j Hj].
    assert (j < k) by (apply nth_error_lt in Hj; rewrite firstn_length in Hj; lia).
    assert (nth_error L j = Some a) as Hj' by (rewrite <- (firstn_skipn k L); rewrite nth_error_app1; auto; eapply nth_error_lt; eauto).
    pose proof (nth_error_lt _ _ _ E).
    pose proof (proj1 (NoDup_nth_error L) (lk_nodup _ _ _ HL) j k ltac:(lia) ltac:(congruence)). lia.
  - rewrite length_upd. auto.
  - intros b. rewrite nth_error_upd. rewrite (firstn_snoc L k a E), existsb_app. cbn [existsb]. rewrite orb_false_r.
    destruct (Nat.eqb_spec a b) as [<-|Hn].
    + rewrite Nat.eqb_refl, orb_true_r. assert (a < length hp) as Ha by (rewrite Hlen; eapply nth_error_lt; eauto).
      rewrite (proj2 (Nat.ltb_lt _ _) Ha). auto.
    + rewrite (proj2 (Nat.eqb_neq b a)) by auto. rewrite orb_false_r. apply Hh.
Qed.

(** Past values whose destructors return. *)
Lemma walk_fine m L vs : linked m L vs -> forall j k fuel hp acc, k + j <= length L -> j <= fuel -> freed_upto m L k hp ->
  (forall i v, k <= i < k + j -> nth_error vs i = Some v -> destroy v = Fine) ->
  exists hp', freed_upto m L (k + j) hp' /\
    pdrop_loop destroy fuel hp (nth_error L k) acc = pdrop_loop destroy (fuel - j) hp' (nth_error L (k + j)) (acc ++ firstn j (skipn k vs)).
Proof.
  intros HL. induction j as [|j IH]; intros k fuel hp acc Hk Hf Hh Hd.
  - exists hp. rewrite Nat.add_0_r, Nat.sub_0_r. cbn [firstn]. rewrite app_nil_r. auto.
  - destruct (nth_error L k) as [a|] eqn:E; [|apply nth_error_None in E; lia]. destruct fuel as [|fuel]; [lia|].
    destruct (free_next _ _ _ _ _ _ HL E Hh) as (v & Ev & Evs & Hh').
    cbn [pdrop_loop]. rewrite Ev. cbn [nval nnext]. rewrite (Hd k v ltac:(lia) Evs).
    destruct (IH (S k) fuel (upd hp a None) (acc ++ [v])) as (hp' & F & E'); auto; try lia.
    { intros i w Hi. apply Hd. lia. }
    exists hp'. replace (k + S j) with (S k + j) by lia. split; auto. rewrite E'. cbn [Nat.sub]. f_equal. rewrite <- app_assoc. f_equal.
    clear - Evs. revert k Evs. induction vs as [|x vs IH]; intros [|k] Ev; cbn in *; try discriminate; [congruence|].
    apply (IH k Ev).
Qed.

Lemma skipn_S_nth (l : list A) k v : nth_error l k = Some v -> skipn k l = v :: skipn (S k) l.
Proof. revert k. induction l as [|x l IH]; intros [|k] E; cbn in *; try discriminate; [congruence|]. apply IH. exact E. Qed.

(** What is left when the first [k] nodes have been freed. *)
Lemma left_after m L vs k hp : linked m L vs -> length L = length (heap m) -> freed_upto m L k hp ->
  Permutation (left_behind hp) (skipn k vs).
Proof.
  intros HL HLen (Hlen & Hh).
  assert (Permutation (seq 0 (length hp)) L) as P.
  { apply NoDup_Permutation_bis; [apply seq_NoDup|rewrite seq_length; lia|].
    rewrite Hlen. apply NoDup_length_incl; [apply (lk_nodup _ _ _ HL)|rewrite seq_length; lia|].
    intros b Hb. apply In_nth_error in Hb. destruct Hb as [i Hb]. destruct (linked_get _ _ _ _ _ HL Hb) as (v & Ev & _).
    apply nth_error_lt in Ev. apply in_seq. lia. }
  set (g := fun a => match nth_error hp a with Some (Some x) => [nval x] | _ => [] end).
  assert (left_behind hp = flat_map g (seq 0 (length hp))) as ->.
  { unfold g, left_behind. clear. induction hp as [|c hp IH] using rev_ind; auto.
    rewrite app_length, Nat.add_comm. cbn [length Nat.add]. rewrite seq_S, !flat_map_app. cbn [flat_map Nat.add].
    rewrite nth_error_app2, Nat.sub_diag by lia. cbn [nth_error]. rewrite app_nil_r. f_equal. rewrite IH.
    rewrite !flat_map_concat_map. f_equal. apply map_ext_in. intros a Ha. apply in_seq in Ha. rewrite nth_error_app1 by lia. auto. }
  rewrite (Permutation_flat_map g P). rewrite <- (firstn_skipn k L) at 1. rewrite flat_map_app.
  assert (flat_map g (firstn k L) = []) as ->.
  { assert (forall l, incl l (firstn k L) -> flat_map g l = []) as K; [|apply K, incl_refl].
    induction l as [|a l IH]; intros Hi; auto. cbn [flat_map]. rewrite IH by (intros x Hx; apply Hi; right; auto).
    unfold g. rewrite Hh. assert (existsb (Nat.eqb a) (firstn k L) = true) as ->; auto.
    apply existsb_exists. exists a. split; [apply Hi; left; auto|apply Nat.eqb_refl]. }
  cbn [app].
  assert (forall j, j <= length L -> k <= length L - j -> flat_map g (skipn (length L - j) L) = skipn (length L - j) vs) as K.
  { induction j as [|j IH]; intros Hj Hkj.
    - rewrite Nat.sub_0_r, skipn_all. pose proof (lk_len _ _ _ HL). rewrite skipn_all2 by lia. auto.
    - destruct (nth_error L (length L - S j)) as [a|] eqn:E; [|apply nth_error_None in E; lia].
      assert (skipn (length L - S j) L = a :: skipn (length L - j) L) as ->.
      { replace (length L - j) with (S (length L - S j)) by lia. clear - E. revert E. generalize (length L - S j). induction L as [|x L IH]; intros [|n] E; cbn in *; try discriminate; [congruence|]. apply IH. exact E. }
      destruct (linked_get _ _ _ _ _ HL E) as (v & Ev & Evs). rewrite (skipn_S_nth vs _ v Evs). cbn [flat_map].
      replace (S (length L - S j)) with (length L - j) by lia. rewrite IH by lia.
      unfold g at 1. rewrite Hh, Ev. destruct (existsb (Nat.eqb a) (firstn k L)) eqn:Ex; auto. exfalso.
      apply existsb_exists in Ex. destruct Ex as (b & Hb & Eb). apply Nat.eqb_eq in Eb. subst b.
      apply In_nth_error in Hb. destruct Hb as [i Hi].
      assert (i < k) by (apply nth_error_lt in Hi; rewrite firstn_length in Hi; lia).
      assert (nth_error L i = Some a) as Hi' by (rewrite <- (firstn_skipn k L); rewrite nth_error_app1; auto; eapply nth_error_lt; eauto).
      pose proof (proj1 (NoDup_nth_error L) (lk_nodup _ _ _ HL) i (length L - S j) ltac:(lia) ltac:(congruence)). lia. }
  destruct (Nat.le_gt_cases k (length L)) as [H|H].
  - specialize (K (length L - k) ltac:(lia) ltac:(lia)). replace (length L - (length L - k)) with k in K by lia. rewrite K. auto.
  - pose proof (lk_len _ _ _ HL). rewrite !skipn_all2 by lia. auto.
Qed.
End Proofs.

(** Whatever the threads did before, with no call in progress: if every destructor returns, everything is dropped and freed once, as in
    C118.  If that of [v] is the first that does not, the values before it and [v] itself have been dropped, once and in order, and
    their nodes freed; the nodes behind stay allocated for ever and their values are not dropped.  Nothing is ever freed twice. *)
Theorem C174_list_partial : forall (A : Type) (progs : list (list (call A))) sched fuel (destroy : A -> destroyed),
  let cf := exec sched (initial progs) in
  idle cf -> length (pushed (history cf)) < fuel ->
  (Forall (fun v => destroy v = Fine) (pushed (history cf)) ->
     exists hp, pdrop_list destroy fuel (memory cf) = PFreed hp (pushed (history cf)) /\ left_behind hp = []) /\
  (forall before v after, pushed (history cf) = before ++ v :: after -> Forall (fun v => destroy v = Fine) before ->
     (destroy v = Unwinds -> exists hp, pdrop_list destroy fuel (memory cf) = PUnwinds hp (before ++ [v]) /\
        Permutation (left_behind hp) after /\ length hp = length (pushed (history cf))) /\
     (destroy v = Aborts -> pdrop_list destroy fuel (memory cf) = PAborts (before ++ [v]))).
Proof.
  intros A progs sched fuel destroy cf Hi Hf. destruct (C118_drop A progs sched fuel Hi Hf) as (_ & _ & _ & _ & Hall). fold cf in Hall.
  destruct (reachable progs sched) as [L HI]. fold cf in HI. pose proof (iv_linked _ _ HI) as HL. pose proof (lk_len _ _ _ HL) as Ell.
  set (vs := pushed (history cf)) in *. set (m := memory cf) in *.
  assert (freed_upto m L 0 (map Some (heap m))) as F0.
  { split; [apply map_length|]. intros a. cbn. rewrite nth_error_map. auto. }
  assert (hd_error L = nth_error L 0) as Hd by (destruct L; auto).
  assert (length L = length (heap m)) as HLen by lia.
  unfold pdrop_list. rewrite (lk_head _ _ _ HL), Hd. split.
  - intros Fa. destruct (walk_fine destroy m L vs HL (length L) 0 fuel (map Some (heap m)) []) as (hp & F & E); auto; try lia.
    { intros i v _ Ev. rewrite Forall_forall in Fa. apply Fa. eapply nth_error_In; eauto. }
    cbn [Nat.add] in *. exists hp. rewrite E. rewrite (proj2 (nth_error_None L (length L))) by lia.
    cbn [pdrop_loop app]. split; [|].
    + destruct (fuel - length L); cbn [pdrop_loop]; f_equal; cbn [skipn]; apply firstn_all2; lia.
    + pose proof (left_after m L vs _ hp HL HLen F) as P. rewrite skipn_all2 in P by lia. apply Permutation_nil, Permutation_sym, P.
  - intros before v after Evs Fa.
    assert (nth_error vs (length before) = Some v) as Ev by (rewrite Evs, nth_error_app2, Nat.sub_diag by lia; auto).
    assert (length vs = length before + S (length after)) as Lv by (rewrite Evs, app_length; cbn; lia).
    destruct (walk_fine destroy m L vs HL (length before) 0 fuel (map Some (heap m)) []) as (hp & F & E); auto; try lia.
    { intros i w Hi2 Ew. rewrite Evs, nth_error_app1 in Ew by lia. rewrite Forall_forall in Fa. apply Fa. eapply nth_error_In; eauto. }
    cbn [Nat.add] in *. cbn [skipn] in E. rewrite Evs in E at 1. rewrite firstn_app, firstn_all, Nat.sub_diag in E. cbn [firstn] in E.
    rewrite app_nil_r in E. cbn [app] in E. rewrite E.
    destruct (nth_error L (length before)) as [a|] eqn:Ea; [|apply nth_error_None in Ea; lia].
    destruct (free_next m L vs _ a hp HL Ea F) as (w & Ew & Ew2 & F2). assert (w = v) as -> by congruence.
    destruct (fuel - length before) as [|f] eqn:Ef; [lia|]. cbn [pdrop_loop]. rewrite Ew. cbn [nval].
    split; intros D; rewrite D; [|reflexivity]. eexists. split; [reflexivity|].
    pose proof (left_after m L vs _ _ HL HLen F2) as P.
    assert (skipn (S (length before)) vs = after) as Sk.
    { rewrite Evs. replace (S (length before)) with (length before + 1) by lia. rewrite skipn_app, skipn_all2 by lia.
      replace (length before + 1 - length before) with 1 by lia. reflexivity. }
    rewrite Sk in P. split; [exact P|]. rewrite (proj1 F2). congruence.
Qed.
Print Assumptions C174_list_partial.

(** Two values are pushed and the destructor of the first panics: the second is never dropped, its node never freed. *)
Theorem C174_refuted : exists (progs : list (list (call nat))) sched hp (destroy : nat -> destroyed),
  let cf := exec sched (initial progs) in
  idle cf /\ pushed (history cf) = [10; 20; 30] /\ destroy 20 = Fine /\ destroy 30 = Fine /\
  pdrop_list destroy 4 (memory cf) = PUnwinds hp [10] /\ left_behind hp = [20; 30].
Proof.
  exists [[Push 10; Push 20]; [Push 30]], (repeat 0 30 ++ repeat 1 20), [None; Some (Node 20 (Some 2)); Some (Node 30 None)], (fun v => if Nat.eqb v 10 then Unwinds else Fine).
  vm_compute. repeat split; repeat constructor.
Qed.
Print Assumptions C174_refuted.

(** The interner: a chunk of slots is dropped without a panic, with one, or aborts, according to how many of its values have a
    destructor that panics; so by the theorem above one such value leaks all later chunks, and two in one chunk abort. *)
Definition panicking {V} (panics : V -> bool) (chunk : list (option V)) : nat :=
  length (filter (fun s => match s with Some v => panics v | None => false end) chunk).
Theorem C174_chunk_partial : forall (V : Type) (panics : V -> bool) chunk,
  destroy_chunk panics false chunk =
    match panicking panics chunk with 0 => Fine | 1 => Unwinds | _ => Aborts end.
Proof.
  intros V panics chunk.
  assert (forall l, destroy_chunk panics true l = match panicking panics l with 0 => Unwinds | _ => Aborts end) as K.
  { induction l as [|[v|] l IH]; cbn; auto. destruct (panics v); auto. }
  induction chunk as [|[v|] l IH]; cbn; auto. destruct (panics v); auto. rewrite K. unfold panicking. cbn.
  fold (panicking panics l). destruct (panicking panics l); auto.
Qed.
Print Assumptions C174_chunk_partial.

Example C174_demo :
  let cf := exec (repeat 0 60) (initial [[Push [Some 1; None]; Push [Some 7; Some 2]; Push [Some 3; None]]]) in
  let bad := destroy_chunk (Nat.eqb 7) false in
  idle cf /\ length (pushed (history cf)) < 4 /\ bad [Some 7; Some 2] = Unwinds /\ bad [Some 7; Some 7] = Aborts /\
  pdrop_list bad 4 (memory cf) = PUnwinds [None; None; Some (Node [Some 3; None] None)] [[Some 1; None]; [Some 7; Some 2]].
Proof. vm_compute. repeat split; repeat constructor. Qed.
