(** Property C118: dropping the shared list. *)
From Coq Require Import List Bool PeanoNat Lia Permutation.
From Verif Require Import Base ConcListModel ConcListSpec ConcListProofs.
Import ListNotations.

Section Proofs.
Context {A : Type}.
Implicit Types (m : mem A) (p : pc A).

Definition own p : nat := match owned p with Some _ => 1 | None => 0 end.
Definition own_th (th : thread A) : nat := match cur th with Some (_, p) => own p | None => 0 end.
Fixpoint owners (l : list (thread A)) : nat := match l with [] => 0 | th :: l' => own_th th + owners l' end.

Lemma load_next_own m a k b : (forall nx q, k nx = inl q -> q <> Crash -> own q = b) ->
  forall q, load_next m a k = inl q -> q <> Crash -> own q = b.
Proof. intros H q. unfold load_next. destruct (nth_error (heap m) a); [apply H|]. intros [= <-] C. elim C; auto. Qed.

Lemma store_len m a n : length (heap (store_next m a n)) = length (heap m).
Proof. unfold store_next. destruct (nth_error (heap m) a); auto. cbn. apply length_upd. Qed.

(** A step allocates a node exactly when it starts to own one. *)
Lemma micro_count p m p' m' : micro p m = (inl p', m') -> p' <> Crash ->
  length (heap m') + own p = length (heap m) + own p'.
Proof.
  destruct p as [v|v n|k|k a len|k a len|v n a len|v n a len|v n a len| |i|i a k|i a k|loc acc|]; cbn [micro].
  - intros [= <- <-] _. cbn. rewrite app_length. cbn. lia.
  - destruct (head m); [|discriminate]. intros [= <- <-] _. cbn. lia.
  - destruct (head m); destruct k; cbn; intros [= <- <-] C; cbn; try lia; elim C; auto.
  - intros [= E <-] C. f_equal. symmetry. revert C. revert p' E. apply load_next_own.
    intros [nx|] q; [intros [= <-] _; destruct k; auto|]. destruct k; cbn; [intros [= <-] _; auto|discriminate].
  - intros [= E <-] C. f_equal. symmetry. revert C. revert p' E. apply load_next_own.
    intros [nx|] q; intros [= <-] C; [destruct k; auto|elim C; auto].
  - unfold load_next. destruct (nth_error (heap m) a) as [x|]; cbn; [destruct (nnext x)|]; intros [= <- <-] C; cbn; try lia;
    elim C; auto.
  - intros [= E <-] C. f_equal. symmetry. revert C. revert p' E. apply load_next_own.
    intros [nx|] q; intros [= <-] _; auto.
  - intros [= E <-] C. f_equal. symmetry. revert C. revert p' E. apply load_next_own.
    intros [nx|] q; intros [= <-] C; auto; elim C; auto.
  - discriminate.
  - destruct (head m); [|discriminate]. intros [= <- <-] _. cbn. lia.
  - destruct k as [|k].
    + destruct (nth_error (heap m) a); [discriminate|]. intros [= <- <-] C. elim C; auto.
    + intros [= E <-] C. f_equal. symmetry. revert C. revert p' E. apply load_next_own.
      intros [nx|] q; [intros [= <-] _; auto|discriminate].
  - intros [= E <-] C. f_equal. symmetry. revert C. revert p' E. apply load_next_own.
    intros [nx|] q; intros [= <-] C; auto; elim C; auto.
  - intros [= E <-] C. f_equal. symmetry. unfold load_loc in E. destruct loc as [a|].
    + revert C. revert p' E. apply load_next_own.
      intros [nx|] q; [|discriminate]. destruct (nth_error (heap m) nx); intros [= <-] C; auto; elim C; auto.
    + destruct (head m) as [nx|]; [|discriminate]. destruct (nth_error (heap m) nx); injection E as <-; auto; elim C; auto.
  - intros [= <- <-] C. elim C; auto.
Qed.

Lemma micro_ret_count p m r m' : micro p m = (inr r, m') -> length (heap m') = length (heap m).
Proof.
  destruct p as [v|v n|k|k a len|k a len|v n a len|v n a len|v n a len| |i|i a k|i a k|loc acc|]; cbn [micro]; try discriminate;
    try (intros [= _ <-]; auto; fail).
  - destruct (head m); [discriminate|]. intros [= _ <-]. auto.
  - destruct (load_next m a _); [discriminate|]. intros [= _ <-]. apply store_len.
  - destruct k; intros [= _ <-]; auto.
Qed.

Lemma owners_upd (l : list (thread A)) t th th' : nth_error l t = Some th ->
  owners (upd l t th') + own_th th = owners l + own_th th'.
Proof.
  revert t. induction l as [|x l IH]; intros [|t] E; cbn [upd owners nth_error] in *; try discriminate.
  - injection E as ->. lia.
  - specialize (IH _ E). lia.
Qed.

Definition counted (cf : conf A) : Prop :=
  length (heap (memory cf)) = length (pushed (history cf)) + owners (threads cf).

Lemma counted_step cf t L : inv cf L -> counted cf -> counted (conf_step cf t).
Proof.
  intros HI HC. destruct (inv_step cf t L HI) as [L' HI']. revert HI'. unfold counted, conf_step in *.
  destruct (nth_error (threads cf) t) as [th|] eqn:Et; auto. intros HI'.
  assert (t < length (threads cf)) as Ht by (apply nth_error_Some; congruence).
  unfold thread_step in *. destruct (cur th) as [[c p]|] eqn:Ec.
  - destruct (micro p (memory cf)) as [[p'|r] m'] eqn:Em; cbn [memory threads history] in *.
    + pose proof (owners_upd _ t th (Thread (todo th) (Some (c, p'))) Et) as HO.
      unfold own_th in HO. cbn [cur] in HO. rewrite Ec in HO. rewrite app_nil_r.
      assert (p' <> Crash) as NC.
      { intros ->. assert (nth_error (upd (threads cf) t (Thread (todo th) (Some (c, Crash)))) t = Some (Thread (todo th) (Some (c, Crash)))) as E2.
        { rewrite nth_error_upd, Nat.eqb_refl, (proj2 (Nat.ltb_lt _ _) Ht). auto. }
        destruct (iv_pc _ _ HI' t _ c Crash E2 eq_refl) as (h0 & _ & []). }
      pose proof (micro_count _ _ _ _ Em NC). lia.
    + pose proof (owners_upd _ t th (Thread (todo th) None) Et) as HO.
      unfold own_th in HO. cbn [cur] in HO. rewrite Ec in HO.
      rewrite (micro_ret_count _ _ _ _ Em). rewrite pushed_app, app_length.
      destruct (iv_pc _ _ HI _ _ _ _ Et Ec) as (h0 & Hin & Hp).
      assert (forall v n, owned p = Some (v, n) -> nth_error (heap (memory cf)) n = Some (Node v None) /\ ~ In n L) as HOw.
      { intros v n E. destruct (iv_owned _ _ HI _ _ _ _ _ _ Et Ec E) as (K1 & K2 & _). auto. }
      pose proof (micro_ok _ _ _ _ _ _ (iv_linked _ _ HI) Hp (inside_len _ _ _ _ Hin) HOw) as HM. rewrite Em in HM.
      unfold own in HO. destruct HM as [(v & n & a & -> & -> & Eo & _)|(_ & Hc & Eo & _)]; rewrite Eo in HO.
      * cbn. lia.
      * destruct c; cbn in Hc |- *; try tauto; lia.
  - destruct (todo th) as [|c cs] eqn:Etd; cbn [memory threads history].
    + rewrite app_nil_r. pose proof (owners_upd _ t th th Et). lia.
    + pose proof (owners_upd _ t th (Thread cs (Some (c, start c))) Et) as HO.
      unfold own_th in HO. cbn [cur] in HO. rewrite Ec in HO. rewrite pushed_snoc_inv.
      assert (own (start c) = 0) by (destruct c; auto). lia.
Qed.

Lemma counted_exec progs sched : counted (exec sched (initial (A := A) progs)).
Proof.
  assert (forall cf L, inv cf L -> counted cf -> counted (exec sched cf)) as K.
  { induction sched as [|t sched IH]; intros cf L HI HC; auto. cbn.
    destruct (inv_step cf t L HI) as [L' HI']. eapply IH; eauto. eapply counted_step; eauto. }
  eapply K; [apply inv_initial|]. unfold counted, initial. cbn.
  induction progs; cbn; auto.
Qed.

Lemma drop_walk m L vs : linked m L vs -> forall k fuel hp acc, k <= length L -> length L - k < fuel ->
  length hp = length (heap m) ->
  (forall a, nth_error hp a = if existsb (Nat.eqb a) (firstn k L) then Some None else option_map Some (nth_error (heap m) a)) ->
  exists hp', drop_loop fuel hp (nth_error L k) acc = Freed hp' (acc ++ skipn k vs) /\
    length hp' = length (heap m) /\
    forall a, nth_error hp' a = if existsb (Nat.eqb a) L then Some None else option_map Some (nth_error (heap m) a).
Proof.
  intros HL k fuel. revert k. induction fuel as [|f IH]; intros k hp acc Hk Hf Hlen Hh; [lia|].
  destruct (nth_error L k) as [a|] eqn:E.
  - destruct (linked_get _ _ _ _ _ HL E) as (v & Ev & Evs). pose proof (nth_error_lt _ _ _ E) as Hlt.
    cbn [drop_loop]. 
    assert (nth_error hp a = Some (Some (Node v (nth_error L (S k))))) as ->.
    { rewrite Hh, Ev. destruct (existsb (Nat.eqb a) (firstn k L)) eqn:Ex; auto. exfalso.
      apply existsb_exists in Ex. destruct Ex as (b & Hb & Eb). apply Nat.eqb_eq in Eb. subst b.
      apply In_nth_error in Hb. destruct Hb as [j Hj]. 
      assert (j < k) by (apply nth_error_lt in Hj; rewrite firstn_length in Hj; lia).
      assert (nth_error L j = Some a) as Hj' by (rewrite <- (firstn_skipn k L); rewrite nth_error_app1; auto; eapply nth_error_lt; eauto).
      pose proof (proj1 (NoDup_nth_error L) (lk_nodup _ _ _ HL) j k ltac:(lia) ltac:(congruence)). lia. }
    cbn [nval nnext].
    destruct (IH (S k) (upd hp a None) (acc ++ [v])) as (hp' & E1 & E2 & E3); try lia.
    + rewrite length_upd; auto.
    + intros b. rewrite nth_error_upd. rewrite (firstn_snoc L k a E), existsb_app. cbn [existsb]. rewrite orb_false_r.
      destruct (Nat.eqb_spec a b) as [<-|Hn].
      * rewrite Nat.eqb_refl, orb_true_r. assert (a < length hp) as Ha by (rewrite Hlen; eapply nth_error_lt; eauto).
        rewrite (proj2 (Nat.ltb_lt _ _) Ha). auto.
      * rewrite (proj2 (Nat.eqb_neq b a)) by auto. rewrite orb_false_r. apply Hh.
    + exists hp'. split; auto. rewrite E1. f_equal. rewrite <- app_assoc. f_equal. cbn.
      clear -Evs. revert k Evs. induction vs as [|x vs IH]; intros [|k] E; cbn in *; try discriminate.
      * congruence.
      * apply IH. auto.
  - apply nth_error_None in E. assert (k = length L) as -> by lia. exists hp. cbn.
    rewrite <- (lk_len _ _ _ HL), skipn_all, app_nil_r. split; auto. split; auto. rewrite firstn_all in Hh. auto.
Qed.

End Proofs.

(** No thread is inside a call. *)
Definition idle {A} (cf : conf A) : Prop := Forall (fun th => cur th = None) (threads cf).

(** Whatever the threads did before, dropping the list when no call is in progress ends, frees
    every node ever allocated exactly once (freeing twice, or something else, would be
    [BadFree]), and drops the pushed values, each once and in order. *)
Theorem C118_drop : forall (A : Type) (progs : list (list (call A))) sched fuel,
  let cf := exec sched (initial progs) in
  idle cf -> length (pushed (history cf)) < fuel ->
  exists hp, drop_list fuel (memory cf) = Freed hp (pushed (history cf)) /\
    length hp = length (heap (memory cf)) /\ Forall (fun c => c = None) hp /\
    length (heap (memory cf)) = length (pushed (history cf)).
Proof.
  intros A progs sched fuel cf Hi Hf. pose proof (counted_exec progs sched) as HC. fold cf in HC. unfold counted in HC.
  assert (owners (threads cf) = 0) as H0.
  { clear -Hi. induction Hi as [|th l E Hl IH]; auto. cbn. unfold own_th at 1. rewrite E. auto. }
  rewrite H0, Nat.add_0_r in HC.
  destruct (reachable progs sched) as [L HI]. fold cf in HI. pose proof (iv_linked _ _ HI) as HL.
  pose proof (lk_len _ _ _ HL) as Ell.
  destruct (drop_walk _ _ _ HL 0 fuel (map Some (heap (memory cf))) []) as (hp & E1 & E2 & E3); try lia.
  - rewrite map_length. auto.
  - intros a. cbn. rewrite nth_error_map. auto.
  - exists hp. unfold drop_list. rewrite (lk_head _ _ _ HL).
    assert (hd_error L = nth_error L 0) as -> by (destruct L; auto). rewrite E1. cbn [app skipn].
    split; auto. split; auto. split; auto.
    apply Forall_forall. intros x Hx. apply In_nth_error in Hx. destruct Hx as [a Ha].
    assert (In a L) as Hin.
    { assert (a < length (heap (memory cf))) as Hlt by (rewrite <- E2; eapply nth_error_lt; eauto).
      assert (incl (seq 0 (length (heap (memory cf)))) L) as Hincl.
      { apply NoDup_length_incl; [apply (lk_nodup _ _ _ HL)|rewrite seq_length; lia|].
        intros b Hb. apply In_nth_error in Hb. destruct Hb as [i Hb]. destruct (linked_get _ _ _ _ _ HL Hb) as (v & Ev & _).
        apply nth_error_lt in Ev. apply in_seq. lia. }
      apply Hincl, in_seq. lia. }
    rewrite E3 in Ha. assert (existsb (Nat.eqb a) L = true) as Ex.
    { apply existsb_exists. exists a. split; auto. apply Nat.eqb_refl. }
    rewrite Ex in Ha. congruence.
Qed.
Print Assumptions C118_drop.

(** Indexing the list by what [get] answers: the value at the position among the pushed ones, or
    a panic if there are not so many. *)
Theorem C118_index : forall (A : Type) (progs : list (list (call A))) sched h1 t i r h2,
  let cf := exec sched (initial progs) in
  history cf = h1 ++ Ret t (Get i) r :: h2 ->
  index_result r = match nth_error (pushed h1) i with Some v => Ok v | None => Panic end.
Proof.
  intros A progs sched h1 t i r h2 cf E. destruct (reachable progs sched) as [L HI]. fold cf in HI.
  destruct (iv_hist _ _ HI h1 t (Get i) r h2 E) as (h0 & Hin & Ha).
  cbn in Ha. destruct r as [n|o| |]; try contradiction. subst o. cbn. destruct (nth_error (pushed h1) i); auto.
Qed.
Print Assumptions C118_index.

(** Two racing pushes and one more. *)
Example C118_demo :
  let cf := exec [0; 1; 0; 1; 1; 0; 0; 0; 0; 0; 0; 2; 2; 2; 2; 2; 2; 2; 2; 2; 2; 2] (initial [[Push 10]; [Push 20]; [Push 30]]) in
  idle cf /\ length (heap (memory cf)) = 3 /\
  drop_list 4 (memory cf) = Freed [None; None; None] [20; 10; 30].
Proof. vm_compute. repeat constructor. Qed.
