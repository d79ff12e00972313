(** Whole executions of the shared interner, and executions in which calls of [add] do not
    overlap. *)
From Coq Require Import ZArith List Bool Lia.
From Verif Require Import Base Arith InternModel InternProofs ConcInternModel ConcInternSpec ConcInternProofs.
Import ListNotations.
Local Open Scope Z_scope.

Section More.
Context {T : Type} (eqb : T -> T -> bool) (dbg : bool).
Implicit Types (st : store T) (cf : iconf T) (p : option (ipc T)) (h : handle T).

Lemma iinv_weaken N N' cf : (N <= N')%nat -> iinv N cf -> iinv N' cf.
Proof.
  intros HN [J1 J2 J3 J4 J5 J6 J7]. constructor; auto. intros k s Hk E. specialize (J6 k s Hk E). lia.
Qed.

Lemma iinv_conf_step N cf a : iinv N cf -> Z.of_nat N < 2 ^ 64 - 1 -> iinv (S N) (iconf_step eqb dbg cf a).
Proof.
  intros HI HN. destruct a as [t c|t]; cbn [iconf_step].
  - destruct (nth_error (ithreads cf) t) as [[q|]|] eqn:Et; try (apply (iinv_weaken N); [lia|exact HI]).
    apply (iinv_weaken N); [lia|]. apply iinv_begin; auto.
  - destruct (nth_error (ithreads cf) t) as [[q|]|] eqn:Et; try (apply (iinv_weaken N); [lia|exact HI]).
    apply iinv_istep; auto.
Qed.

Lemma iinv_tighten N M cf : iinv N cf ->
  (forall k, Z.of_nat (held cf k + arriving cf k) <= Z.of_nat M) -> iinv M cf.
Proof.
  intros [J1 J2 J3 J4 J5 J6 J7] HM. constructor; auto. intros k s Hk E. rewrite (J4 k s Hk E). apply HM.
Qed.

(** The largest count at which an increment is still exact. *)
Definition full : nat := Z.to_nat (2 ^ 64 - 2).
Lemma full_val : Z.of_nat full = 2 ^ 64 - 2.
Proof. unfold full. rewrite Z2Nat.id; [reflexivity|]. lia. Qed.
Opaque full.

Lemma iinv_full N cf : iinv N cf -> (forall k, Z.of_nat (held cf k + arriving cf k) < 2 ^ 64 - 1) -> iinv full cf.
Proof. intros HI H. apply (iinv_tighten N); [exact HI|]. intros k. rewrite full_val. specialize (H k). lia. Qed.

Lemma iinv_run acts : forall N cf, iinv N cf -> counts_fit eqb dbg cf acts ->
  exists N', iinv N' (iexec eqb dbg acts cf).
Proof.
  induction acts as [|a acts IH]; intros N cf HI HF; [exists N; exact HI|].
  change (iexec eqb dbg (a :: acts) cf) with (iexec eqb dbg acts (iconf_step eqb dbg cf a)).
  apply (IH (S full)).
  - apply iinv_conf_step; [|rewrite full_val; lia]. apply (iinv_full N); [exact HI|].
    intros k. apply (HF [] (a :: acts)). reflexivity.
  - intros a1 a2 k E. apply (HF (a :: a1) a2). rewrite E. reflexivity.
Qed.

Lemma iinv_exec acts : forall N cf, iinv N cf -> Z.of_nat (N + length acts) < 2 ^ 64 ->
  iinv (N + length acts) (iexec eqb dbg acts cf).
Proof.
  induction acts as [|a acts IH]; intros N cf HI HN.
  - cbn. rewrite Nat.add_0_r. exact HI.
  - cbn [length] in *. replace (N + S (length acts))%nat with (S N + length acts)%nat by lia.
    apply IH; [|lia]. apply iinv_conf_step; [exact HI|]. lia.
Qed.

Lemma fresh_slots m k s : 0 <= k -> slot_of (repeat (new_chunk (T := T)) m) k = Some s -> s = new_uninit.
Proof.
  intros Hk. unfold slot_of. rewrite (proj2 (Z.ltb_ge k 0)) by lia. intros E. apply nth_error_In in E.
  unfold flat in E. apply in_concat in E. destruct E as (c & Hc & Hs). apply repeat_spec in Hc. subst c.
  apply repeat_spec in Hs. exact Hs.
Qed.

Lemma cnt_none (f : option (ipc T) -> bool) n : f None = false -> cnt f (repeat None n) = 0%nat.
Proof. intros H. apply cnt_zero. intros y Hy. apply repeat_spec in Hy. subst y. exact H. Qed.

Lemma iinv_initial n capacity : iinv 0 (iinitial (T := T) n capacity).
Proof.
  assert (HS : forall k s, 0 <= k -> slot_of (with_capacity (T := T) capacity) k = Some s -> s = new_uninit)
    by (intros k s; apply fresh_slots).
  constructor; cbn [iinitial istore ithreads handles reads].
  - unfold shape, with_capacity. apply Forall_forall. intros c Hc. apply repeat_spec in Hc. subst c. apply repeat_length.
  - intros t q E. apply nth_error_In, repeat_spec in E. discriminate.
  - intros [|m] h E; discriminate.
  - intros k s Hk E. rewrite (HS k s Hk E), cnt_none by reflexivity. reflexivity.
  - intros [|m]; cbn; rewrite !cnt_none by reflexivity; auto.
  - intros k s Hk E. rewrite (HS k s Hk E). cbn. lia.
  - intros m o [].
Qed.

Lemma reachable_inv n capacity acts : Z.of_nat (length acts) < 2 ^ 64 ->
  iinv (length acts) (iexec eqb dbg acts (iinitial n capacity)).
Proof. intros H. apply (iinv_exec acts 0); [apply iinv_initial|exact H]. Qed.

Lemma counted N cf k : iinv N cf -> Z.of_nat (held cf k + arriving cf k) <= Z.of_nat N.
Proof.
  intros [J1 J2 J3 J4 J5 J6 J7].
  change (held cf k) with (cnt (hw k) (handles cf)). change (arriving cf k) with (cnt (arr k) (ithreads cf)).
  destruct (Z.ltb_spec k 0) as [Hk|Hk].
  - rewrite (cnt_zero (hw k)), (cnt_zero (arr k)); [lia| |].
    + intros [[| | | | |v i j| | | | | | | |]|] _; try reflexivity. cbn [arr]. apply Z.eqb_neq. pose proof (offset_nonneg i j). lia.
    + intros h Hin. apply In_nth_error in Hin. destruct Hin as [n En]. destruct (J3 _ _ En) as [H0 _].
      unfold hw. rewrite (proj2 (Z.eqb_neq (hid h) k)) by lia. reflexivity.
  - destruct (slot_of (istore cf) k) as [s|] eqn:Es.
    + specialize (J6 k s Hk Es). rewrite (J4 k s Hk Es) in J6. exact J6.
    + rewrite (cnt_zero (hw k)), (cnt_zero (arr k)); [lia| |].
      * intros p Hin. apply In_nth_error in Hin. destruct Hin as [t Et]. destruct p as [q|]; [|reflexivity].
        specialize (J2 _ _ Et). destruct q; try reflexivity. cbn [arr]. cbn [pc_in] in J2.
        destruct (in_range_slot _ _ _ J1 J2) as [s Es']. apply Z.eqb_neq. intros E. congruence.
      * intros h Hin. apply In_nth_error in Hin. destruct Hin as [n En]. destruct (J3 _ _ En) as (_ & s & Es' & _).
        unfold hw. rewrite (proj2 (Z.eqb_neq (hid h) k)) by congruence. reflexivity.
Qed.

Lemma run_inv n capacity acts : counts_fit eqb dbg (iinitial n capacity) acts ->
  exists N, iinv N (iexec eqb dbg acts (iinitial n capacity)).
Proof. apply (iinv_run acts 0), iinv_initial. Qed.

(** Executions of fewer than 2^64 - 1 steps cannot fill a count. *)
Lemma counts_fit_short n capacity acts : Z.of_nat (length acts) < 2 ^ 64 - 1 ->
  counts_fit eqb dbg (iinitial n capacity) acts.
Proof.
  intros H a1 a2 k E. cbn zeta. rewrite E, app_length in H.
  pose proof (counted _ _ k (reachable_inv n capacity a1 ltac:(lia))). lia.
Qed.

(** ** Calls of [add] one at a time *)
Definition xpc st (hs : list (handle T)) (q : ipc T) : Prop :=
  match q with
  | FindVal _ i j c => c = 0 -> cnt (hw (idx_to_offset i j)) hs = 0%nat
  | IncrLive v i j => exists s, slot_of st (idx_to_offset i j) = Some s /\ cont s = Some v
  | IncrDead _ i j | SetVal _ i j => cnt (hw (idx_to_offset i j)) hs = 0%nat
  | PushLink _ len => len = length st
  | _ => True
  end.

Definition holds st h : Prop := hst h <> Gone -> exists s, slot_of st (hid h) = Some s /\ cont s = Some (hval h).

Record xinv cf : Prop := {
  xi_handles : forall n h, nth_error (handles cf) n = Some h -> holds (istore cf) h;
  xi_pc : forall t q, nth_error (ithreads cf) t = Some (Some q) -> xpc (istore cf) (handles cf) q;
  xi_reads : forall n o, In (n, o) (reads cf) -> exists h, nth_error (handles cf) n = Some h /\ o = Some (hval h) }.

(** Handles keep their number, id and value. *)
Definition hsame (hs hs' : list (handle T)) : Prop := forall n h, nth_error hs n = Some h ->
  exists h', nth_error hs' n = Some h' /\ hid h' = hid h /\ hval h' = hval h.

Lemma hsame_refl hs : hsame hs hs.
Proof. intros n h E. eauto. Qed.
Lemma hsame_app hs h : hsame hs (hs ++ [h]).
Proof.
  intros n x E. exists x. split; [|auto]. rewrite nth_error_app1; [exact E|]. apply nth_error_Some. rewrite E. discriminate.
Qed.
Lemma hsame_upd hs n k v s s' : nth_error hs n = Some (Handle k v s) -> hsame hs (upd hs n (Handle k v s')).
Proof.
  intros En m h E. destruct (Nat.eq_dec n m) as [<-|Hmn].
  - exists (Handle k v s'). split; [eapply nth_upd_same; eauto|]. rewrite En in E. injection E as <-. auto.
  - exists h. rewrite nth_upd_other; auto.
Qed.
Lemma hsame_trans a b c : hsame a b -> hsame b c -> hsame a c.
Proof.
  intros H1 H2 n h E. destruct (H1 n h E) as (h1 & E1 & I1 & V1). destruct (H2 n h1 E1) as (h2 & E2 & I2 & V2).
  exists h2. repeat split; congruence.
Qed.

Lemma reads_same (hs hs' : list (handle T)) (rs : list (nat * option T)) : hsame hs hs' ->
  (forall n o, In (n, o) rs -> exists h, nth_error hs n = Some h /\ o = Some (hval h)) ->
  forall n o, In (n, o) rs -> exists h, nth_error hs' n = Some h /\ o = Some (hval h).
Proof.
  intros HS H n o Hin. destruct (H n o Hin) as (h & E & Eo). destruct (HS n h E) as (h' & E' & _ & EV).
  exists h'. split; [exact E'|]. congruence.
Qed.

(** Same values in the slots, and the same number of chunks. *)
Definition same_vals st st' : Prop := length st' = length st /\
  forall k s, 0 <= k -> slot_of st k = Some s -> exists s', slot_of st' k = Some s' /\ cont s' = cont s.

Lemma same_vals_refl st : same_vals st st.
Proof. split; [reflexivity|]. eauto. Qed.

Lemma same_vals_put st st' k0 s0 d : slot_of st k0 = Some s0 -> length st' = length st ->
  (forall k, 0 <= k -> slot_of st' k = if k0 =? k then Some (Slot d (cont s0)) else slot_of st k) -> same_vals st st'.
Proof.
  intros E0 HL H. split; [exact HL|]. intros k s Hk E. rewrite H by exact Hk.
  destruct (Z.eqb_spec k0 k) as [->|_]; [|eauto]. eexists. split; [reflexivity|]. cbn. congruence.
Qed.

Lemma holds_same st st' h : same_vals st st' -> 0 <= hid h -> holds st h -> holds st' h.
Proof.
  intros [_ H] Hk Hh Hg. destruct (Hh Hg) as (s & E & Ec). destruct (H _ _ Hk E) as (s' & E' & Ec').
  exists s'. split; [exact E'|]. congruence.
Qed.

Lemma xpc_same st st' (hs hs' : list (handle T)) q : same_vals st st' ->
  (forall k, cnt (hw k) hs = 0%nat -> cnt (hw k) hs' = 0%nat) -> xpc st hs q -> xpc st' hs' q.
Proof.
  intros [HL HV] HC. destruct q; cbn; auto.
  - intros (s & E & Ec). destruct (HV _ _ (offset_nonneg _ _) E) as (s' & E' & Ec'). exists s'. split; congruence.
  - congruence.
Qed.

(** A step outside [add]. *)
Lemma xinv_other cf cf' t p' :
  xinv cf -> ithreads cf' = upd (ithreads cf) t p' ->
  same_vals (istore cf) (istore cf') ->
  (forall k, cnt (hw k) (handles cf) = 0%nat -> cnt (hw k) (handles cf') = 0%nat) ->
  (forall q, p' = Some q -> adding (Some q) = false \/ xpc (istore cf') (handles cf') q) ->
  (forall n h, nth_error (handles cf') n = Some h -> holds (istore cf') h) ->
  (forall n o, In (n, o) (reads cf') -> exists h, nth_error (handles cf') n = Some h /\ o = Some (hval h)) ->
  xinv cf'.
Proof.
  intros [X1 X2 X3] ET HV HC Hq HH HR. constructor; auto.
  intros t' q E. rewrite ET in E. apply nth_upd_cases in E. destruct E as [[-> E]|[_ E]].
  - symmetry in E. destruct (Hq q E) as [Ha|Hx]; [|exact Hx]. destruct q; try discriminate; exact I.
  - eapply xpc_same; eauto.
Qed.

(** A step inside [add]: no other thread is inside [add]. *)
Lemma xinv_add cf cf' t q p' : xinv cf ->
  nth_error (ithreads cf) t = Some (Some q) -> adding (Some q) = true ->
  (length (filter adding (ithreads cf)) <= 1)%nat ->
  ithreads cf' = upd (ithreads cf) t p' ->
  (forall q', p' = Some q' -> xpc (istore cf') (handles cf') q') ->
  (forall n h, nth_error (handles cf') n = Some h -> holds (istore cf') h) ->
  (forall n o, In (n, o) (reads cf') -> exists h, nth_error (handles cf') n = Some h /\ o = Some (hval h)) ->
  xinv cf'.
Proof.
  intros [X1 X2 X3] Et Ha Hone ET Hq HH HR. constructor; auto.
  intros t' q' E. rewrite ET in E. apply nth_upd_cases in E. destruct E as [[-> E]|[Hne E]].
  - apply Hq. auto.
  - destruct (adding (Some q')) eqn:Ha'.
    + pose proof (cnt_two adding (ithreads cf) t t' _ _ (not_eq_sym Hne) Et E Ha Ha') as C. unfold cnt in C. lia.
    + destruct q'; try discriminate; exact I.
Qed.

Lemma hw_upd_live (hs : list (handle T)) n k v s s' : nth_error hs n = Some (Handle k v s) -> s <> Gone ->
  forall k', cnt (hw k') hs = 0%nat -> cnt (hw k') (upd hs n (Handle k v s')) = 0%nat.
Proof.
  intros En Hs k' H. pose proof (cnt_upd (hw k') _ _ (Handle k v s') _ En) as C.
  assert (hw k' (Handle k v s) = false) by (eapply cnt_zero_inv; eauto).
  unfold hw in H0, C at 2 4. cbn in H0, C.
  assert (k =? k' = false) as E by (destruct s; rewrite ?andb_true_r in H0; auto; congruence).
  rewrite E in C. cbn in C. lia.
Qed.

Lemma holds_upd st (hs : list (handle T)) m k v s s' :
  (forall n h, nth_error hs n = Some h -> holds st h) -> s <> Gone ->
  nth_error hs m = Some (Handle k v s) ->
  forall n h, nth_error (upd hs m (Handle k v s')) n = Some h -> holds st h.
Proof.
  intros H Hs Em n h E. apply nth_upd_cases in E. destruct E as [[-> ->]|[_ E]]; [|eauto].
  intros _. apply (H _ _ Em). exact Hs.
Qed.

Lemma holds_app st (hs : list (handle T)) k v :
  (forall n h, nth_error hs n = Some h -> holds st h) ->
  (exists s, slot_of st k = Some s /\ cont s = Some v) ->
  forall n h, nth_error (hs ++ [Handle k v (Held 0)]) n = Some h -> holds st h.
Proof.
  intros H Hk n h E. destruct (Nat.lt_ge_cases n (length hs)) as [Hn|Hn].
  - rewrite nth_error_app1 in E by exact Hn. eauto.
  - rewrite nth_error_app2 in E by exact Hn. destruct (n - length hs)%nat as [|d]; cbn in E.
    + injection E as <-. intros _. exact Hk.
    + destruct d; discriminate.
Qed.

Ltac simp := cbn [istore ithreads handles reads set_thread set_store add_handle add_read finish hid hval hst].

Lemma xinv_begin cf t c : xinv cf -> nth_error (ithreads cf) t = Some None -> xinv (begin_call cf t c).
Proof.
  intros HX Et. pose proof HX as [X1 X2 X3]. destruct c as [v|n|n|n]; cbn [begin_call].
  - eapply xinv_other with (p' := Some (FindChunk v 0)); simp; eauto using same_vals_refl.
    intros q [= <-]. right. exact I.
  - destruct (nth_error (handles cf) n) as [[k v [b| |]]|] eqn:En; try exact HX.
    unfold set_handle. rewrite En. simp.
    eapply xinv_other with (p' := Some (Incr n k)); simp; [exact HX|reflexivity|apply same_vals_refl| | | |].
    + eapply hw_upd_live; [exact En|discriminate]. + intros q [= <-]. auto.
    + eapply holds_upd; eauto. discriminate. + eapply reads_same; [eapply hsame_upd; exact En|exact X3].
  - destruct (nth_error (handles cf) n) as [[k v [[|b]| |]]|] eqn:En; try exact HX.
    unfold set_handle. rewrite En. simp.
    eapply xinv_other with (p' := Some (Decr n k)); simp; [exact HX|reflexivity|apply same_vals_refl| | | |].
    + eapply hw_upd_live; [exact En|discriminate]. + intros q [= <-]. auto.
    + eapply holds_upd; eauto. discriminate. + eapply reads_same; [eapply hsame_upd; exact En|exact X3].
  - destruct (nth_error (handles cf) n) as [[k v [b| |]]|] eqn:En; try exact HX.
    unfold set_handle. rewrite En. simp.
    eapply xinv_other with (p' := Some (GetRefs n k)); simp; [exact HX|reflexivity|apply same_vals_refl| | | |].
    + eapply hw_upd_live; [exact En|discriminate]. + intros q [= <-]. auto.
    + eapply holds_upd; eauto. discriminate. + eapply reads_same; [eapply hsame_upd; exact En|exact X3].
Qed.

Hypothesis eqb_eq : forall a b, eqb a b = true -> a = b.

Lemma new_chunk_free N cf : iinv N cf -> cnt (hw (32 * Z.of_nat (length (istore cf)))) (handles cf) = 0%nat.
Proof.
  intros HI. apply cnt_zero. intros h Hin. apply In_nth_error in Hin. destruct Hin as [n En].
  destruct (ij_handles _ _ HI _ _ En) as (Hn & x & Ex & _).
  assert (hid h < 32 * Z.of_nat (length (istore cf)))
    by (apply slot_of_range; [apply (ij_shape _ _ HI)|exact Hn|congruence]).
  unfold hw. replace (hid h =? _) with false; [reflexivity|]. symmetry. apply Z.eqb_neq. lia.
Qed.

Lemma holds_push N cf : iinv N cf -> xinv cf ->
  forall n h, nth_error (handles cf) n = Some h -> holds (istore cf ++ [new_chunk]) h.
Proof.
  intros HI HX n h E Hg. destruct (xi_handles _ HX _ _ E Hg) as (s & Es & Ec).
  destruct (ij_handles _ _ HI _ _ E) as (Hk & _). exists s. split; [|exact Ec].
  rewrite slot_of_push by (apply (ij_shape _ _ HI) || exact Hk).
  rewrite (proj2 (Z.ltb_lt _ _)); [exact Es|]. apply slot_of_range; [apply (ij_shape _ _ HI)|exact Hk|congruence].
Qed.

Lemma xinv_istep N cf t q : iinv N cf -> xinv cf -> Z.of_nat N < 2 ^ 64 - 1 ->
  (length (filter adding (ithreads cf)) <= 1)%nat ->
  nth_error (ithreads cf) t = Some (Some q) -> xinv (istep eqb dbg cf t q).
Proof.
  intros HI HX HN Hone Et. pose proof HI as [J1 J2 J3 J4 J5 J6 J7]. pose proof (J2 _ _ Et) as Hq.
  pose proof HX as [X1 X2 X3]. pose proof (X2 _ _ Et) as Hx.
  assert (Hlow : forall k s, 0 <= k -> slot_of (istore cf) k = Some s -> 0 <= refs s < 2 ^ 64 - 1).
  { intros k s Hk E. specialize (J6 k s Hk E). rewrite (J4 k s Hk E) in *. lia. }
  destruct q as [v i|v i j|v i j c|v i j|v i j|v i j|v|v|v len|n k|n k|n k|n k|]; cbn [istep].
  - destruct (Nat.ltb_spec i (length (istore cf))) as [Hi|Hi];
      (eapply xinv_add; [exact HX|exact Et|reflexivity|exact Hone|reflexivity| | |]; simp; auto); intros q' [= <-]; exact I.
  - destruct (in_range_slot _ _ _ J1 Hq) as [s Es]. rewrite slot_at_of by (auto; apply Hq). rewrite Es. cbn [unwrap].
    eapply xinv_add; [exact HX|exact Et|reflexivity|exact Hone|reflexivity| | |]; simp; auto.
    intros q' [= <-]. cbn [xpc]. intros E. rewrite (J4 _ _ (offset_nonneg i j) Es) in E. lia.
  - destruct (in_range_slot _ _ _ J1 Hq) as [s Es]. rewrite slot_at_of by (auto; apply Hq). rewrite Es. cbn [unwrap].
    destruct (match cont s with Some cur => eqb v cur | None => false end) eqn:Ec.
    { eapply xinv_add; [exact HX|exact Et|reflexivity|exact Hone|reflexivity| | |]; simp; auto.
      intros q' [= <-]. exists s. split; [exact Es|]. destruct (cont s); [|discriminate]. apply eqb_eq in Ec. congruence. }
    destruct (Z.eqb_spec c 0) as [Hc|_].
    { eapply xinv_add; [exact HX|exact Et|reflexivity|exact Hone|reflexivity| | |]; simp; auto.
      intros q' [= <-]. cbn in *. auto. }
    destruct (S j <? chunk_size)%nat;
      (eapply xinv_add; [exact HX|exact Et|reflexivity|exact Hone|reflexivity| | |]; simp; auto); intros q' [= <-]; exact I.
  - destruct Hq as [Hr Hf]. destruct (in_range_slot _ _ _ J1 Hr) as [s Es].
    destruct (incr_inner_spec dbg (istore cf) i j s J1 (proj2 Hr) Es (Hlow _ _ (offset_nonneg i j) Es))
      as (st' & E1 & S1 & L1 & F1). rewrite E1. cbn [with_store].
    pose proof (same_vals_put _ _ _ _ _ Es L1 F1) as HV.
    eapply xinv_add; [exact HX|exact Et|reflexivity|exact Hone|reflexivity| | |]; simp.
    + discriminate.
    + apply holds_app.
      * intros n h E. eapply holds_same; [exact HV|apply (J3 _ _ E)|eauto].
      * destruct Hx as (s' & Es' & Ec'). destruct (proj2 HV _ _ (offset_nonneg i j) Es') as (s2 & E2 & Ec2).
        exists s2. split; congruence.
    + eapply reads_same; [apply hsame_app|exact X3].
  - destruct (in_range_slot _ _ _ J1 Hq) as [s Es].
    destruct (incr_inner_spec dbg (istore cf) i j s J1 (proj2 Hq) Es (Hlow _ _ (offset_nonneg i j) Es))
      as (st' & E1 & S1 & L1 & F1). rewrite E1. cbn [with_store].
    pose proof (same_vals_put _ _ _ _ _ Es L1 F1) as HV.
    eapply xinv_add; [exact HX|exact Et|reflexivity|exact Hone|reflexivity| | |]; simp; auto.
    + intros q' [= <-]. exact Hx.
    + intros n h E. eapply holds_same; [exact HV|apply (J3 _ _ E)|eauto].
  - destruct (in_range_slot _ _ _ J1 Hq) as [s Es].
    destruct (set_val_spec (istore cf) i j v s J1 (proj2 Hq) Es) as (st' & E1 & S1 & L1 & F1). rewrite E1. cbn [with_store].
    eapply xinv_add; [exact HX|exact Et|reflexivity|exact Hone|reflexivity| | |]; simp.
    + discriminate.
    + apply holds_app.
      * intros n h E Hg. destruct (X1 _ _ E Hg) as (s1 & Es1 & Ec1). exists s1. split; [|exact Ec1].
        rewrite F1 by apply (J3 _ _ E). destruct (Z.eqb_spec (idx_to_offset i j) (hid h)) as [Eh|_]; [|exact Es1].
        exfalso. cbn in Hx. pose proof (cnt_zero_inv _ _ _ _ Hx E) as Hw. unfold hw in Hw. rewrite <- Eh, Z.eqb_refl in Hw.
        destruct (hst h); try discriminate. now elim Hg.
      * eexists. rewrite F1, Z.eqb_refl by apply offset_nonneg. split; reflexivity.
    + eapply reads_same; [apply hsame_app|exact X3].
  - destruct (istore cf) as [|c0 st0] eqn:Est in |- *.
    + replace [new_chunk] with (istore cf ++ [new_chunk] : store T) by (rewrite Est; reflexivity).
      eapply xinv_add; [exact HX|exact Et|reflexivity|exact Hone|reflexivity| | |]; simp; auto.
      * intros q' [= <-]. cbn [xpc]. pose proof (new_chunk_free _ _ HI) as H. rewrite Est in H. exact H.
      * eapply holds_push; eauto.
    + eapply xinv_add; [exact HX|exact Et|reflexivity|exact Hone|reflexivity| | |]; simp; auto. intros q' [= <-]; exact I.
  - eapply xinv_add; [exact HX|exact Et|reflexivity|exact Hone|reflexivity| | |]; simp; auto. intros q' [= <-]. reflexivity.
  - eapply xinv_add; [exact HX|exact Et|reflexivity|exact Hone|reflexivity| | |]; simp; auto.
    + intros q' [= <-]. cbn [xpc] in *. subst len. pose proof (new_chunk_free _ _ HI) as H.
      replace (idx_to_offset _ 0) with (32 * Z.of_nat (length (istore cf))) by (unfold idx_to_offset; lia). exact H.
    + eapply holds_push; eauto.
  - destruct (in_use _ _ _ _ _ _ HI Et (or_introl eq_refl)) as (v & b & En & Cb & Cl).
    destruct (J3 _ _ En) as (Hk & s & Es & Hc). cbn [hid] in Hk, Es.
    destruct (intern_incr_spec dbg (istore cf) k s J1 Hk Es (Hlow _ _ Hk Es)) as (st' & E1 & S1 & L1 & F1).
    rewrite E1. cbn [with_store]. simp. rewrite En. unfold unborrow, set_handle. simp. rewrite ?En. simp. rewrite ?En. simp.
    replace (S b - 1)%nat with b by lia.
    pose proof (same_vals_put _ _ _ _ _ Es L1 F1) as HV.
    eapply xinv_other with (p' := None); simp; [exact HX|reflexivity|exact HV| |discriminate| |].
    + intros k' H0. rewrite cnt_app, cnt_new, (hw_upd_live _ _ _ _ _ _ En ltac:(discriminate) _ H0).
      pose proof (cnt_zero_inv _ _ _ _ H0 En) as Hw. unfold hw in Hw. cbn in Hw. rewrite andb_true_r in Hw. rewrite Hw. reflexivity.
    + assert (HH : forall n' h, nth_error (handles cf) n' = Some h -> holds st' h)
        by (intros n' h E; eapply holds_same; [exact HV|apply (J3 _ _ E)|eauto]).
      apply holds_app; [eapply holds_upd; [exact HH| |exact En]; discriminate|].
      apply (HH _ _ En). discriminate.
    + eapply reads_same; [eapply hsame_trans; [eapply hsame_upd; exact En|apply hsame_app]|exact X3].
  - destruct (leaving _ _ _ _ _ HI Et) as (v & En & Cb & Cl).
    destruct (J3 _ _ En) as (Hk & s & Es & Hc). cbn [hid] in Hk, Es.
    destruct (intern_decr_spec (istore cf) k s J1 Hk Es) as (st' & E1 & S1 & L1 & F1).
    rewrite E1. cbn [with_store]. unfold set_handle. simp. rewrite En. simp.
    pose proof (same_vals_put _ _ _ _ _ Es L1 F1) as HV.
    eapply xinv_other with (p' := None); simp; [exact HX|reflexivity|exact HV| |discriminate| |].
    + eapply hw_upd_live; [exact En|discriminate].
    + eapply holds_upd; [| |exact En]; [|discriminate].
      intros n' h E; eapply holds_same; [exact HV|apply (J3 _ _ E)|eauto].
    + eapply reads_same; [eapply hsame_upd; exact En|exact X3].
  - destruct (in_use _ _ _ _ _ _ HI Et (or_intror (or_introl eq_refl))) as (v & b & En & Cb & Cl).
    destruct (J3 _ _ En) as (Hk & s & Es & Hc). cbn [hid] in Hk, Es.
    pose proof (held_pos _ _ _ _ _ En ltac:(discriminate)) as Hpos.
    assert (Hr : 1 <= refs s) by (rewrite (J4 _ _ Hk Es); lia).
    unfold refcount. pose proof (slot_at_offset (istore cf) k J1 Hk) as Hs. destruct (offset_to_idx k) as [i j].
    rewrite Hs, Es. cbn [unwrap bind]. rewrite (proj2 (Z.eqb_neq (refs s) 0)) by lia.
    eapply xinv_other with (p' := Some (GetVal n k)); simp; eauto using same_vals_refl. intros q [= <-]. auto.
  - destruct (in_use _ _ _ _ _ _ HI Et (or_intror (or_intror eq_refl))) as (v & b & En & Cb & Cl).
    destruct (J3 _ _ En) as (Hk & s & Es & Hc). cbn [hid] in Hk, Es.
    pose proof (slot_at_offset (istore cf) k J1 Hk) as Hs. destruct (offset_to_idx k) as [i j].
    rewrite Hs, Es. cbn [unwrap].
    destruct (X1 _ _ En) as (s' & Es' & Ec'); [discriminate|]. cbn in Es', Ec'.
    assert (s' = s) by congruence. subst s'. rewrite Ec'.
    unfold unborrow, set_handle. simp. rewrite ?En. simp. rewrite ?En. simp. replace (S b - 1)%nat with b by lia.
    eapply xinv_other with (p' := None); simp; [exact HX|reflexivity|apply same_vals_refl| |discriminate| |].
    + eapply hw_upd_live; [exact En|discriminate].
    + eapply holds_upd; [exact X1| |exact En]. discriminate.
    + intros m o Hin. apply in_app_iff in Hin. destruct Hin as [Hin|[Hin|[]]].
      * eapply reads_same; [eapply hsame_upd; exact En|exact X3|exact Hin].
      * injection Hin as <- <-. eexists. split; [eapply nth_upd_same; exact En|]. reflexivity.
  - exact HX.
Qed.

Lemma xinv_exec acts : forall N cf, iinv N cf -> xinv cf -> counts_fit eqb dbg cf acts ->
  one_adder eqb dbg cf acts -> xinv (iexec eqb dbg acts cf).
Proof.
  induction acts as [|a acts IH]; intros N cf HI0 HX HF H1; [exact HX|].
  assert (HI : iinv full cf) by (apply (iinv_full N); [exact HI0|]; intros k; apply (HF [] (a :: acts)); reflexivity).
  assert (HN : Z.of_nat full < 2 ^ 64 - 1) by (rewrite full_val; lia).
  change (iexec eqb dbg (a :: acts) cf) with (iexec eqb dbg acts (iconf_step eqb dbg cf a)).
  apply (IH (S full)).
  - apply iinv_conf_step; [exact HI|exact HN].
  - destruct a as [t c|t]; cbn [iconf_step].
    + destruct (nth_error (ithreads cf) t) as [[q|]|] eqn:Et; try exact HX. apply xinv_begin; auto.
    + destruct (nth_error (ithreads cf) t) as [[q|]|] eqn:Et; try exact HX.
      apply (xinv_istep full); auto. apply (H1 [] (Go t :: acts)). reflexivity.
  - intros a1 a2 k E. apply (HF (a :: a1) a2). rewrite E. reflexivity.
  - intros a1 a2 E. apply (H1 (a :: a1) a2). rewrite E. reflexivity.
Qed.

Lemma xinv_initial n capacity : xinv (iinitial (T := T) n capacity).
Proof.
  constructor; cbn.
  - intros [|m] h E; discriminate.
  - intros t q E. apply nth_error_In, repeat_spec in E. discriminate.
  - intros m o [].
Qed.

End More.
