(** Histories of interner calls by one thread, and their invariant. *)
From Coq Require Import ZArith List Bool Lia.
From Verif Require Import Base Arith InternModel InternProofs InternSpec.
Import ListNotations.
Local Open Scope Z_scope.

Inductive iop (T : Type) := IAdd (v : T) | IIncr (k : Z) | IDecr (k : Z).
Arguments IAdd {T} v.
Arguments IIncr {T} k.
Arguments IDecr {T} k.

(** One call of the API of crates/utils/src/intern.rs:134-193. *)
Definition istep {T} (eqb : T -> T -> bool) (dbg : bool) (st : store T) (op : iop T)
  : res (event T * store T) :=
  match op with
  | IAdd v => do (k, st') <- intern_add eqb dbg v st ;; Ok (EAdd v k, st')
  | IIncr k => do st' <- intern_incr dbg k st ;; Ok (EIncr k, st')
  | IDecr k => do st' <- intern_decr k st ;; Ok (EDecr k, st')
  end.

(** A history; the calls made so far and the store. *)
Fixpoint irun {T} (eqb : T -> T -> bool) (dbg : bool) (ops : list (iop T))
  (tr : list (event T)) (st : store T) : res (list (event T) * store T) :=
  match ops with
  | [] => Ok (tr, st)
  | op :: ops' =>
    do (e, st') <- istep eqb dbg st op ;;
    irun eqb dbg ops' (tr ++ [e]) st'
  end.

Section Hist.
Context {T : Type}.
Variable eqb : T -> T -> bool.
Hypothesis eqb_ok : forall a b, eqb a b = true <-> a = b.
Implicit Types (st : store T) (tr : list (event T)).

Lemma count_snoc k tr e : count k (tr ++ [e]) = count_step k (count k tr) e.
Proof. unfold count. rewrite fold_left_app. reflexivity. Qed.
Lemma last_snoc k tr e : last_added k (tr ++ [e]) = last_step k (last_added k tr) e.
Proof. unfold last_added. rewrite fold_left_app. reflexivity. Qed.

Lemma count_bound k tr : 0 <= count k tr <= Z.of_nat (length tr).
Proof.
  induction tr as [|e tr IH] using rev_ind; [cbn; lia|].
  rewrite count_snoc, app_length. cbn [length].
  destruct e as [v k'|k'|k']; cbn [count_step]; destruct (k' =? k); lia.
Qed.

(** The store agrees with the history. *)
Record agrees st tr : Prop := {
  ag_shape : shape st;
  ag_slot : forall k s, 0 <= k -> slot_of st k = Some s ->
    refs s = count k tr /\ cont s = last_added k tr;
  ag_out : forall k, 32 * Z.of_nat (length st) <= k -> count k tr = 0 /\ last_added k tr = None;
}.

Definition op_ok st (op : iop T) : Prop :=
  match op with IAdd _ => True | IIncr k | IDecr k => 0 <= k < 32 * Z.of_nat (length st) end.

Lemma in_range_slot st k : shape st -> 0 <= k < 32 * Z.of_nat (length st) -> exists s, slot_of st k = Some s.
Proof.
  intros Hs [Hk H]. apply slot_of_range in H; auto. destruct (slot_of st k); eauto. congruence.
Qed.

Lemma slot_in_range st k s : shape st -> 0 <= k -> slot_of st k = Some s -> k < 32 * Z.of_nat (length st).
Proof. intros Hs Hk E. apply slot_of_range; auto. congruence. Qed.

Lemma istep_ok dbg st tr op : agrees st tr -> (forall k, count k tr < 2 ^ 64 - 1) -> op_ok st op ->
  exists e st', istep eqb dbg st op = Ok (e, st') /\ agrees st' (tr ++ [e]) /\
    (length st <= length st')%nat /\
    match op with
    | IAdd v => exists k, e = EAdd v k /\ 0 <= k < 32 * Z.of_nat (length st') /\
        (0 < count k tr -> last_added k tr = Some v) /\
        (forall k' s, 0 <= k' < k -> slot_of st k' = Some s -> passes v s) /\
        (slot_of st k = None -> forall k', 0 <= k' < k -> slot_of st k' <> None)
    | IIncr k => e = EIncr k | IDecr k => e = EDecr k end.
Proof.
  intros [Hs Hg Ho] Hlen Hop. destruct op as [v|k|k]; cbn [istep op_ok] in *.
  - destruct (intern_add_spec eqb eqb_ok dbg v st Hs) as (k & st' & E & Hk & Hs' & Hp & H).
    { intros k s Hk E. destruct (Hg k s Hk E) as [-> _]. pose proof (count_bound k tr). specialize (Hlen k). lia. }
    rewrite E. cbn [bind]. exists (EAdd v k), st'. split; auto.
    destruct (slot_of st k) as [s|] eqn:Es.
    + destruct H as (H1 & H2 & H3). destruct (Hg k s Hk Es) as [R C]. split; [|split; [lia|]].
      * constructor; auto.
        -- intros k' s' Hk' E'. rewrite H3 in E' by auto. rewrite count_snoc, last_snoc.
           cbn [count_step last_step]. destruct (k =? k') eqn:Q; [|apply Hg; auto].
           apply Z.eqb_eq in Q. subst k'. assert (s' = Slot (refs s + 1) (Some v)) as -> by congruence.
           cbn [refs cont]. rewrite R. auto.
        -- intros k' Hk'. rewrite H2 in Hk'. rewrite count_snoc, last_snoc. cbn [count_step last_step].
           pose proof (slot_in_range st k s Hs Hk Es). rewrite (proj2 (Z.eqb_neq k k')) by lia. auto.
      * exists k. split; auto. rewrite H2. split; [split; auto; eapply slot_in_range; eauto|].
        split; [|split; [auto|intros; congruence]]. rewrite <- R, <- C. intros. destruct H1; [auto|lia].
    + destruct H as (H1 & H2 & H3). assert (count k tr = 0 /\ last_added k tr = None) as [C L] by (apply Ho; lia).
      split; [|split; [lia|]].
      * constructor; auto.
        -- intros k' s' Hk' E'. rewrite H3 in E' by auto. rewrite count_snoc, last_snoc.
           cbn [count_step last_step]. destruct (k =? k') eqn:Q.
           ++ apply Z.eqb_eq in Q. subst k'. assert (s' = Slot 1 (Some v)) as -> by congruence.
              cbn [refs cont]. rewrite C. auto.
           ++ destruct (k' <? 32 * Z.of_nat (length st) + 32); [|discriminate].
              destruct (Z.ltb_spec k' (32 * Z.of_nat (length st))) as [L'|L']; [apply Hg; auto|].
              assert (s' = new_uninit) as -> by congruence. destruct (Ho k' ltac:(lia)) as [-> ->]. auto.
        -- intros k' Hk'. rewrite count_snoc, last_snoc. cbn [count_step last_step].
           rewrite (proj2 (Z.eqb_neq k k')) by lia. apply Ho. lia.
      * exists k. split; auto. split; [lia|]. split; [|split; [auto|]].
        -- intros; lia.
        -- intros _ k' Hk'. apply slot_of_range; auto; lia.
  - destruct (in_range_slot st k Hs Hop) as [s E]. destruct (Hg k s ltac:(lia) E) as [R C].
    destruct (intern_incr_spec dbg st k s Hs ltac:(lia) E) as (st' & E1 & Hs' & Hl & H).
    { pose proof (count_bound k tr). specialize (Hlen k). lia. }
    rewrite E1. cbn [bind]. exists (EIncr k), st'. split; auto. split; [|split; [lia|auto]].
    constructor; auto.
    + intros k' s' Hk' E'. rewrite H in E' by auto. rewrite count_snoc, last_snoc. cbn [count_step last_step].
      destruct (k =? k') eqn:Q; [|apply Hg; auto]. apply Z.eqb_eq in Q. subst k'.
      assert (s' = Slot (refs s + 1) (cont s)) as -> by congruence. cbn [refs cont]. rewrite R. auto.
    + intros k' Hk'. rewrite Hl in Hk'. rewrite count_snoc, last_snoc. cbn [count_step last_step].
      rewrite (proj2 (Z.eqb_neq k k')) by lia. auto.
  - destruct (in_range_slot st k Hs Hop) as [s E]. destruct (Hg k s ltac:(lia) E) as [R C].
    destruct (intern_decr_spec st k s Hs ltac:(lia) E) as (st' & E1 & Hs' & Hl & H).
    rewrite E1. cbn [bind]. exists (EDecr k), st'. split; auto. split; [|split; [lia|auto]].
    pose proof (count_bound k tr).
    constructor; auto.
    + intros k' s' Hk' E'. rewrite H in E' by auto. rewrite count_snoc, last_snoc. cbn [count_step last_step].
      destruct (k =? k') eqn:Q; [|apply Hg; auto]. apply Z.eqb_eq in Q. subst k'.
      assert (s' = Slot (if refs s =? 0 then 0 else refs s - 1) (cont s)) as -> by congruence.
      cbn [refs cont]. split; auto. rewrite R. destruct (Z.eqb_spec (count k tr) 0); lia.
    + intros k' Hk'. rewrite Hl in Hk'. rewrite count_snoc, last_snoc. cbn [count_step last_step].
      rewrite (proj2 (Z.eqb_neq k k')) by lia. auto.
Qed.

Lemma istep_panic dbg st tr op : agrees st tr -> (exists k, (op = IIncr k \/ op = IDecr k) /\ 0 <= k) -> ~ op_ok st op -> istep eqb dbg st op = Panic.
Proof.
  intros [Hs Hg Ho] (k & Hop & Hk) Hn.
  assert (slot_of st k = None) as E.
  { destruct (slot_of st k) eqn:E; auto. exfalso. apply Hn.
    pose proof (slot_in_range st k s Hs Hk E). destruct Hop; subst; cbn [op_ok]; lia. }
  pose proof (slot_at_offset st k Hs Hk) as H1.
  destruct Hop; subst; cbn [istep]; unfold intern_incr, intern_decr, incr_inner, decr_inner;
    destruct (offset_to_idx k) as [i j]; rewrite H1, E; reflexivity.
Qed.

Lemma irun_prefix dbg ops : forall tr st tr' st', irun eqb dbg ops tr st = Ok (tr', st') -> exists tr2, tr' = tr ++ tr2.
Proof.
  induction ops as [|op ops IH]; intros tr st tr' st' E; cbn [irun] in E.
  - exists []. rewrite app_nil_r. congruence.
  - destruct (istep eqb dbg st op) as [[e st1]| |]; try discriminate. cbn [bind] in E.
    destruct (IH _ _ _ _ E) as [tr2 ->]. exists (e :: tr2). rewrite <- app_assoc. reflexivity.
Qed.

Lemma room_left dbg ops tr st tr' st' : irun eqb dbg ops tr st = Ok (tr', st') -> never_full tr' ->
  forall k, count k tr < 2 ^ 64 - 1.
Proof. intros E H k. destruct (irun_prefix _ _ _ _ _ _ E) as [tr2 E2]. apply (H tr tr2 k E2). Qed.

Lemma room_now tr : never_full tr -> forall k, count k tr < 2 ^ 64 - 1.
Proof. intros H k. apply (H tr [] k). rewrite app_nil_r. reflexivity. Qed.

Lemma never_full_short tr : Z.of_nat (length tr) < 2 ^ 64 - 1 -> never_full tr.
Proof. intros H tr1 tr2 k ->. rewrite app_length in H. pose proof (count_bound k tr1). lia. Qed.

Lemma irun_agrees dbg ops : forall tr st tr' st', agrees st tr -> never_full tr' ->
  (forall k, In (IIncr k) ops \/ In (IDecr k) ops -> 0 <= k) ->
  irun eqb dbg ops tr st = Ok (tr', st') ->
  agrees st' tr' /\ (length tr' = length tr + length ops)%nat /\ (exists tr2, tr' = tr ++ tr2).
Proof.
  induction ops as [|op ops IH]; intros tr st tr' st' Ha Hl Hk E;
    pose proof (room_left _ _ _ _ _ _ E Hl) as HR; cbn [irun] in E.
  - assert (tr = tr' /\ st = st') as [<- <-] by (split; congruence).
    split; auto. split; [cbn; lia|]. exists []. rewrite app_nil_r. auto.
  - assert (op_ok st op \/ ~ op_ok st op) as [Hop|Hop].
    { destruct op; cbn; auto; lia. }
    + destruct (istep_ok dbg st tr op Ha HR Hop) as (e & st1 & E1 & Ha1 & _).
      rewrite E1 in E. cbn [bind] in E.
      destruct (IH _ _ _ _ Ha1 Hl ltac:(intros k [H|H]; apply Hk; cbn; auto) E)
        as (A & B & tr2 & C).
      split; auto. split; [rewrite B, app_length; cbn; lia|].
      exists (e :: tr2). rewrite C, <- app_assoc. auto.
    + rewrite (istep_panic dbg st tr op Ha) in E; auto; [discriminate|].
      destruct op as [v|k|k]; [destruct Hop; exact I| |]; exists k; (split; [auto|]); apply Hk; cbn; auto.
Qed.

Lemma agrees_new n : agrees (with_capacity n) [].
Proof.
  assert (shape (@with_capacity T n)) as Hs.
  { unfold shape, with_capacity. apply Forall_forall. intros c H. apply repeat_spec in H. subst. reflexivity. }
  constructor; auto.
  - intros k s Hk E. unfold slot_of in E. rewrite (proj2 (Z.ltb_ge k 0)) in E by lia.
    apply nth_error_In in E. unfold flat, with_capacity in E. apply in_concat in E.
    destruct E as (c & Hc & Hin). apply repeat_spec in Hc. subst c. apply repeat_spec in Hin. subst s. auto.
Qed.

End Hist.
