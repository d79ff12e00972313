(** Threads whose programs never call [add]: nothing that the turns are about happens, and no slots are added. *)
From Coq Require Import ZArith List Bool PeanoNat Lia Permutation.
From Verif Require Import Base BitSliceModel BigIntModel BigIntExprModel ConcInternModel PropInternProgress ConcBigIntModel ConcArithModel ConcArithWp ConcArithProofs
  WeakInternModel WeakInternSpec WeakInternProofs WeakChunkModel WeakTurnSpec WeakArithModel WeakArithProofs WeakArithFinish.
Import ListNotations.
Local Open Scope Z_scope.

Definition no_add (a : waction (list Z)) : Prop := match a with WBegin _ (CAdd _) => False | _ => True end.

Lemma in_turn_snoc a st : no_add a -> forall acts h cs, in_turn list_eqb h acts cs -> in_turn list_eqb h (acts ++ [(a, st)]) cs.
Proof.
  intros Na. induction acts as [|[x s] acts IH]; intros h cs.
  - intros _. cbn [app in_turn fst]. destruct a as [t [v|m|m|m]|t pick|t u]; cbn in Na |- *; auto. contradiction.
  - cbn [app in_turn fst]. destruct x as [t [v|m|m|m]|t pick|t u]; try apply IH.
    + intros [E H]. split; auto.
    + intros [H|(E & B1 & B2 & H)]; [left; auto|right]. repeat split; auto.
Qed.

(** A step by a thread that is not inside [add] leaves the number of slots as it is. *)
Lemma slots_go locked b t pick q V : (forall v, call_of (seen_call q) <> Some (CAdd v)) -> length (wslots (wstep list_eqb locked b t pick q V)) = length (wslots b).
Proof.
  intros Hq. destruct q; try (exfalso; eapply Hq; reflexivity); cbn [wstep];
    repeat match goal with
    | |- context [match ?x with _ => _ end] =>
      match x with nth_error _ _ => destruct x | load_refs _ _ _ _ _ => destruct x | update_refs _ _ _ _ => destruct x
      | fst _ =? _ => destruct x | _ =? 0 => destruct x end
    end; cbn [put put_slot put_handles put_read put_log wslots]; rewrite ?len_upd; auto; repeat match goal with |- context [match ?x with _ => _ end] => destruct x end; reflexivity.
Qed.

Section Asking.
Context {A : Type} (n : nat) (vs : list nat) (V : list (Z * list Z)) (L : nat) (Q : nat -> list (Z * list Z) -> A -> Prop).
Context (HQ : forall t O O' a, Permutation O O' -> Q t O a -> Q t O' a) (h m0 : nat).
Definition turned (a : list (waction (list Z) * bool)) : Prop :=
  in_turn list_eqb h a (cinitial n 0) /\ few_slots false n a /\ (length (wslots (now false n a)) <= m0)%nat.
Notation inv := (winv_b (adds := false) false n vs V L Q).

Lemma turned_prefix a b : turned (a ++ b) -> turned a.
Proof.
  intros (H1 & H2 & H3). split; [eapply in_turn_prefix; exact H1|]. split; [eapply few_prefix; exact H2|]. etransitivity; [|exact H3].
  unfold now. rewrite (wrun_app false n). apply slots_exec.
Qed.
Lemma turned_keeps a : turned a -> keeps (wrun false n a).
Proof. intros (H1 & H2 & _). eapply turns_keep; eauto. Qed.

Lemma never_adds bc t p ms : inv bc -> nth_error (wprogs bc) t = Some p -> nth_error (wowned bc) t = Some ms -> forall l f, p <> PAdd l f.
Proof. intros HB Ep Em l f ->. destruct (b_prog _ _ _ _ _ _ _ HB _ _ _ Ep Em) as [X _]. discriminate. Qed.

Lemma turned_step bc a : inv bc -> turned (wdone bc) -> turned (wdone (wbstep false n vs bc a)).
Proof.
  intros HB HTT. pose proof HTT as (HT & HS & HM).
  assert (forall x st, no_add x -> (match x with WGo t _ => forall q U, nth_error (wthreads (now false n (wdone bc))) t = Some (WThread (Some q) U) -> forall v, call_of (seen_call q) <> Some (CAdd v) | _ => True end) ->
    turned (wdone bc ++ [(x, st)])) as ST.
  { intros x st Nx Hx. split; [apply in_turn_snoc; auto|]. revert HS HM. unfold few_slots, now in *. rewrite (wrun_app false n). cbn [cexec fold_left]. set (cs := wrun false n (wdone bc)) in *.
    intros HS HM. assert (length (wslots (cbase (cconf_step list_eqb false cs (x, st)))) = length (wslots (cbase cs))) as ->; [|split; [exact HS|exact HM]].
    destruct x as [t c|t pick|t u]; cbn [cconf_step cbase wconf_step].
    - destruct (nth_error (wthreads (cbase cs)) t) as [[[q|] U]|]; auto. unfold wbegin. destruct c; repeat match goal with |- context [match ?x with _ => _ end] => destruct x end; reflexivity.
    - destruct (nth_error (wthreads (cbase cs)) t) as [[[q|] U]|] eqn:Et; auto. specialize (Hx _ _ eq_refl).
      assert (length (wslots (cbase (match looks_up q with
        | None => CConf (wstep list_eqb false (cbase cs) t pick q U) (clinks cs)
        | Some i =>
          match reach (clinks cs) st U i with
          | Some V' => CConf (wstep list_eqb false (put (cbase cs) t (Some q) V') t pick q V') (clinks cs)
          | None => CConf (put (cbase cs) t (Some (match q with WFindRefs v _ => WPush v | _ => WBroken end)) U) (clinks cs)
          end
        end))) = length (wslots (cbase cs))) as HN.
      { destruct (looks_up q); [destruct (reach _ _ _ _)|]; cbn [cbase]; auto; rewrite slots_go; auto. }
      destruct q; exact HN.
    - destruct (nth_error (wthreads (cbase cs)) t) as [[[q|] U]|]; auto. destruct (nth_error (wthreads (cbase cs)) u) as [[[q|] U']|]; auto. }
  destruct a as [t m pick stale|t u]; cbn [wbstep]; [|cbn [wdone]; apply ST; cbn; auto].
  destruct (nth_error (wthreads (now false n (wdone bc))) t) as [[[q|] U]|] eqn:Et; [..|exact HTT];
    (destruct (nth_error (wprogs bc) t) as [p|] eqn:Ep; [|exact HTT]); (destruct (nth_error (wowned bc) t) as [ms|] eqn:Em; [|exact HTT]).
  - assert (turned (wdone bc ++ [(WGo t pick, stale)])) as X.
    { apply ST; [exact I|]. intros q' U' E. assert (q' = q) as -> by congruence. intros v Hv.
      destruct (b_pend _ _ _ _ _ _ _ HB t (seen_call q)) as (p0 & ms0 & Ep0 & Em0 & Hp).
      { cbn [seen ithreads]. rewrite nth_error_map, Et. reflexivity. }
      assert (p0 = p) as -> by congruence. assert (ms0 = ms) as -> by congruence.
      destruct p as [r|k f|l f|k p|k p]; cbn [pending] in Hp; [contradiction| | |..];
        try (destruct Hp as (m' & E' & _); rewrite E' in Hv; discriminate). eapply (never_adds _ _ _ _ HB Ep Em). reflexivity. }
    destruct (nth_error (wthreads (now false n (wdone bc ++ [(WGo t pick, stale)]))) t) as [[[q'|] U']|]; try exact X. destruct (resume _ _ _ _ _). exact X.
  - destruct (next_call _ _ _ _ _) as [c|] eqn:En; [|exact HTT]. cbn [wdone]. apply ST; [|exact I].
    destruct c as [v|m'|m'|m']; cbn; auto. destruct p as [r|k f|l f|k p|k p]; cbn [next_call] in En; try discriminate;
      try (destruct (usable _ _ _ _); discriminate). eapply (never_adds _ _ _ _ HB Ep Em). reflexivity.
Qed.

Lemma asking_exec sched : forall bc, inv bc -> turned (wdone bc) -> inv (wbexec false n vs sched bc) /\ turned (wdone (wbexec false n vs sched bc)).
Proof.
  induction sched as [|a s IH]; intros bc HB HT; [split; auto|]. pose proof (turned_step bc a HB HT) as HT'.
  apply (IH (wbstep false n vs bc a)); auto. apply (winv_step_b false n vs V L Q HQ turned turned_prefix turned_keeps); auto.
Qed.
End Asking.
