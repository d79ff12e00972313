(** Programs that catch panics keep the store consistent with the values in existence. *)
From Coq Require Import ZArith List Bool Lia Permutation.
From Verif Require Import Base Words Spec TextSpec Arith BitSliceModel InternModel InternProofs BigIntModel BigIntSpec
  BigIntProofs BigIntOps BigIntConv BigIntText BigIntSafe BigIntRun BigIntHist BigIntUnwindModel BigIntUnwindProofs BigIntUnwindSpec.
Import ListNotations.
Local Open Scope Z_scope.

Definition lands (P : Z) (e : env) (st : istore) (ev : event) : Prop :=
  match ev with Next e' st' _ => sound P e st e' st' | Abort => False | _ => True end.

Section Landing.
Context (P : Z) (e0 e : env) (refs ins : list Z) (st : istore).
Context (Hp : Permutation (handles e0) (ins ++ handles e)) (Hk : kept e0 e) (Hi : incl refs (handles e))
  (Hc : consistent P st (handles e0)) (Hr : room P (handles e0) 8).

Lemma room_rest : room P (handles e) 8.
Proof. unfold room in *. rewrite (live_perm _ _ Hp), live_app in Hr. lia. Qed.

Lemma kept_values st' : keeps st st' (handles e) ->
  forall i h, (i < length e0)%nat -> nth_error e i = Some (Some h) -> forall v, denotes st h v -> denotes st' h v.
Proof. intros K i h _ H v D. apply (K h v); auto. eapply nth_handles; eauto. Qed.

Lemma lands_named u Q : usafe P 8 refs ins u one Q -> lands P e0 st (named e u st).
Proof.
  intros S. assert (consistent P st (ins ++ handles e)) as Hc' by (eapply con_perm; eauto).
  specialize (S st (handles e) Hc' room_rest Hi). unfold named, catching. destruct (u st) as [c st'|st'| |]; cbn [lands]; auto.
  - destruct S as (C & K & _). split; [|split].
    + rewrite handles_app. cbn. eapply con_perm; [|exact C]. apply Permutation_cons_append.
    + eapply kept_trans; [exact Hk|apply kept_app].
    + intros i h Hi' H v D. assert (i < length e)%nat by (destruct Hk; lia). rewrite nth_error_app1 in H by auto.
      eapply kept_values; eauto.
  - destruct S as (C & K). split; auto. split; auto. apply kept_values. auto.
Qed.

Lemma lands_ignored {A} (u : U A) Q : usafe P 8 refs ins u none Q -> lands P e0 st (ignored e u st).
Proof.
  intros S. assert (consistent P st (ins ++ handles e)) as Hc' by (eapply con_perm; eauto).
  specialize (S st (handles e) Hc' room_rest Hi). unfold ignored, catching. destruct (u st) as [c st'|st'| |]; cbn [lands]; auto.
  - destruct S as (C & K & _). split; auto. split; auto. apply kept_values. auto.
  - destruct S as (C & K). split; auto. split; auto. apply kept_values. auto.
Qed.

Lemma lands_assigned a x u Q : nth_error e a = Some (Some x) -> usafe P 7 refs ins (u x) one Q -> lands P e0 st (assigned e a u st).
Proof.
  intros Ha S. assert (consistent P st (ins ++ handles e)) as Hc' by (eapply con_perm; eauto).
  assert (room P (handles e) 7) as Hr7 by (pose proof room_rest; unfold room in *; lia).
  specialize (S st (handles e) Hc' Hr7 Hi). unfold assigned, borrowing.
  assert (borrow e a = Ok x) as Hb by (unfold borrow; rewrite Ha; reflexivity).
  rewrite Hb. unfold catching at 1. destruct (u x st) as [c st'|st'| |]; cbn [lands]; auto.
  2: { destruct S as (C & K). split; auto. split; auto. apply kept_values. auto. }
  destruct S as (C & K & _). unfold taking, take. rewrite Hb. cbn [bind].
  pose proof (upd_handles e a x Ha) as Pe.
  assert (consistent P st' (x :: c :: handles (upd e a None))) as C1.
  { eapply con_perm; [|exact C]. unfold one. cbn [app]. rewrite Pe. apply perm_swap. }
  destruct (drop_spec P st' _ x C1) as (st2 & E2 & C2 & K2).
  unfold named, catching, ubind, u_drop, leaf, uret. rewrite E2. cbn [lands]. split; [|split].
  - rewrite handles_app. cbn. eapply con_perm; [|exact C2]. apply Permutation_cons_append.
  - eapply kept_trans; [exact Hk|]. eapply kept_trans; [apply kept_take|apply kept_app].
  - intros i h Hi' H v D. assert (i < length (upd e a None))%nat by (rewrite length_upd_env; destruct Hk; lia).
    rewrite nth_error_app1 in H by auto. apply (K2 h v); [right; eapply nth_handles; eauto|].
    apply nth_error_upd_none in H. apply (K h v); [eapply nth_handles; eauto|auto].
Qed.
End Landing.

Ltac borrows := unfold borrowing at 1;
  match goal with |- context [borrow ?e ?a] =>
    let x := fresh "x" in let H := fresh "B" in let H' := fresh "N" in
    destruct (borrow e a) as [x| |] eqn:H; [|exact I|exact I]; apply borrow_ok in H; pose proof (nth_handles _ _ _ H) as H' end.
Ltac takes := unfold taking at 1;
  match goal with |- context [take ?e ?a] =>
    let x := fresh "x" in let e1 := fresh "e" in let H := fresh "T" in
    destruct (take e a) as [[x e1]| |] eqn:H; [|exact I|exact I]; apply take_ok in H; destruct H as (? & -> & H) end.
Ltac types := unfold typed at 1;
  match goal with |- context [literal ?t ?v] =>
    destruct (literal t v) eqn:HL; [|exact I]; apply literal_ok in HL; destruct HL as [HL1 HL2] end.

Lemma call_sound dbg P c e st : consistent P st (handles e) -> room P (handles e) 8 -> lands P e st (do_call dbg c e st).
Proof.
  intros Hc Hr. destruct c as [c|o a b|o a b|o a t v]; [destruct c|..]; cbn [do_call].
  - eapply (lands_named P e e [] []); eauto using kept_refl; [intros x []|apply usafe_leaf, safe_bi_new].
  - types. eapply (lands_named P e e [] []); eauto using kept_refl; [intros x []|apply usafe_leaf, safe_from; auto; lia].
  - types. pose proof (usafe_from_str_radix dbg P 8 [] s radix ltac:(lia) HL2 st (handles e) Hc Hr ltac:(intros x [])) as S.
    unfold catching. destruct (u_from_str_radix dbg s radix st) as [[c|er] st'|st'| |]; cbn [lands parsed app] in *; auto.
    + destruct S as (C & K & _). split; [|split].
      * rewrite handles_app. cbn. eapply con_perm; [|exact C]. apply Permutation_cons_append.
      * apply kept_app.
      * intros i h Hi' H v D. rewrite nth_error_app1 in H by auto. apply (K h v); auto. eapply nth_handles; eauto.
    + destruct S as (C & K & _). split; auto. split; [apply kept_refl|]. intros i h _ H v D. apply (K h v); auto. eapply nth_handles; eauto.
    + destruct S as (C & K). split; auto. split; [apply kept_refl|]. intros i h _ H v D. apply (K h v); auto. eapply nth_handles; eauto.
  - borrows. eapply (lands_named P e e [x] []); eauto using kept_refl; [intros y [<-|[]]; auto|apply usafe_leaf, safe_clone; [lia|left; auto]].
  - takes. eapply (lands_ignored P e _ [] [x]) with (Q := any); eauto using kept_take; [intros y []|].
    intros st1 hs C1 R1 _. destruct (drop_spec P st1 hs x C1) as (st2 & E2 & C2 & K2). unfold leaf. rewrite E2. cbn. unfold any. auto.
  - borrows. borrows. eapply (lands_named P e e [x; x0] []); eauto using kept_refl.
    + intros y [<-|[<-|[]]]; auto.
    + apply usafe_operate; [lia|left; auto|right; left; auto].
  - takes. takes. eapply (lands_named P e _ [] [x; x0]); eauto.
    + rewrite T, T0. reflexivity.
    + eapply kept_trans; apply kept_take.
    + intros y [].
    + apply usafe_by_val. lia.
  - takes. borrows. eapply (lands_named P e _ [x0] [x]); eauto using kept_take.
    + intros y [<-|[]]. auto.
    + apply usafe_by_val_ref; [lia|right; left; auto].
  - takes. borrows. eapply (lands_named P e _ [x0] [x]); eauto using kept_take.
    + intros y [<-|[]]. auto.
    + apply usafe_by_ref_val; [lia|right; left; auto].
  - types. takes. eapply (lands_named P e _ [] [x]); eauto using kept_take; [intros y []|]. apply usafe_op_int; auto. lia.
  - takes. eapply (lands_named P e _ [] [x]) with (Q := any); eauto using kept_take; [intros y []|].
    intros st1 hs C1 R1 _. cbn. destruct (con_neg P st1 hs x C1) as [C2 _]. split; [exact C2|]. split; [apply keeps_refl|exact I].
  - borrows. eapply (lands_named P e e [x] []); eauto using kept_refl; [intros y [<-|[]]; auto|].
    apply usafe_leaf, safe_neg_ref; [lia|left; auto].
  - takes. eapply (lands_named P e _ [] [x]); eauto using kept_take; [intros y []|]. apply usafe_not. lia.
  - takes. eapply (lands_named P e _ [] [x]) with (Q := any); eauto using kept_take; [intros y []|].
    intros st1 hs C1 R1 H1. destruct (safe_abs P 8 [] x st1 hs C1 R1 H1 (bi_abs x) st1 eq_refl) as (C2 & K2 & _). cbn. unfold any. auto.
  - takes. takes. eapply (lands_named P e _ [] [x; x0]); eauto.
    + rewrite T, T0. reflexivity.
    + eapply kept_trans; apply kept_take.
    + intros y [].
    + apply usafe_pow. lia.
  - borrows. borrows. eapply (lands_ignored P e e [] []); eauto using kept_refl; [intros y []|apply usafe_leaf, (safe_reads P 8 [] [])].
  - borrows. borrows. eapply (lands_ignored P e e [] []); eauto using kept_refl; [intros y []|apply usafe_leaf, (safe_reads P 8 [] [])].
  - types. borrows. eapply (lands_ignored P e e [] []); eauto using kept_refl; [intros y []|apply usafe_leaf, (safe_reads P 8 [] [])].
  - types. borrows. eapply (lands_ignored P e e [] []); eauto using kept_refl; [intros y []|apply usafe_cmp_int; auto; lia].
  - types. borrows. eapply (lands_ignored P e e [] []); eauto using kept_refl; [intros y []|apply usafe_try_from; auto; lia].
  - types. takes. eapply (lands_ignored P e _ [] [x]); eauto using kept_take; [intros y []|apply usafe_truncate; auto; lia].
  - types. takes. eapply (lands_ignored P e _ [] [x]); eauto using kept_take; [intros y []|apply usafe_saturate; auto; lia].
  - borrows. eapply (lands_ignored P e e [x] []) with (Q := any); eauto using kept_refl; [intros y [<-|[]]; auto|].
    unfold u_display. eapply usafe_bind with (o1 := none); [apply usafe_write_base; [lia|left; auto|reflexivity]|].
    intros s _. apply usafe_ret0. exact I.
  - borrows. eapply (lands_ignored P e e [x] []) with (Q := any); eauto using kept_refl; [intros y [<-|[]]; auto|].
    unfold u_upper_hex. eapply usafe_bind with (o1 := none); [apply usafe_write_base; [lia|left; auto|reflexivity]|].
    intros s _. apply usafe_ret0. exact I.
  - borrows. eapply (lands_ignored P e e [] []) with (Q := any); eauto using kept_refl; [intros y []|]. apply usafe_leaf.
    unfold bi_binary. eapply safe_bind with (o1 := none); [apply (safe_reads P 8 [] [])|]. intros l _.
    eapply safe_bind with (o1 := none) (Q1 := any); [apply (safe_lift P 8 [] []); intros; exact I|]. intros o _.
    apply safe_ret0. exact I.
  - (* AssignVal *) takes. destruct (borrow (upd e b None) a) as [x0| |] eqn:B; [|unfold assigned, borrowing; rewrite B; exact I..].
    apply borrow_ok in B. pose proof (nth_handles _ _ _ B) as N.
    eapply (lands_assigned P e _ [x0] [x]) with (x := x0); eauto using kept_take; [intros y [<-|[]]; auto|].
    apply usafe_by_ref_val; [lia|right; left; auto].
  - (* AssignRef *) borrows. destruct (borrow e a) as [x0| |] eqn:B2; [|unfold assigned, borrowing; rewrite B2; exact I..].
    apply borrow_ok in B2. pose proof (nth_handles _ _ _ B2) as N2.
    eapply (lands_assigned P e e [x0; x] []) with (x := x0); eauto using kept_refl; [intros y [<-|[<-|[]]]; auto|].
    apply usafe_operate; [lia|left; auto|right; left; auto].
  - (* AssignInt *) types. destruct (borrow e a) as [x0| |] eqn:B2; [|unfold assigned, borrowing; rewrite B2; exact I..].
    apply borrow_ok in B2. pose proof (nth_handles _ _ _ B2) as N2.
    eapply (lands_assigned P e e [x0] []) with (x := x0); eauto using kept_refl; [intros y [<-|[]]; auto|].
    apply usafe_assign_int; auto; [lia|left; auto].
Qed.

Lemma catch_peak dbg cs : forall e st p e' st' p', catch_run dbg cs e st p = Some (e', st', p') -> (p <= p')%nat.
Proof.
  induction cs as [|c cs IH]; intros e st p e' st' p' E; cbn [catch_run] in E.
  - assert (p = p') by congruence. lia.
  - destruct (do_call dbg c e st) as [e1 st1 b| | |]; try discriminate. apply IH in E. lia.
Qed.

Lemma catch_sound dbg P cs : forall e st p e' st' p', consistent P st (handles e) -> (live (handles e) <= p)%nat ->
  catch_run dbg cs e st p = Some (e', st', p') -> Z.of_nat p' + 8 <= P -> sound P e st e' st' /\ (live (handles e') <= p')%nat.
Proof.
  induction cs as [|c cs IH]; intros e st p e' st' p' Hc Hp E HP; cbn [catch_run] in E.
  - assert (e' = e) as -> by congruence. assert (st' = st) as -> by congruence. assert (p' = p) as -> by congruence.
    split; auto. apply sound_refl. auto.
  - destruct (do_call dbg c e st) as [e1 st1 b| | |] eqn:E1; try discriminate.
    pose proof (catch_peak _ _ _ _ _ _ _ _ E) as Hpk.
    assert (room P (handles e) 8) as Hr by (unfold room; lia).
    pose proof (call_sound dbg P c e st Hc Hr) as S. rewrite E1 in S. cbn [lands] in S.
    destruct (IH e1 st1 (Nat.max p (live (handles e1))) e' st' p') as [S2 L2]; auto; [apply S|lia|].
    split; auto. eapply sound_trans; eauto.
Qed.
