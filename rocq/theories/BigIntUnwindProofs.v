(** Proofs about BigIntUnwindModel.v: agreement with BigIntModel.v, and what a panic leaves behind. *)
From Coq Require Import ZArith List Bool Lia Permutation.
From Verif Require Import Base Words Spec TextSpec Arith BitSliceModel ElementModel BitwiseModel ElemShift InternModel InternProofs BigIntModel
  BigIntSpec BigIntProofs BigIntOps BigIntConv BigIntText BigIntSafe BigIntRun BigIntHist BigIntUnwindModel.
Import ListNotations.
Local Open Scope Z_scope.

(** ** Agreement *)

Definition agrees {A} (u : U A) (m : M A) : Prop := forall st,
  match u st with
  | Returned a st' => m st = Ok (a, st')
  | Unwound _ | Aborted => m st = Panic
  | Starved => m st = Timeout
  end.

Lemma agrees_leaf {A} (m : M A) : agrees (leaf m) m.
Proof. intros st. unfold leaf. destruct (m st) as [[a st']| |]; auto. Qed.
Lemma agrees_ret {A} (a : A) : agrees (uret a) (ret a).
Proof. intros st. reflexivity. Qed.
Lemma agrees_bind {A B} (u : U A) m (f : A -> U B) g : agrees u m -> (forall a, agrees (f a) (g a)) -> agrees (ubind u f) (mbind m g).
Proof.
  intros H1 H2 st. unfold ubind, mbind. specialize (H1 st). destruct (u st) as [a st'|st'| |]; rewrite H1; cbn [bind]; auto.
  apply H2.
Qed.
Lemma agrees_own {A} h (u : U A) m : agrees u m -> agrees (owning h u) m.
Proof.
  intros H st. unfold owning. specialize (H st). destruct (u st) as [a st'|st'| |]; auto.
  destruct (bi_drop h st') as [[x st2]| |]; auto.
Qed.
Lemma agrees_starved {A} : agrees (A := A) (fun _ => Starved) (fun _ => Timeout).
Proof. intros st. reflexivity. Qed.

Ltac agree := repeat first [ assumption | lazymatch goal with
  | |- agrees (fun _ => Starved) _ => apply agrees_starved
  | |- agrees (leaf _) _ => apply agrees_leaf
  | |- agrees (uret _) _ => apply agrees_ret
  | |- agrees (owning _ _) _ => apply agrees_own
  | |- agrees (ubind _ _) _ => apply agrees_bind; [|intros]
  end ].

Lemma agrees_try_from dbg t a : agrees (u_try_from dbg t a) (bi_try_from dbg t a).
Proof.
  unfold u_try_from, bi_try_from, u_drop. agree.
  match goal with |- agrees (match ?c with _ => _ end) _ => destruct c end; agree;
  match goal with |- agrees (match ?c with _ => _ end) _ => destruct c end; agree.
Qed.
Lemma agrees_try_from_val dbg t a : agrees (u_try_from_val dbg t a) (bi_try_from_val dbg t a).
Proof. unfold u_try_from_val, bi_try_from_val, u_drop. agree. apply agrees_try_from. Qed.
Lemma agrees_from_checked dbg t a : agrees (u_from_checked dbg t a) (bi_from_checked dbg t a).
Proof. unfold u_from_checked, bi_from_checked. agree. apply agrees_try_from_val. Qed.
Lemma agrees_saturate dbg t a : agrees (u_saturate dbg t a) (bi_saturate dbg t a).
Proof. unfold u_saturate, bi_saturate. agree. apply agrees_try_from_val. Qed.
Lemma agrees_truncate dbg t a : agrees (u_truncate dbg t a) (bi_truncate dbg t a).
Proof. unfold u_truncate, bi_truncate, u_drop. agree. Qed.
Lemma agrees_cmp_int dbg t a v : agrees (u_cmp_int dbg t a v) (bi_cmp_int dbg t a v).
Proof. unfold u_cmp_int, bi_cmp_int, u_drop. agree. Qed.
Lemma agrees_shift_amount dbg b : agrees (u_shift_amount dbg b) (shift_amount dbg b).
Proof. unfold u_shift_amount, shift_amount. agree; [apply agrees_try_from|]. destruct a; agree. Qed.
Lemma agrees_operate dbg o a b : agrees (u_operate dbg o a b) (operate dbg o a b).
Proof.
  destruct o; cbn [u_operate operate]; agree;
    unfold u_shl, u_shr, bi_shl, bi_shr, u_with_slices, with_slices; agree; apply agrees_shift_amount.
Qed.

Definition agrees2 (u : Z -> Z -> U Z) (m : Z -> Z -> M Z) : Prop := forall a b, agrees (u a b) (m a b).
Lemma agrees_by_val u m a b : agrees2 u m -> agrees (u_by_val u a b) (by_val m a b).
Proof. intros H. unfold u_by_val, by_val, u_drop. agree. apply H. Qed.
Lemma agrees_by_val_ref u m a b : agrees2 u m -> agrees (u_by_val_ref u a b) (by_val_ref m a b).
Proof. intros H. unfold u_by_val_ref, by_val_ref, u_drop. agree. apply H. Qed.
Lemma agrees_by_ref_val u m a b : agrees2 u m -> agrees (u_by_ref_val u a b) (by_ref_val m a b).
Proof. intros H. unfold u_by_ref_val, by_ref_val, u_drop. agree. apply H. Qed.
Lemma agrees_op_int dbg u m t a v : agrees2 u m -> agrees (u_op_int dbg u t a v) (op_int dbg m t a v).
Proof. intros H. unfold u_op_int, op_int. agree. apply agrees_by_val. auto. Qed.
Lemma agrees_not dbg a : agrees (u_not dbg a) (bi_not dbg a).
Proof. unfold u_not, bi_not, u_drop. agree. Qed.
Lemma agrees_mul dbg : agrees2 (u_operate dbg OMul) (bi_mul dbg).
Proof. intros a b. apply (agrees_operate dbg OMul). Qed.
Lemma agrees_add dbg : agrees2 (u_operate dbg OAdd) (bi_add dbg).
Proof. intros a b. apply (agrees_operate dbg OAdd). Qed.
Lemma agrees_sub dbg : agrees2 (u_operate dbg OSub) (bi_sub dbg).
Proof. intros a b. apply (agrees_operate dbg OSub). Qed.
Lemma agrees_div dbg : agrees2 (u_operate dbg ODiv) (bi_div dbg).
Proof. intros a b. apply (agrees_operate dbg ODiv). Qed.
Lemma agrees_rem dbg : agrees2 (u_operate dbg ORem) (bi_rem dbg).
Proof. intros a b. apply (agrees_operate dbg ORem). Qed.

Lemma agrees_pow_loop dbg fuel : forall self rhs out, agrees (u_pow_loop dbg fuel self rhs out) (bi_pow_loop dbg fuel self rhs out).
Proof.
  induction fuel as [|fuel IH]; intros self rhs out; cbn [u_pow_loop bi_pow_loop]; [agree|].
  apply agrees_bind; [agree; apply agrees_cmp_int|]. intros []; agree; auto using agrees_by_val, agrees_mul, agrees_op_int, agrees_sub.
Qed.
Lemma agrees_pow dbg fuel a b : agrees (u_pow dbg fuel a b) (bi_pow dbg fuel a b).
Proof.
  unfold u_pow, bi_pow, u_drop. apply agrees_bind; [agree|]. intros []; [agree|].
  apply agrees_bind; [agree|]. intros out. apply agrees_bind; [agree; apply agrees_pow_loop|]. intros [r o]. agree.
Qed.
Lemma agrees_digits dbg b fuel : forall s ds, agrees (u_digits dbg fuel b s ds) (bi_digits dbg fuel b s ds).
Proof.
  induction fuel as [|fuel IH]; intros s ds; cbn [u_digits bi_digits]; [agree|]. unfold u_drop.
  apply agrees_bind; [agree; apply agrees_cmp_int|].
  intros []; agree; auto using agrees_op_int, agrees_rem, agrees_div, agrees_from_checked.
Qed.
Lemma agrees_write_base dbg fuel a b cs : agrees (u_write_base dbg fuel a b cs) (bi_write_base dbg fuel a b cs).
Proof. unfold u_write_base, bi_write_base. agree. apply agrees_digits. Qed.
Lemma agrees_display dbg fuel a : agrees (u_display dbg fuel a) (bi_display dbg fuel a).
Proof. unfold u_display, bi_display. agree. apply agrees_write_base. Qed.
Lemma agrees_upper_hex dbg fuel a : agrees (u_upper_hex dbg fuel a) (bi_upper_hex dbg fuel a).
Proof. unfold u_upper_hex, bi_upper_hex. agree. apply agrees_write_base. Qed.
Lemma agrees_parse_loop dbg radix s : forall out, agrees (u_parse_loop dbg radix s out) (bi_parse_loop dbg radix s out).
Proof.
  induction s as [|c s IH]; intros out; cbn [u_parse_loop bi_parse_loop]; [agree|]. unfold u_drop.
  destruct (val_from_char c radix); agree; auto using agrees_op_int, agrees_mul, agrees_add.
Qed.
Lemma agrees_from_str_radix dbg s radix : agrees (u_from_str_radix dbg s radix) (bi_from_str_radix dbg s radix).
Proof. unfold u_from_str_radix, bi_from_str_radix. agree. apply agrees_parse_loop. Qed.

(** ** What is left *)

(** [u] consumes [ins], whether it returns or panics; [hs] are not disturbed. *)
Definition usafe {A} (P n : Z) (refs ins : list Z) (u : U A) (outs : A -> list Z) (Q : A -> Prop) : Prop :=
  forall st hs, consistent P st (ins ++ hs) -> room P hs n -> incl refs hs ->
  match u st with
  | Returned r st' => consistent P st' (outs r ++ hs) /\ keeps st st' hs /\ Q r
  | Unwound st' => consistent P st' hs /\ keeps st st' hs
  | Aborted => False
  | Starved => True
  end.

Lemma usafe_leaf {A} P n refs (m : M A) o Q : safe P n refs [] m o Q -> usafe P n refs [] (leaf m) o Q.
Proof.
  intros H st hs Hc Hr Hi. unfold leaf. destruct (m st) as [[a st']| |] eqn:E; [|split; [exact Hc|apply keeps_refl]|exact I].
  exact (H st hs Hc Hr Hi a st' E).
Qed.

Lemma usafe_ret {A} P n refs (a : A) o (Q : A -> Prop) : Q a -> usafe P n refs (o a) (uret a) o Q.
Proof. intros q st hs Hc Hr Hi. cbn. split; auto. split; auto. apply keeps_refl. Qed.
Lemma usafe_ret0 {A} P n refs (a : A) (Q : A -> Prop) : Q a -> usafe P n refs [] (uret a) none Q.
Proof. intros q. apply (usafe_ret P n refs a none). auto. Qed.

Lemma usafe_bind {A B} P n refs ins (u : U A) (f : A -> U B) o1 o2 (Q1 : A -> Prop) (Q2 : B -> Prop) :
  usafe P n refs ins u o1 Q1 -> (forall a, Q1 a -> usafe P n refs (o1 a) (f a) o2 Q2) ->
  usafe P n refs ins (ubind u f) o2 Q2.
Proof.
  intros H1 H2 st hs Hc Hr Hi. unfold ubind. specialize (H1 st hs Hc Hr Hi). destruct (u st) as [a st1|st1| |]; auto.
  destruct H1 as (C1 & K1 & q1). specialize (H2 a q1 st1 hs C1 Hr Hi). destruct (f a st1) as [b st2|st2| |]; auto.
  - destruct H2 as (C2 & K2 & q2). split; auto. split; auto. eapply keeps_trans; eauto.
  - destruct H2 as (C2 & K2). split; auto. eapply keeps_trans; eauto.
Qed.

Lemma usafe_weaken {A} P n n' refs refs' ins ins' (u : U A) o o' (Q Q' : A -> Prop) :
  usafe P n refs ins u o Q -> n <= n' -> incl refs refs' -> Permutation ins ins' ->
  (forall a, Q a -> Permutation (o a) (o' a) /\ Q' a) -> usafe P n' refs' ins' u o' Q'.
Proof.
  intros H Hn Hi Hp Ho st hs Hc Hr Hi'.
  assert (consistent P st (ins ++ hs)) as Hc'.
  { eapply con_perm; [|exact Hc]. apply Permutation_app_tail. symmetry. auto. }
  specialize (H st hs Hc' ltac:(eapply room_le; eauto) ltac:(eapply incl_tran; eauto)).
  destruct (u st) as [r st1|st1| |]; auto. destruct H as (C & K & q). destruct (Ho r q) as [Hpo q'].
  split; auto. eapply con_perm; [|exact C]. apply Permutation_app_tail. auto.
Qed.
Lemma usafe_in {A} P n refs ins ins' (u : U A) o Q : usafe P n refs ins u o Q -> Permutation ins ins' -> usafe P n refs ins' u o Q.
Proof.
  intros H Hp. eapply usafe_weaken; [exact H|lia|apply incl_refl|exact Hp|]. intros a q. split; [reflexivity|exact q].
Qed.

Lemma usafe_own {A} P k n refs0 refs h ins (u : U A) o Q : usafe P k refs0 ins u o Q -> k + 1 <= n -> incl refs0 (h :: refs) ->
  usafe P n refs (h :: ins) (owning h u) (fun r => h :: o r) Q.
Proof.
  intros H Hn Hi st hs Hc Hr Hi'.
  assert (consistent P st (ins ++ h :: hs)) as Hc'.
  { eapply con_perm; [|exact Hc]. apply Permutation_middle. }
  assert (room P (h :: hs) k) as Hr'.
  { unfold room in *. change (h :: hs) with ([h] ++ hs). rewrite live_app. pose proof (live_le_length [h]). cbn [length] in *. lia. }
  specialize (H st (h :: hs) Hc' Hr').
  assert (incl refs0 (h :: hs)) as Hi2. { intros x Hx. apply Hi in Hx. destruct Hx; [left|right]; auto. }
  specialize (H Hi2). unfold owning. destruct (u st) as [r st1|st1| |]; auto.
  - destruct H as (C & K & q). split; [eapply con_perm; [|exact C]; symmetry; apply Permutation_middle|]. split; auto.
    eapply keeps_incl; [exact K|]. intros x Hx. right. auto.
  - destruct H as (C & K). destruct (drop_spec P st1 hs h C) as (st2 & E2 & C2 & K2). rewrite E2. split; auto.
    eapply keeps_trans; [|exact K2]. eapply keeps_incl; [exact K|]. intros x Hx. right. auto.
Qed.

(** While a frame owns [h], a computation without handles of its own, or one that makes a new handle. *)
Lemma usafe_drop {A} P n refs h rest (f : unit -> U A) o Q : usafe P n refs rest (f tt) o Q ->
  usafe P n refs (h :: rest) (ubind (u_drop h) f) o Q.
Proof.
  intros H st hs Hc Hr Hi. destruct (drop_spec P st (rest ++ hs) h Hc) as (st1 & E1 & C & K).
  unfold ubind, u_drop, leaf. rewrite E1. specialize (H st1 hs C Hr Hi).
  assert (keeps st st1 hs) as K1. { eapply keeps_incl; [exact K|]. intros x Hx. apply in_app_iff. auto. }
  destruct (f tt st1) as [r st2|st2| |]; auto.
  - destruct H as (C2 & K2 & q). split; auto. split; auto. eapply keeps_trans; eauto.
  - destruct H as (C2 & K2). split; auto. eapply keeps_trans; eauto.
Qed.

Lemma usafe_starved {A} P n refs ins o (Q : A -> Prop) : usafe P n refs ins (fun _ => Starved) o Q.
Proof. intros st hs _ _ _. exact I. Qed.

Lemma usafe_try_from P n refs dbg t a : 1 <= n -> std_ty t -> usafe P n refs [] (u_try_from dbg t a) none any.
Proof.
  intros Hn Ht. unfold u_try_from.
  assert (forall m, usafe P n refs [m] (owning m (leaf (reads (fun st => bi_cmp st a m)))) (fun _ => [m]) any) as R.
  { intros m. apply (usafe_own P 0 n [] refs m [] _ none any); [|lia|intros x []]. apply usafe_leaf. apply (safe_reads P 0 [] []). }
  eapply usafe_bind; [apply usafe_leaf; apply safe_from; auto; [lia|apply in_range_max; auto]|]. intros m _.
  eapply usafe_bind; [apply R|]. intros c _. apply usafe_drop.
  assert (usafe P n refs [] (let? m0 := leaf (bi_from dbg t (imin t)) in
     let? c0 := owning m0 (leaf (reads (fun st => bi_cmp st a m0))) in
     let? _ := u_drop m0 in
     match c0 with
     | Lt => uret (inr Below)
     | _ => let? l := leaf (reads (fun st => bi_slice st a)) in
            let? o := leaf (lift (arr_to_int dbg 64 t l)) in uret (match o with Some v => inl v | None => inr Above end)
     end) none any) as S.
  { eapply usafe_bind; [apply usafe_leaf; apply safe_from; auto; [lia|apply in_range_min; auto]|]. intros m2 _.
    eapply usafe_bind; [apply R|]. intros c2 _. apply usafe_drop.
    assert (usafe P n refs [] (let? l := leaf (reads (fun st => bi_slice st a)) in
            let? o := leaf (lift (arr_to_int dbg 64 t l)) in uret (match o with Some v => inl v | None => inr Above end)) none any) as S2.
    { eapply usafe_bind with (o1 := none); [apply usafe_leaf; apply (safe_reads P n refs [])|]. intros l _.
      eapply usafe_bind with (o1 := none) (Q1 := any); [apply usafe_leaf; apply (safe_lift P n refs []); intros; exact I|]. intros o _.
      apply usafe_ret0. exact I. }
    destruct c2; auto. apply usafe_ret0. exact I. }
  destruct c; auto. apply usafe_ret0. exact I.
Qed.

Lemma usafe_shift_amount P n refs dbg b : 1 <= n -> usafe P n refs [] (u_shift_amount dbg b) none any.
Proof.
  intros Hn. unfold u_shift_amount. eapply usafe_bind with (o1 := none); [apply usafe_try_from; auto; unfold std_ty; cbn; auto|].
  intros [v|s] _; [apply usafe_ret0; exact I|]. apply usafe_leaf. apply (safe_lift P n refs []). discriminate.
Qed.

Lemma usafe_operate P n refs dbg o a b : 1 <= n -> In a refs -> In b refs -> usafe P n refs [] (u_operate dbg o a b) one nonnz.
Proof.
  intros Hn Ha Hb.
  destruct (match o with OShl | OShr => true | _ => false end) eqn:Eo.
  2: { assert (u_operate dbg o a b = leaf (operate dbg o a b)) as -> by (destruct o; try discriminate Eo; reflexivity).
       apply usafe_leaf. apply (operate_safe o); auto. lia. }
  assert (forall f : list Z -> nat -> res (list Z), (forall la k out, good la -> f la k = Ok out -> good out) ->
    usafe P n refs [] (let? out := u_with_slices a b (fun la _ => let? k := u_shift_amount dbg b in leaf (lift (f la k))) in
      leaf (new_slice dbg out (is_negative a))) one nonnz) as H.
  { intros f Hf. eapply usafe_bind with (o1 := none) (Q1 := good).
    - unfold u_with_slices. eapply usafe_bind with (o1 := none); [apply usafe_leaf; apply (safe_slice P n refs []); auto|]. intros la Ga.
      eapply usafe_bind with (o1 := none); [apply usafe_leaf; apply (safe_slice P n refs []); auto|]. intros lb _.
      eapply usafe_bind with (o1 := none); [apply usafe_shift_amount; auto|]. intros k _.
      apply usafe_leaf. apply (safe_lift P n refs []). intros out E. eapply Hf; eauto.
    - intros out G. apply usafe_leaf. apply safe_new_slice; auto. lia. }
  destruct o; try discriminate Eo; cbn [u_operate].
  - apply H. intros la k out [Wa _] E.
    destruct (elem_shl_spec 64 k ltac:(lia) la Wa) as (o & Eo' & Wo & Co & _).
    assert (o = out) as -> by congruence. split; auto. apply canonical_ne; auto.
  - apply H. intros la k out Ga E. pose proof (good_len la Ga) as La. destruct Ga as [Wa _].
    assert (dbg = false \/ Nat.div k 64 = 0%nat \/ (dbg = true /\ (0 < Nat.div k 64)%nat)) as [D|[D|[D D']]] by (destruct dbg; lia).
    + destruct (elem_shr_spec 64 k ltac:(lia) dbg la Wa La ltac:(auto)) as (o & Eo' & Wo & Co & _).
      assert (o = out) as -> by congruence. split; auto. apply canonical_ne; auto.
    + destruct (elem_shr_spec 64 k ltac:(lia) dbg la Wa La ltac:(auto)) as (o & Eo' & Wo & Co & _).
      assert (o = out) as -> by congruence. split; auto. apply canonical_ne; auto.
    + subst dbg. rewrite (elem_shr_debug_panic 64 k ltac:(lia) la La D') in E. discriminate.
Qed.

(** A frame that owns [h] around something without handles, and around something that makes one. *)
Lemma own_none {A} P n refs h (u : U A) Q : usafe P (n - 1) (h :: refs) [] u none Q -> usafe P n refs [h] (owning h u) (fun _ => [h]) Q.
Proof. intros H. apply (usafe_own P (n - 1) n (h :: refs) refs h [] u none Q H); [lia|apply incl_refl]. Qed.
Lemma own_new P n refs h (u : U Z) Q : usafe P (n - 1) (h :: refs) [] u one Q -> usafe P n refs [h] (owning h u) (fun c => [h; c]) Q.
Proof. intros H. apply (usafe_own P (n - 1) n (h :: refs) refs h [] u one Q H); [lia|apply incl_refl]. Qed.
Lemma own2_none {A} P n refs h g (u : U A) Q : usafe P (n - 2) (g :: h :: refs) [] u none Q ->
  usafe P n refs [h; g] (owning h (owning g u)) (fun _ => [h; g]) Q.
Proof.
  intros H. apply (usafe_own P (n - 1) n (h :: refs) refs h [g] (owning g u) (fun _ => [g]) Q); [|lia|apply incl_refl].
  apply own_none. replace (n - 1 - 1) with (n - 2) by lia. exact H.
Qed.
Lemma own2_new P n refs h g (u : U Z) Q : usafe P (n - 2) (g :: h :: refs) [] u one Q ->
  usafe P n refs [h; g] (owning h (owning g u)) (fun c => [h; g; c]) Q.
Proof.
  intros H. apply (usafe_own P (n - 1) n (h :: refs) refs h [g] (owning g u) (fun c => [g; c]) Q); [|lia|apply incl_refl].
  apply own_new. replace (n - 1 - 1) with (n - 2) by lia. exact H.
Qed.

Lemma usafe_by_val P n refs dbg o a b : 3 <= n -> usafe P n refs [a; b] (u_by_val (u_operate dbg o) a b) one nonnz.
Proof.
  intros Hn. unfold u_by_val.
  eapply usafe_bind; [apply own2_new, usafe_operate; [lia|right; left; auto|left; auto]|]. intros c Nc. cbn beta.
  eapply usafe_in; [apply usafe_drop with (rest := [a; c])|perm]. apply usafe_drop. apply (usafe_ret P n refs c one). exact Nc.
Qed.
Lemma usafe_by_val_ref P n refs dbg o a b : 2 <= n -> In b (a :: refs) -> usafe P n refs [a] (u_by_val_ref (u_operate dbg o) a b) one nonnz.
Proof.
  intros Hn Hb. unfold u_by_val_ref.
  eapply usafe_bind; [apply own_new, usafe_operate; [lia|left; auto|exact Hb]|]. intros c Nc. cbn beta.
  apply usafe_drop. apply (usafe_ret P n refs c one). exact Nc.
Qed.
Lemma usafe_by_ref_val P n refs dbg o a b : 2 <= n -> In a (b :: refs) -> usafe P n refs [b] (u_by_ref_val (u_operate dbg o) a b) one nonnz.
Proof.
  intros Hn Ha. unfold u_by_ref_val.
  eapply usafe_bind; [apply own_new, usafe_operate; [lia|exact Ha|left; auto]|]. intros c Nc. cbn beta.
  apply usafe_drop. apply (usafe_ret P n refs c one). exact Nc.
Qed.
Lemma usafe_op_int P n refs dbg o t a v : 3 <= n -> std_ty t -> in_range t v = true ->
  usafe P n refs [a] (u_op_int dbg (u_operate dbg o) t a v) one nonnz.
Proof.
  intros Hn Ht Hv. unfold u_op_int. eapply usafe_bind; [apply own_new, usafe_leaf, safe_from; auto; lia|].
  intros b _. apply usafe_by_val. auto.
Qed.
Lemma usafe_assign_int P n refs dbg o t a v : 2 <= n -> std_ty t -> in_range t v = true -> In a refs ->
  usafe P n refs [] (u_assign_int dbg (u_operate dbg o) t a v) one nonnz.
Proof.
  intros Hn Ht Hv Ha. unfold u_assign_int. eapply usafe_bind; [apply usafe_leaf, safe_from; auto; lia|].
  intros b _. apply usafe_by_ref_val; auto. right. auto.
Qed.
Lemma usafe_not P n refs dbg a : 1 <= n -> usafe P n refs [a] (u_not dbg a) one nonnz.
Proof.
  intros Hn. unfold u_not.
  eapply usafe_bind; [apply own_none, usafe_leaf; apply (safe_slice P (n - 1) (a :: refs) [] a); left; auto|]. intros l [W Ne]. cbn beta.
  eapply usafe_bind; [apply own_new, usafe_leaf, safe_new_slice; [lia|]|].
  - split.
    + unfold elem_not. apply Forall_forall. intros x Hx. apply in_map_iff in Hx. destruct Hx as (y & <- & _). apply wnot_range.
    + unfold elem_not. destruct l; [congruence|discriminate].
  - intros c Nc. cbn beta. apply usafe_drop. apply (usafe_ret P n refs c one). exact Nc.
Qed.
Lemma usafe_try_from_val P n refs dbg t a : 2 <= n -> std_ty t -> usafe P n refs [a] (u_try_from_val dbg t a) none any.
Proof.
  intros Hn Ht. unfold u_try_from_val. eapply usafe_bind; [apply own_none, usafe_try_from; auto; lia|].
  intros r _. cbn beta. apply usafe_drop. apply usafe_ret0. exact I.
Qed.
Lemma usafe_from_checked P n refs dbg t a : 2 <= n -> std_ty t -> usafe P n refs [a] (u_from_checked dbg t a) none any.
Proof. intros Hn Ht. unfold u_from_checked. eapply usafe_bind; [apply usafe_try_from_val; auto|]. intros r _. apply usafe_ret0. exact I. Qed.
Lemma usafe_saturate P n refs dbg t a : 2 <= n -> std_ty t -> usafe P n refs [a] (u_saturate dbg t a) none any.
Proof. intros Hn Ht. unfold u_saturate. eapply usafe_bind; [apply usafe_try_from_val; auto|]. intros r _. apply usafe_ret0. exact I. Qed.
Lemma usafe_truncate P n refs dbg t a : 1 <= n -> std_ty t -> usafe P n refs [a] (u_truncate dbg t a) none any.
Proof.
  intros Hn Ht. unfold u_truncate.
  eapply usafe_bind; [apply own_none, usafe_leaf; apply (safe_reads P (n - 1) (a :: refs) [])|]. intros l _. cbn beta.
  eapply usafe_bind; [apply own_none with (Q := any), usafe_leaf; apply (safe_lift P (n - 1) (a :: refs) []); intros; exact I|]. intros o _. cbn beta.
  eapply usafe_bind; [apply own_none with (Q := any), usafe_leaf; apply (safe_lift P (n - 1) (a :: refs) []); intros; exact I|]. intros r _. cbn beta.
  apply usafe_drop. apply usafe_ret0. exact I.
Qed.
Lemma usafe_cmp_int P n refs dbg t a v : 1 <= n -> std_ty t -> in_range t v = true -> usafe P n refs [] (u_cmp_int dbg t a v) none any.
Proof.
  intros Hn Ht Hv. unfold u_cmp_int. eapply usafe_bind; [apply usafe_leaf, safe_from; auto; lia|]. intros m _.
  eapply usafe_bind; [apply own_none, usafe_leaf; apply (safe_reads P (n - 1) (m :: refs) [])|]. intros c _. cbn beta.
  apply usafe_drop. apply usafe_ret0. exact I.
Qed.

Lemma usafe_pow_loop dbg P n refs self : 5 <= n -> In self refs -> forall fuel rhs out, (nonnz self -> nonnz out) ->
  usafe P n refs [rhs; out] (u_pow_loop dbg fuel self rhs out) (fun p => [fst p; snd p]) (fun p => nonnz self -> nonnz (snd p)).
Proof.
  intros Hn Hs. induction fuel as [|fuel IH]; intros rhs out No; cbn [u_pow_loop]; [apply usafe_starved|].
  eapply usafe_bind; [apply own2_none, usafe_cmp_int; [lia|apply std_i32|reflexivity]|]. intros c _. cbn beta.
  destruct c; try (apply (usafe_ret P n refs (rhs, out) (fun p => [fst p; snd p])); exact No).
  eapply usafe_bind; [apply own2_new, usafe_leaf, safe_clone; [lia|right; right; auto]|]. intros s _. cbn beta.
  eapply usafe_bind.
  { apply (usafe_own P (n - 1) n (rhs :: refs) refs rhs [out; s] _ one nonnz); [apply usafe_by_val; lia|lia|apply incl_refl]. }
  intros out' No'. cbn beta.
  eapply usafe_bind.
  { eapply usafe_in; [apply (usafe_own P (n - 1) n (out' :: refs) refs out' [rhs] _ one nonnz); [apply usafe_op_int; [lia|apply std_i32|reflexivity]|lia|apply incl_refl]|].
    unfold one. perm. }
  intros rhs' _. cbn beta.
  eapply usafe_in; [apply IH; intros _; exact No'|]. unfold one. perm.
Qed.

Lemma usafe_pow P n refs dbg fuel self rhs : 8 <= n -> usafe P n refs [self; rhs] (u_pow dbg fuel self rhs) one (fun c => nonnz self -> nonnz c).
Proof.
  intros Hn. unfold u_pow.
  eapply usafe_bind; [apply own2_none, usafe_leaf; apply (safe_reads P (n - 2) (rhs :: self :: refs) [])|]. intros z _. cbn beta. destruct z.
  - eapply usafe_bind; [apply own2_new, usafe_leaf, safe_from; [lia|apply std_i32|reflexivity]|]. intros o No. cbn beta.
    eapply usafe_in; [apply usafe_drop with (rest := [self; o])|perm]. apply usafe_drop. apply (usafe_ret P n refs o one). intros _. exact No.
  - eapply usafe_bind; [apply own2_new, usafe_leaf, safe_clone; [lia|right; left; auto]|]. intros o Eo. cbn beta.
    eapply usafe_bind.
    { apply (usafe_own P (n - 1) n (self :: refs) refs self [rhs; o] _ (fun p => [fst p; snd p]) (fun p => nonnz self -> nonnz (snd p)));
        [apply usafe_pow_loop; [lia|left; auto|intros; rewrite Eo; auto]|lia|apply incl_refl]. }
    intros [r' o'] No'. cbn [fst snd].
    eapply usafe_in; [apply usafe_drop with (rest := [self; o'])|perm]. apply usafe_drop. apply (usafe_ret P n refs o' one). exact No'.
Qed.

Lemma usafe_digits dbg P n refs b : 8 <= n -> in_range t_usize b = true -> forall fuel scratch ds,
  usafe P n refs [scratch] (u_digits dbg fuel b scratch ds) none any.
Proof.
  intros Hn Hb. induction fuel as [|fuel IH]; intros scratch ds; cbn [u_digits]; [apply usafe_starved|].
  eapply usafe_bind; [apply own_none, usafe_cmp_int; [lia|apply std_i32|reflexivity]|]. intros c _. cbn beta.
  destruct c; try (apply usafe_drop; apply usafe_ret0; exact I).
  eapply usafe_bind; [apply own_new, usafe_leaf, safe_clone; [lia|left; auto]|]. intros s _. cbn beta.
  eapply usafe_bind.
  { apply (usafe_own P (n - 1) n (scratch :: refs) refs scratch [s] _ one nonnz); [apply usafe_op_int; [lia|apply std_usize|exact Hb]|lia|apply incl_refl]. }
  intros m _. cbn beta.
  eapply usafe_bind.
  { apply (usafe_own P (n - 1) n (scratch :: refs) refs scratch [m] _ none any); [apply usafe_from_checked; [lia|apply std_u8]|lia|apply incl_refl]. }
  intros o _. cbn beta. unfold none.
  eapply usafe_bind; [apply own_none with (Q := any), usafe_leaf; apply (safe_lift P (n - 1) (scratch :: refs) []); intros; exact I|]. intros d _. cbn beta.
  eapply usafe_bind; [apply usafe_op_int; [lia|apply std_usize|exact Hb]|]. intros s' _. apply IH.
Qed.

Lemma usafe_write_base dbg P n refs fuel a b chars : 8 <= n -> In a refs -> in_range t_usize b = true ->
  usafe P n refs [] (u_write_base dbg fuel a b chars) none any.
Proof.
  intros Hn Ha Hb. unfold u_write_base.
  eapply usafe_bind; [apply usafe_leaf, safe_clone; [lia|auto]|]. intros s _.
  eapply usafe_bind with (o1 := none); [apply usafe_digits; auto|]. intros ds _.
  apply usafe_leaf. apply (safe_lift P n refs []). intros; exact I.
Qed.

Definition parsed (r : Z + from_str_error) : list Z := match r with inl c => [c] | inr _ => [] end.
Lemma val_from_char_range c radix d : val_from_char c radix = inl d -> in_range t_u32 d = true.
Proof.
  intros Ed. unfold val_from_char in Ed. destruct (radix <=? 36) eqn:E36; [|discriminate].
  destruct (char_pos c (firstn (Z.to_nat radix) insens_chars) 0) as [d'|] eqn:Ep; [|discriminate].
  assert (d = d') as -> by congruence. apply in_range_iff.
  assert (forall cs i, char_pos c cs i = Some d' -> i <= d' < i + Z.of_nat (length cs)) as H.
  { clear. induction cs as [|c2 cs IH]; intros i; cbn [char_pos length]; [discriminate|].
    destruct (c2 =? ascii_lower c). - intros Q. assert (i = d') by congruence. lia.
    - intros Q. apply IH in Q. lia. }
  apply H in Ep. rewrite firstn_length in Ep. change (length insens_chars) with 36%nat in Ep.
  change (imin t_u32) with 0. change (imax t_u32) with 4294967295. lia.
Qed.
Lemma usafe_parse_loop dbg P n refs radix : 8 <= n -> in_range t_u32 radix = true -> forall s out,
  usafe P n refs [out] (u_parse_loop dbg radix s out) parsed any.
Proof.
  intros Hn Hr. induction s as [|c s IH]; intros out; cbn [u_parse_loop].
  - apply (usafe_ret P n refs (inl out) parsed). exact I.
  - destruct (val_from_char c radix) as [d|e] eqn:Ed.
    + eapply usafe_bind; [apply usafe_op_int; [lia|apply std_u32|exact Hr]|]. intros p _.
      eapply usafe_bind; [apply usafe_op_int; [lia|apply std_u32|eapply val_from_char_range; eauto]|]. intros o _. apply IH.
    + apply usafe_drop. apply (usafe_ret P n refs (inr e) parsed). exact I.
Qed.
Lemma usafe_from_str_radix dbg P n refs s radix : 8 <= n -> in_range t_u32 radix = true ->
  usafe P n refs [] (u_from_str_radix dbg s radix) parsed any.
Proof.
  intros Hn Hr. unfold u_from_str_radix. eapply usafe_bind; [apply usafe_leaf, safe_bi_new|]. intros z _. apply usafe_parse_loop; auto.
Qed.
