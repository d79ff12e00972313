(** Several threads that run the programs of ConcArithModel.v: what each does alone ([wp] of ConcArithWp.v) it does among the others. *)
From Coq Require Import ZArith List Bool PeanoNat Lia Permutation.
From Verif Require Import Base Words Spec Arith BitSliceModel BitSliceProofs InternModel InternProofs BigIntModel BigIntSpec BigIntProofs BigIntOps ConcArithModel ConcArithWp
  ConcInternModel ConcInternSpec ConcInternProofs ConcInternMore PropInternProgress PropInternOverlap ConcBigIntModel.
Import ListNotations.
Local Open Scope Z_scope.

Notation conf := (iconf (list Z)).
Notation store_of := ConcInternModel.istore.
Notation step := (iconf_step list_eqb).

Definition entry (cf : conf) (m : nat) : Z * list Z := match nth_error (handles cf) m with Some h => (hid h, hval h) | None => (0, []) end.
Definition usable_now (cf : conf) (m : nat) : Prop := exists h, nth_error (handles cf) m = Some h /\ hst h <> Gone.

(** ** How the handles change *)

Definition kept (cf cf' : conf) (gone : nat -> Prop) : Prop := forall m h, nth_error (handles cf) m = Some h ->
  exists s, nth_error (handles cf') m = Some (Handle (hid h) (hval h) s) /\ (hst h = Gone -> s = Gone) /\ (s = Gone -> hst h = Gone \/ gone m).

Lemma kept_refl cf G : kept cf cf G.
Proof. intros m [k v s] E. exists s. auto. Qed.
Lemma kept_same cf cf' G : handles cf' = handles cf -> kept cf cf' G.
Proof. intros Eh m [k v s] E. rewrite Eh. exists s. auto. Qed.
Lemma kept_upd (cf cf' : conf) (G : nat -> Prop) n h s : nth_error (handles cf) n = Some h -> handles cf' = upd (handles cf) n (Handle (hid h) (hval h) s) ->
  (hst h = Gone -> s = Gone) -> (s = Gone -> G n) -> kept cf cf' G.
Proof.
  intros En Eh H1 H2 m h' E. rewrite Eh, nth_error_upd. destruct (Nat.eqb_spec n m) as [->|Hn]; cbn [andb].
  - assert (h' = h) by congruence. subst h'. rewrite (proj2 (Nat.ltb_lt _ _)) by (apply nth_error_Some; congruence). exists s. auto.
  - exists (hst h'). rewrite E. destruct h'. auto.
Qed.
Lemma kept_trans cf cf' cf'' G : kept cf cf' G -> kept cf' cf'' G -> kept cf cf'' G.
Proof.
  intros H H' m h E. destruct (H m h E) as (s & E1 & A1 & B1). destruct (H' m _ E1) as (s' & E2 & A2 & B2). cbn [hid hval hst] in *.
  exists s'. split; auto. split; auto. intros X. destruct (B2 X); auto.
Qed.
Lemma kept_app (cf cf' : conf) h G : handles cf' = handles cf ++ [h] -> kept cf cf' G.
Proof.
  intros Eh m [k v s] E. exists s. rewrite Eh, nth_error_app1 by (apply nth_error_Some; congruence). auto.
Qed.
Lemma kept_set cf n s (G : nat -> Prop) : (forall h, nth_error (handles cf) n = Some h -> hst h <> Gone) -> (s = Gone -> G n) -> kept cf (set_handle cf n s) G.
Proof.
  intros H H'. unfold set_handle. destruct (nth_error (handles cf) n) as [h|] eqn:E; [|apply kept_refl].
  eapply kept_upd; [exact E|reflexivity|intros X; elim (H h eq_refl X)|auto].
Qed.
Lemma kept_unborrow cf n (G : nat -> Prop) : kept cf (unborrow cf n) G.
Proof.
  unfold unborrow. destruct (nth_error (handles cf) n) as [[k v [b| |]]|] eqn:E; try apply kept_refl. apply kept_set; [|discriminate].
  intros h E'. rewrite E in E'. injection E' as <-. discriminate.
Qed.
Lemma len_set cf n s : length (handles (set_handle (T := list Z) cf n s)) = length (handles cf).
Proof. unfold set_handle. destruct (nth_error (handles cf) n); auto. apply len_upd. Qed.
Lemma len_unborrow cf n : length (handles (unborrow (T := list Z) cf n)) = length (handles cf).
Proof. unfold unborrow. destruct (nth_error (handles cf) n) as [[k v [b| |]]|]; auto using len_set. Qed.

Lemma begin_kept cf t c (G : nat -> Prop) : kept cf (begin_call cf t c) G /\ length (handles (begin_call cf t c)) = length (handles cf).
Proof.
  destruct c as [v|n|n|n]; cbn [begin_call]; [split; [apply kept_same|]; reflexivity|..];
    destruct (nth_error (handles cf) n) as [[k v [[|b]| |]]|] eqn:E; (split; [|cbn [set_thread handles]; rewrite ?len_set; reflexivity]);
    try apply kept_refl; (eapply kept_trans; [|apply kept_same; reflexivity]); (apply kept_set; [|discriminate]); intros h E'; rewrite E in E'; injection E' as <-; discriminate.
Qed.

(** The step of a thread inside a call. *)
Lemma go_kept dbg N cf t q : iinv N cf -> nth_error (ithreads cf) t = Some (Some q) ->
  kept cf (istep list_eqb dbg cf t q) (fun m => call_of q = Some (CDecr m)) /\
  (length (handles (istep list_eqb dbg cf t q)) = length (handles cf) \/
   length (handles (istep list_eqb dbg cf t q)) = S (length (handles cf)) /\ nth_error (ithreads (istep list_eqb dbg cf t q)) t = Some None /\
   match call_of q with Some (CAdd _) | Some (CIncr _) => True | _ => False end).
Proof.
  intros HI Et. pose proof (nth_upd_same _ _ (@None (ipc (list Z))) _ Et) as En.
  destruct q as [v i|v i j|v i j c|v i j|v i j|v i j|v|v|v len|m k|m k|m k|m k|]; cbn [istep].
  10: { destruct (in_use _ _ _ _ _ _ HI Et (or_introl eq_refl)) as (v & b & Eh & _).
    unfold with_store. destruct (intern_incr dbg k (store_of cf)) as [st'| |]; [|split; [apply kept_same|left]; reflexivity..].
    cbn [set_store handles]. rewrite Eh. split.
    - apply (kept_trans _ (unborrow (set_store cf st') m)); [|eapply kept_app; unfold finish, set_thread, add_handle; cbn [handles]; reflexivity].
      apply (kept_trans _ (set_store cf st')); [|apply kept_unborrow]. apply kept_same. reflexivity.
    - right. unfold finish, set_thread, add_handle. cbn [handles ithreads]. rewrite app_length, len_unborrow, unborrow_threads. cbn. split; [lia|split; [exact En|exact I]]. }
  10: { destruct (leaving _ _ _ _ _ HI Et) as (v & Eh & _).
    unfold with_store. destruct (intern_decr k (store_of cf)) as [st'| |]; [|split; [apply kept_same|left]; reflexivity..].
    split; [|left; unfold finish, set_thread; cbn [handles]; rewrite len_set; reflexivity].
    apply (kept_trans _ (set_handle (set_store cf st') m Gone)); [|apply kept_same; unfold finish, set_thread; cbn [handles]; reflexivity].
    apply (kept_trans _ (set_store cf st')); [apply kept_same; reflexivity|]. apply kept_set; [|reflexivity]. cbn [set_store handles]. intros h E'. rewrite Eh in E'. injection E' as <-. discriminate. }
  all: cbn [call_of]; unfold with_store, finish, set_thread, add_handle, add_read, set_store;
    repeat (match goal with |- context [match ?x with _ => _ end] => destruct x end; cbn [ithreads istore handles reads]).
  all: try (split; [apply kept_same|left]; cbn [handles]; reflexivity).
  all: try (split; [eapply kept_app; cbn [handles]; reflexivity|right; cbn [handles ithreads]; rewrite app_length; cbn; split; [lia|split; [exact En|exact I]]]).
  all: split; [|left; cbn [handles]; rewrite len_unborrow; reflexivity].
  all: eapply kept_trans; [|apply kept_same; cbn [handles]; reflexivity]; (eapply kept_trans; [|apply kept_unborrow]); apply kept_same; reflexivity.
Qed.

Lemma kept_entry cf cf' (G : nat -> Prop) m : kept cf cf' G -> usable_now cf m -> entry cf' m = entry cf m.
Proof. intros K (h & E & _). destruct (K m h E) as (s & E' & _). unfold entry. rewrite E, E'. reflexivity. Qed.
Lemma kept_usable cf cf' (G : nat -> Prop) m : kept cf cf' G -> usable_now cf m -> ~ G m -> usable_now cf' m.
Proof. intros K (h & E & Hg) NG. destruct (K m h E) as (s & E' & _ & X). exists (Handle (hid h) (hval h) s). split; auto. cbn. intros Y. destruct (X Y); auto. Qed.
Lemma kept_back cf cf' (G : nat -> Prop) m : kept cf cf' G -> usable_now cf' m -> (m < length (handles cf))%nat -> usable_now cf m.
Proof.
  intros K (h & E & Hg) L. destruct (nth_error (handles cf) m) as [h0|] eqn:E0; [|apply nth_error_None in E0; lia].
  destruct (K m h0 E0) as (s & E' & X & _). exists h0. split; auto. intros Y. apply Hg. rewrite E in E'. injection E' as ->. cbn. auto.
Qed.

(** ** Lists of lists *)

Lemma split_at {A} (l : list A) t x : nth_error l t = Some x -> exists l1 l2, l = l1 ++ x :: l2 /\ length l1 = t /\ forall y, upd l t y = l1 ++ y :: l2.
Proof.
  revert t. induction l as [|a l IH]; intros [|t] E; cbn in E; try discriminate.
  - injection E as ->. exists [], l. auto.
  - destruct (IH t E) as (l1 & l2 & -> & L & U). exists (a :: l1), l2. cbn. rewrite L. repeat split; auto. intros y. rewrite U. auto.
Qed.
Lemma in_concat_at {A} (l : list (list A)) t ms m : nth_error l t = Some ms -> In m ms -> In m (concat l).
Proof. intros E I. apply in_concat. exists ms. split; auto. eapply nth_error_In; eauto. Qed.
Lemma nodup_app {A} (a b : list A) : NoDup (a ++ b) <-> NoDup a /\ NoDup b /\ forall x, In x a -> ~ In x b.
Proof.
  induction a as [|x a IH]; cbn; [split; [intros; repeat split; auto; constructor|tauto]|]. split.
  - intros H. inversion H as [|? ? N H']; subst. apply IH in H'. destruct H' as (A1 & A2 & A3). split; [constructor; auto; intros X; apply N, in_or_app; auto|].
    split; auto. intros y [<-|Hy]; auto. intros X. apply N, in_or_app. auto.
  - intros (H1 & H2 & H3). inversion H1 as [|? ? N H']; subst. constructor; [|apply IH; auto].
    intros X. apply in_app_or in X. destruct X as [X|X]; auto. apply (H3 x); auto.
Qed.
Lemma nodup_at {A} (l : list (list A)) : NoDup (concat l) -> forall t u ms mu m, nth_error l t = Some ms -> nth_error l u = Some mu -> In m ms -> In m mu -> t = u.
Proof.
  induction l as [|x l IH]; intros H [|t] [|u] ms mu m Et Eu I J; cbn in Et, Eu; try discriminate; auto; cbn in H; apply nodup_app in H; destruct H as (_ & H & D).
  - injection Et as ->. elim (D m I). eapply in_concat_at; eauto.
  - injection Eu as ->. elim (D m J). eapply in_concat_at; eauto.
  - f_equal. eauto.
Qed.
Lemma nodup_one {A} (l : list (list A)) t ms : NoDup (concat l) -> nth_error l t = Some ms -> NoDup ms.
Proof.
  intros H E. destruct (split_at _ _ _ E) as (l1 & l2 & -> & _). rewrite concat_app in H. cbn in H. apply nodup_app in H. destruct H as (_ & H & _).
  apply nodup_app in H. tauto.
Qed.
Lemma remove_perm (m : nat) ms : NoDup ms -> In m ms -> Permutation ms (m :: remove Nat.eq_dec m ms).
Proof.
  intros N I. apply NoDup_Permutation; auto.
  - constructor; [apply remove_In|]. clear I. induction N as [|a l H N IH]; cbn; [constructor|]. destruct (Nat.eq_dec m a); auto.
    constructor; auto. intros X. apply in_remove in X. tauto.
  - intros x. split.
    + intros X. destruct (Nat.eq_dec x m) as [->|Hn]; [left; auto|right; apply in_in_remove; auto].
    + intros [<-|X]; auto. apply in_remove in X. tauto.
Qed.

(** ** The invariant *)
Section Run.
Context (dbg : bool) (n : nat) (vs : list nat) (V : list (Z * list Z)) (L : nat) (Q : nat -> list (Z * list Z) -> Z -> Prop).
Context (HQ : forall t O O' a, Permutation O O' -> Q t O a -> Q t O' a).
Notation R := (run dbg n).

(** What is assumed of an execution. *)
Definition fine (acts : list (action (list Z))) : Prop :=
  counts_fit list_eqb dbg (start n) acts /\ writers_alone list_eqb dbg (start n) acts /\ Z.of_nat (length (store_of (R acts))) <= 2 ^ 57.

Lemma run_app a b : R (a ++ b) = iexec list_eqb dbg b (R a).
Proof. unfold run, iexec. apply fold_left_app. Qed.
Lemma fine_prefix a b : fine (a ++ b) -> fine a.
Proof.
  intros (H1 & H2 & H3). split; [|split].
  - intros a1 a2 k E. apply (H1 a1 (a2 ++ b)). rewrite E, app_assoc. reflexivity.
  - intros a1 a2 t E. apply (H2 a1 (a2 ++ b)). rewrite E, app_assoc. reflexivity.
  - rewrite run_app in H3. pose proof (exec_store list_eqb dbg b (R a)). lia.
Qed.

Lemma fine_inv acts : fine acts -> iinv full (R acts).
Proof.
  intros (H1 & _). destruct (run_inv list_eqb dbg n 0 acts H1) as [N HI]. apply (iinv_full N); [exact HI|].
  intros k. apply (H1 acts []). rewrite app_nil_r. reflexivity.
Qed.
Lemma full_small : Z.of_nat full < 2 ^ 64 - 1.
Proof. rewrite full_val. lia. Qed.
Lemma fine_handles acts m h : fine acts -> nth_error (handles (R acts)) m = Some h -> hst h <> Gone -> try_get (store_of (R acts)) (hid h) = Ok (Some (hval h)).
Proof. intros (H1 & H2 & _). apply (C62_overlapping_partial (list Z) list_eqb dbg n 0 acts); auto. intros p q. apply list_eqb_ok. Qed.
Lemma fine_reads acts m o : fine acts -> In (m, o) (ConcInternModel.reads (R acts)) -> exists h, nth_error (handles (R acts)) m = Some h /\ o = Some (hval h).
Proof. intros (H1 & H2 & _). apply (C62_overlapping_partial (list Z) list_eqb dbg n 0 acts); auto. intros p q. apply list_eqb_ok. Qed.
Lemma fine_id acts m h : fine acts -> nth_error (handles (R acts)) m = Some h -> 0 <= hid h <= max_offset.
Proof.
  intros F E. pose proof (fine_inv acts F) as HI. destruct F as (_ & _ & F). destruct (ij_handles _ _ HI _ _ E) as (Hk & x & Es & _). unfold slot_of in Es. rewrite (proj2 (Z.ltb_ge _ _)) in Es by lia.
  assert (Z.to_nat (hid h) < length (flat (store_of (R acts))))%nat as X by (apply nth_error_Some; congruence).
  rewrite length_flat in X by apply (ij_shape _ _ HI). rewrite max_offset_val. lia.
Qed.
Lemma fine_fn acts ms : fine acts -> (forall m, In m ms -> usable_now (R acts) m) -> fn (map (entry (R acts)) ms).
Proof.
  intros F H k l l' I I'. apply in_map_iff in I, I'. destruct I as (m & E & I), I' as (m' & E' & I').
  destruct (H m I) as (h & Eh & Hg), (H m' I') as (h' & Eh' & Hg'). unfold entry in E, E'. rewrite Eh in E. rewrite Eh' in E'.
  injection E as E1 E2. injection E' as E1' E2'. pose proof (fine_handles _ _ _ F Eh Hg) as T. pose proof (fine_handles _ _ _ F Eh' Hg') as T'. congruence.
Qed.

Definition pending {A} (cf : conf) (ms : list nat) (p : prog A) (q : ipc (list Z)) : Prop :=
  match p with
  | PStop _ => False
  | PAdd l _ => call_of q = Some (CAdd l)
  | PGet k _ => exists m, call_of q = Some (CGet m) /\ In m (vs ++ ms) /\ fst (entry cf m) = k
  | PIncr k _ => exists m, call_of q = Some (CIncr m) /\ In m (vs ++ ms) /\ fst (entry cf m) = k
  | PDecr k _ => exists m, call_of q = Some (CDecr m) /\ In m ms /\ fst (entry cf m) = k
  end.

Record binv (bc : bconf) : Prop := {
  b_len : length (bprogs bc) = length (bowned bc);
  b_prog : forall t p ms, nth_error (bprogs bc) t = Some p -> nth_error (bowned bc) t = Some ms -> wp true V (map (entry (R (bdone bc))) ms) p (Q t);
  b_vars : map (entry (R (bdone bc))) vs = V;
  b_pend : forall t q, nth_error (ithreads (R (bdone bc))) t = Some (Some q) ->
    exists p ms, nth_error (bprogs bc) t = Some p /\ nth_error (bowned bc) t = Some ms /\ pending (R (bdone bc)) ms p q;
  b_live : forall m, In m vs \/ In m (concat (bowned bc)) -> usable_now (R (bdone bc)) m;
  b_once : NoDup (concat (bowned bc));
  b_apart : forall m, In m vs -> ~ In m (concat (bowned bc));
  b_left : forall m, usable_now (R (bdone bc)) m -> (m < L)%nat \/ In m (concat (bowned bc)) }.

Lemma pending_kept {A} cf cf' G ms (p : prog A) q : kept cf cf' G -> (forall m, In m (vs ++ ms) -> usable_now cf m) -> pending cf ms p q -> pending cf' ms p q.
Proof.
  intros K U. destruct p; cbn [pending]; auto; intros (m & E & I & F); exists m; (split; [exact E|]); (split; [exact I|]); rewrite (kept_entry _ _ _ _ K); auto.
  apply U, in_or_app. auto.
Qed.

Lemma binv_update bc t p ms a p' ms' (G : nat -> Prop) : binv bc -> fine (bdone bc) ->
  nth_error (bprogs bc) t = Some p -> nth_error (bowned bc) t = Some ms ->
  let cf := R (bdone bc) in let cf' := R (bdone bc ++ [a]) in
  kept cf cf' G -> (forall m, G m -> In m ms /\ ~ In m ms') ->
  (forall m, In m ms' -> In m ms \/ (length (handles cf) <= m)%nat /\ usable_now cf' m) ->
  (forall m, In m ms -> In m ms' \/ ~ usable_now cf' m) -> NoDup ms' ->
  (forall m, usable_now cf' m -> (length (handles cf) <= m)%nat -> In m ms') ->
  (forall u q, u <> t -> nth_error (ithreads cf') u = Some (Some q) -> nth_error (ithreads cf) u = Some (Some q)) ->
  (forall q, nth_error (ithreads cf') t = Some (Some q) -> pending cf' ms' p' q) ->
  wp true V (map (entry cf') ms') p' (Q t) ->
  binv (BConf (bdone bc ++ [a]) (upd (bprogs bc) t p') (upd (bowned bc) t ms')).
Proof.
  intros HB HF Ep Em cf cf' K HG Hin Hout Hnd Hnew Hoth Hown Hwp. pose proof HB as [B1 B2 B3 B4 B5 B6 B7 B8]. fold cf in B2, B3, B4, B5, B8.
  destruct (split_at _ _ _ Em) as (o1 & o2 & Eo & Lo & Uo).
  assert (forall m, In m (concat (upd (bowned bc) t ms')) <-> In m ms' \/ In m (concat o1) \/ In m (concat o2)) as IN.
  { intros m. rewrite Uo, concat_app. cbn [concat]. rewrite !in_app_iff. tauto. }
  assert (forall m, In m (concat (bowned bc)) <-> In m ms \/ In m (concat o1) \/ In m (concat o2)) as IN0.
  { intros m. rewrite Eo, concat_app. cbn [concat]. rewrite !in_app_iff. tauto. }
  assert (forall m, usable_now cf m -> (m < length (handles cf))%nat) as LT. { intros m (h & E & _). apply nth_error_Some. congruence. }
  assert (forall m, In m ms -> ~ In m (concat o1) /\ ~ In m (concat o2)) as DJ.
  { rewrite Eo, concat_app in B6. cbn [concat] in B6. apply nodup_app in B6. destruct B6 as (N1 & N2 & N3). apply nodup_app in N2. destruct N2 as (N4 & N5 & N6).
    intros m I. split; [|auto]. intros X. apply (N3 m X), in_or_app. auto. }
  constructor; cbn [bdone bprogs bowned]; fold cf'.
  - rewrite !len_upd. exact B1.
  - intros u p0 ms0 E1 E2. apply nth_upd_cases in E1, E2. destruct E1 as [[-> ->]|[N1 E1]], E2 as [[? E2]|[N2 E2]]; try contradiction; [subst; exact Hwp|].
    replace (map (entry cf') ms0) with (map (entry cf) ms0); [apply (B2 u); auto|]. apply map_ext_in. intros m I. symmetry. apply (kept_entry _ _ _ _ K), B5. right. eapply in_concat_at; eauto.
  - rewrite <- B3. apply map_ext_in. intros m I. apply (kept_entry _ _ _ _ K), B5. auto.
  - intros u q E. destruct (Nat.eq_dec u t) as [->|Hn].
    + exists p', ms'. split; [eapply nth_upd_same; eauto|]. split; [eapply nth_upd_same; eauto|]. apply Hown. exact E.
    + destruct (B4 u q (Hoth u q Hn E)) as (p0 & ms0 & E1 & E2 & P). exists p0, ms0. rewrite !nth_upd_other by auto. split; auto. split; auto.
      eapply pending_kept; [exact K| |exact P]. intros m I. apply B5. apply in_app_or in I. destruct I as [I|I]; auto. right. eapply in_concat_at; eauto.
  - assert (forall m, In m vs \/ In m (concat (bowned bc)) -> ~ G m -> usable_now cf' m) as X. { intros m I NG. eapply kept_usable; eauto. }
    intros m [I|I].
    + apply X; auto. intros g. apply HG in g. apply (B7 m I), IN0. tauto.
    + apply IN in I. destruct I as [I|I].
      * destruct (Hin m I) as [J|[_ J]]; auto. apply X; [right; apply IN0; auto|]. intros g. apply HG in g. tauto.
      * apply X; [right; apply IN0; auto|]. intros g. apply HG in g. destruct (DJ m (proj1 g)). tauto.
  - rewrite Uo, concat_app. cbn [concat]. rewrite Eo, concat_app in B6. cbn [concat] in B6. apply nodup_app in B6. destruct B6 as (N1 & N2 & N3).
    apply nodup_app in N2. destruct N2 as (N4 & N5 & N6).
    assert (forall m, In m ms' -> ~ In m (concat o1) /\ ~ In m (concat o2)) as DJ'.
    { intros m I. destruct (Hin m I) as [J|[J _]]; auto.
      assert (~ In m (concat (bowned bc))) as X. { intros X. specialize (LT m (B5 m (or_intror X))). lia. } rewrite IN0 in X. tauto. }
    apply nodup_app. split; auto. split; [apply nodup_app; split; auto; split; auto; intros x I; apply (DJ' x I)|].
    intros x I J. apply in_app_or in J. destruct J as [J|J]; [exact (proj1 (DJ' x J) I)|]. apply (N3 x I), in_or_app. auto.
  - intros m I J. apply IN in J. destruct J as [J|J].
    + destruct (Hin m J) as [X|[X _]]; [apply (B7 m I), IN0; auto|]. specialize (LT m (B5 m (or_introl I))). lia.
    + apply (B7 m I), IN0. auto.
  - intros m U. destruct (Nat.lt_ge_cases m (length (handles cf))) as [Lt|Ge]; [|right; apply IN; left; auto].
    destruct (B8 m (kept_back _ _ _ _ K U Lt)) as [X|X]; auto. right. apply IN. apply IN0 in X. destruct X as [X|X]; auto. destruct (Hout m X); auto. contradiction.
Qed.
Lemma step_go acts t q : nth_error (ithreads (R acts)) t = Some (Some q) -> R (acts ++ [Go t]) = istep list_eqb dbg (R acts) t q.
Proof. intros E. rewrite run_app. cbn [iexec fold_left iconf_step]. rewrite E. reflexivity. Qed.
Lemma step_begin acts t c : nth_error (ithreads (R acts)) t = Some None -> R (acts ++ [Begin t c]) = begin_call (R acts) t c.
Proof. intros E. rewrite run_app. cbn [iexec fold_left iconf_step]. rewrite E. reflexivity. Qed.
Lemma begin_pc (cf : conf) t c q : nth_error (ithreads cf) t = Some None -> nth_error (ithreads (begin_call cf t c)) t = Some (Some q) -> call_of q = Some c.
Proof.
  intros E. destruct c as [v|m|m|m]; cbn [begin_call].
  - cbn [set_thread ithreads]. rewrite (nth_upd_same _ _ _ _ E). intros [= <-]. reflexivity.
  - destruct (nth_error (handles cf) m) as [[k v [b| |]]|]; try congruence. cbn [set_thread ithreads]. rewrite set_handle_threads, (nth_upd_same _ _ _ _ E). intros [= <-]. reflexivity.
  - destruct (nth_error (handles cf) m) as [[k v [[|b]| |]]|]; try congruence. cbn [set_thread ithreads]. rewrite set_handle_threads, (nth_upd_same _ _ _ _ E). intros [= <-]. reflexivity.
  - destruct (nth_error (handles cf) m) as [[k v [b| |]]|]; try congruence. cbn [set_thread ithreads]. rewrite set_handle_threads, (nth_upd_same _ _ _ _ E). intros [= <-]. reflexivity.
Qed.
Lemma upd_id {A} (l : list A) t x : nth_error l t = Some x -> upd l t x = l.
Proof. intros E. destruct (split_at _ _ _ E) as (l1 & l2 & Hl & _ & U). rewrite U. auto. Qed.
Lemma usable_spec cf ms m k : usable cf ms m k = true -> In m ms /\ exists h, nth_error (handles cf) m = Some h /\ hid h = k.
Proof.
  unfold usable. intros H. apply andb_true_iff in H. destruct H as [H1 H2]. apply existsb_exists in H1. destruct H1 as (m' & I & E). apply Nat.eqb_eq in E. subst m'.
  split; auto. destruct (nth_error (handles cf) m) as [h|]; [|discriminate]. exists h. split; auto. apply Z.eqb_eq. auto.
Qed.
Lemma next_pending {A} cf ms (p : prog A) m c : next_call cf vs ms p m = Some c -> forall cf' G, kept cf cf' G -> (forall x, In x (vs ++ ms) -> usable_now cf x) ->
  forall q, call_of q = Some c -> pending cf' ms p q.
Proof.
  intros H cf' G K U q Eq. assert (forall x h k, In x (vs ++ ms) -> nth_error (handles cf) x = Some h -> hid h = k -> fst (entry cf' x) = k) as X.
  { intros x h k I E Ek. rewrite (kept_entry _ _ _ _ K) by auto. unfold entry. rewrite E. exact Ek. }
  destruct p as [r|k f|l f|k p|k p]; cbn [next_call pending] in *; try discriminate.
  - destruct (usable cf (vs ++ ms) m k) eqn:E; [|discriminate]. injection H as <-. apply usable_spec in E. destruct E as (I & h & E & Ek). eauto 6.
  - injection H as <-. exact Eq.
  - destruct (usable cf (vs ++ ms) m k) eqn:E; [|discriminate]. injection H as <-. apply usable_spec in E. destruct E as (I & h & E & Ek). eauto 6.
  - destruct (usable cf ms m k) eqn:E; [|discriminate]. injection H as <-. apply usable_spec in E. destruct E as (I & h & E & Ek). exists m. split; auto. split; auto.
    apply (X m h); auto. apply in_or_app. auto.
Qed.
Lemma b_usable bc t ms : binv bc -> nth_error (bowned bc) t = Some ms -> forall m, In m (vs ++ ms) -> usable_now (R (bdone bc)) m.
Proof. intros HB E m I. apply (b_live _ HB). apply in_app_or in I. destruct I; auto. right. eapply in_concat_at; eauto. Qed.
Lemma last_snoc {A} (l : list A) x d : last (l ++ [x]) d = x.
Proof. apply last_last. Qed.

Lemma binv_step bc a : binv bc -> fine (bdone (bstep dbg n vs bc a)) -> binv (bstep dbg n vs bc a).
Proof.
  intros HB. destruct a as [t m]. unfold bstep.
  destruct (nth_error (ithreads (R (bdone bc))) t) as [[q|]|] eqn:Et; auto.
  - (* inside a call *)
    destruct (nth_error (bprogs bc) t) as [p|] eqn:Ep; auto. destruct (nth_error (bowned bc) t) as [ms|] eqn:Em; auto.
    intros HF. assert (fine (bdone bc ++ [Go t])) as HF'.
    { destruct (nth_error (ithreads (R (bdone bc ++ [Go t]))) t) as [[?|]|]; auto. destruct (resume _ _ _ _ _). auto. }
    clear HF. pose proof (fine_prefix _ _ HF') as HF. pose proof (fine_inv _ HF) as HI. pose proof (b_usable _ _ _ HB Em) as HU.
    destruct (b_pend _ HB _ _ Et) as (p0 & ms0 & Ep0 & Em0 & HP). assert (p0 = p) by congruence. assert (ms0 = ms) by congruence. subst p0 ms0.
    pose proof (step_go _ _ _ Et) as Es. destruct (go_kept dbg _ _ _ _ HI Et) as [K Lh]. rewrite <- Es in K, Lh.
    assert (forall u q, u <> t -> nth_error (ithreads (R (bdone bc ++ [Go t]))) u = Some (Some q) -> nth_error (ithreads (R (bdone bc))) u = Some (Some q)) as Hoth.
    { intros u q' Hn. rewrite Es. destruct (step_threads list_eqb dbg (R (bdone bc)) t q) as [->|[q2 ->]]; auto. rewrite nth_upd_other by auto. auto. }
    destruct (own_step list_eqb dbg _ _ _ _ _ HI full_small Et (le_n _)) as [(E' & c & Ec & Hr)|(q' & E' & Lt & Ec)].
    + (* the call returns *)
      rewrite <- Es in E', Hr. rewrite E'. set (cf := R (bdone bc)) in *. set (cf' := R (bdone bc ++ [Go t])) in *. cbn zeta.
      pose proof (b_prog _ HB _ _ _ Ep Em) as W. fold cf in W.
      assert (fn (V ++ map (entry cf) ms)) as FN.
      { rewrite <- (b_vars _ HB), <- map_app. apply fine_fn; auto. }
      assert (forall x l, In x (vs ++ ms) -> In (fst (entry cf x), l) (V ++ map (entry cf) ms) -> entry cf x = (fst (entry cf x), l)) as ENT.
      { intros x l I J. destruct (entry cf x) as [k l'] eqn:Ex. cbn [fst] in *. f_equal. apply (FN k); auto.
        rewrite <- (b_vars _ HB), <- map_app. fold cf. rewrite <- Ex. apply in_map. auto. }
      assert (map (entry cf') ms = map (entry cf) ms) as ME.
      { apply map_ext_in. intros x I. apply (kept_entry _ _ _ _ K), HU, in_or_app. auto. }
      assert (forall x, usable_now cf' x -> (x < length (handles cf'))%nat) as LT'. { intros x (h & E & _). apply nth_error_Some. congruence. }
      assert (forall x, usable_now cf x -> (x < length (handles cf))%nat) as LT. { intros x (h & E & _). apply nth_error_Some. congruence. }
      pose proof (nodup_one _ _ _ (b_once _ HB) Em) as ND.
      assert (~ In (length (handles cf)) ms) as Hfresh. { intros X. specialize (LT _ (HU _ (in_or_app vs ms _ (or_intror X)))). lia. }
      destruct p as [r|k f|l f|k p|k p]; cbn [pending resume wp] in *; [contradiction|..].
      * (* get *)
        destruct HP as (x & Eq & I & Ek). rewrite Ec in Eq. injection Eq as ->. destruct Hr as (v & Er). rewrite Er, last_snoc.
        destruct W as (l & J & W). rewrite <- Ek in J. pose proof (ENT x l I J) as En.
        assert (v = l) as ->.
        { destruct (fine_reads _ x (Some v) HF') as (h & Eh & Ev); [fold cf'; rewrite Er; apply in_or_app; right; left; reflexivity|]. injection Ev as ->.
          rewrite <- (kept_entry _ _ _ _ K (HU x I)) in En. unfold entry in En. fold cf' in Eh. rewrite Eh in En. congruence. }
        eapply binv_update with (p := PGet k f) (ms := ms); eauto; fold cf cf'.
        -- intros x0 g. congruence.
        -- intros x0 U Ge. specialize (LT' x0 U). destruct Lh as [Lh|(_ & _ & Lh)]; [lia|]. rewrite Ec in Lh. contradiction.
        -- intros q2 E2. congruence.
        -- rewrite ME. exact W.
      * (* add *)
        rewrite Ec in HP. injection HP as ->. destruct Hr as (k & Eh). assert (nth_error (handles cf') (length (handles cf)) = Some (Handle k l (Held 0))) as En.
        { rewrite Eh, nth_error_app2, Nat.sub_diag by lia. reflexivity. }
        rewrite En. assert (usable_now cf' (length (handles cf))) as UN. { exists (Handle k l (Held 0)). split; auto. discriminate. }
        assert (entry cf' (length (handles cf)) = (k, l)) as EE. { unfold entry. rewrite En. reflexivity. }
        assert (forall x, In x ms -> usable_now cf' x) as UM. { intros x I. eapply kept_usable; [exact K| |congruence]. apply HU, in_or_app. auto. }
        eapply binv_update with (p := PAdd l f) (ms := ms); eauto; fold cf cf'.
        -- intros x g. congruence.
        -- intros x [<-|I]; [right; split; [lia|exact UN]|auto].
        -- intros x I. left. right. exact I.
        -- constructor; auto.
        -- intros x U Ge. specialize (LT' x U). rewrite Eh, app_length in LT'. cbn in LT'. left. lia.
        -- intros q2 E2. congruence.
        -- cbn [map]. rewrite EE, ME. cbn [hid]. apply W; [apply (fine_id _ _ _ HF' En)|].
           rewrite <- (b_vars _ HB). replace (map (entry (R (bdone bc))) vs) with (map (entry cf') vs).
           ++ rewrite <- EE, <- ME. change (entry cf' (length (handles cf)) :: map (entry cf') ms) with (map (entry cf') (length (handles cf) :: ms)). rewrite <- map_app.
              apply fine_fn; auto. intros x I. apply in_app_or in I. destruct I as [I|[<-|I]]; auto. eapply kept_usable; [exact K| |congruence]. apply HU, in_or_app. auto.
           ++ apply map_ext_in. intros x I. apply (kept_entry _ _ _ _ K), HU, in_or_app. auto.
      * (* incr *)
        destruct HP as (x & Eq & I & Ek). rewrite Ec in Eq. injection Eq as ->. destruct Hr as (h & E1 & E2 & E3).
        destruct W as (l & J & W). rewrite <- Ek in J. pose proof (ENT x l I J) as En. rewrite Ek in En. unfold entry in En. rewrite E1 in En. injection En as En1 En2.
        assert (usable_now cf' (length (handles cf))) as UN. { eexists. split; [exact E3|]. discriminate. }
        assert (entry cf' (length (handles cf)) = (k, l)) as EE. { unfold entry. rewrite E3. cbn [hid hval]. congruence. }
        eapply binv_update with (p := PIncr k p) (ms := ms); eauto; fold cf cf'.
        -- intros y g. congruence.
        -- intros y [<-|Iy]; [right; split; [lia|exact UN]|auto].
        -- intros y Iy. left. right. exact Iy.
        -- constructor; auto.
        -- intros y U Ge. specialize (LT' y U). left. lia.
        -- intros q2 Eq2. congruence.
        -- cbn [map]. rewrite EE, ME. exact W.
      * (* decr *)
        destruct HP as (x & Eq & I & Ek). rewrite Ec in Eq. injection Eq as ->. destruct Hr as (h & E1 & E2 & E3).
        assert (exists k', q = Decr x k') as (k' & ->). { destruct q; cbn in Ec; try discriminate. injection Ec as ->. eauto. } cbn iota.
        destruct W as (l & O1 & O2 & EO & W).
        assert (entry cf x = (k, l)) as EE.
        { rewrite <- Ek. apply ENT; [apply in_or_app; auto|]. apply in_or_app. right. rewrite EO, Ek. apply in_elt. }
        eapply binv_update with (p := PDecr k p) (ms := ms); eauto; fold cf cf'.
        -- intros y g. cbn in g. injection g as <-. split; auto. apply remove_In.
        -- intros y Iy. apply in_remove in Iy. tauto.
        -- intros y Iy. destruct (Nat.eq_dec y x) as [->|Hn]; [|left; apply in_in_remove; auto]. right. intros (h' & Eh & Hg). apply Hg.
           rewrite E3, (nth_upd_same _ _ _ _ E1) in Eh. injection Eh as <-. reflexivity.
        -- pose proof (remove_perm x ms ND I) as P. apply (Permutation_NoDup P) in ND. inversion ND; auto.
        -- intros y U Ge. specialize (LT' y U). rewrite E3, len_upd in LT'. lia.
        -- intros q2 Eq2. congruence.
        -- replace (map (entry cf') (remove Nat.eq_dec x ms)) with (map (entry cf) (remove Nat.eq_dec x ms)).
           ++ eapply wp_perm; [apply HQ| |exact W]. apply (Permutation_cons_inv (a := (k, l))).
              rewrite <- EE at 2. change (entry cf x :: map (entry cf) (remove Nat.eq_dec x ms)) with (map (entry cf) (x :: remove Nat.eq_dec x ms)).
              rewrite <- (Permutation_map (entry cf) (remove_perm x ms ND I)), EO. apply Permutation_middle.
           ++ apply map_ext_in. intros y Iy. symmetry. apply (kept_entry _ _ _ _ K), HU, in_or_app. right. apply in_remove in Iy. tauto.
    + (* the call goes on *)
      rewrite <- Es in E'. rewrite E'. rewrite <- (upd_id _ _ _ Ep), <- (upd_id _ _ _ Em).
      assert (forall x, call_of q <> Some (CDecr x)) as ND.
      { intros x Eq. assert (exists k, q = Decr x k) as (k & ->) by (destruct q; cbn in Eq; try discriminate; injection Eq as ->; eauto).
        destruct q'; cbn in Ec; try discriminate. cbn [remaining] in Lt. lia. }
      eapply binv_update with (p := p) (ms := ms); eauto.
      * intros x g. elim (ND x g).
      * eapply nodup_one; [apply (b_once _ HB)|exact Em].
      * intros x (h & E & _) Ge. assert (x < length (handles (R (bdone bc ++ [Go t]))))%nat by (apply nth_error_Some; congruence). destruct Lh as [Lh|(_ & Lh & _)]; [lia|congruence].
      * intros q2 Eq2. assert (q2 = q') by congruence. subst q2. eapply (pending_kept _ _ _ _ _ q'); [exact K|exact HU|].
        revert HP. destruct p; cbn [pending]; rewrite ?Ec; auto.
      * replace (map (entry (R (bdone bc ++ [Go t]))) ms) with (map (entry (R (bdone bc))) ms); [apply (b_prog _ HB); auto|].
        apply map_ext_in. intros x I. symmetry. apply (kept_entry _ _ _ _ K), HU, in_or_app. auto.
  - (* between calls *)
    destruct (nth_error (bprogs bc) t) as [p|] eqn:Ep; auto. destruct (nth_error (bowned bc) t) as [ms|] eqn:Em; auto.
    destruct (next_call (R (bdone bc)) vs ms p m) as [c|] eqn:Ec; auto. cbn [bdone]. intros HF'. pose proof (fine_prefix _ _ HF') as HF. pose proof (b_usable _ _ _ HB Em) as HU.
    pose proof (step_begin _ _ c Et) as Es. destruct (begin_kept (R (bdone bc)) t c (fun _ => False)) as [K Lh]. rewrite <- Es in K, Lh.
    rewrite <- (upd_id _ _ _ Ep), <- (upd_id _ _ _ Em). eapply binv_update with (p := p) (ms := ms); eauto.
    * intros x [].
    * eapply nodup_one; [apply (b_once _ HB)|exact Em].
    * intros x (h & E & _) Ge. assert (x < length (handles (R (bdone bc ++ [Begin t c]))))%nat by (apply nth_error_Some; congruence). lia.
    * intros u q' Hn. rewrite Es. destruct (begin_threads (R (bdone bc)) t c) as [->|[q2 ->]]; auto. rewrite nth_upd_other by auto. auto.
    * intros q Eq. eapply next_pending; eauto. rewrite Es in Eq. eapply begin_pc; eauto.
    * replace (map (entry (R (bdone bc ++ [Begin t c]))) ms) with (map (entry (R (bdone bc))) ms); [apply (b_prog _ HB); auto|].
      apply map_ext_in. intros x I. symmetry. apply (kept_entry _ _ _ _ K), HU, in_or_app. auto.
Qed.
Lemma bstep_done bc a : exists l, bdone (bstep dbg n vs bc a) = bdone bc ++ l.
Proof.
  destruct a as [t m]. unfold bstep. destruct (nth_error (ithreads (R (bdone bc))) t) as [[q|]|]; [..|exists []; rewrite app_nil_r; auto];
    (destruct (nth_error (bprogs bc) t) as [p|]; [|exists []; rewrite app_nil_r; auto]);
    (destruct (nth_error (bowned bc) t) as [ms|]; [|exists []; rewrite app_nil_r; auto]).
  - destruct (nth_error (ithreads (R (bdone bc ++ [Go t]))) t) as [[?|]|]; [eexists; reflexivity| |eexists; reflexivity]. destruct (resume _ _ _ _ _). eexists. reflexivity.
  - destruct (next_call _ _ _ _ _); [eexists; reflexivity|exists []; rewrite app_nil_r; auto].
Qed.
Lemma bexec_done sched : forall bc, exists l, bdone (bexec dbg n vs sched bc) = bdone bc ++ l.
Proof.
  induction sched as [|a s IH]; intros bc; [exists []; rewrite app_nil_r; auto|]. destruct (bstep_done bc a) as (l & E). destruct (IH (bstep dbg n vs bc a)) as (l' & E').
  exists (l ++ l'). cbn [bexec fold_left]. fold (bexec dbg n vs s (bstep dbg n vs bc a)). rewrite E', E, app_assoc. reflexivity.
Qed.
Lemma binv_exec sched : forall bc, binv bc -> fine (bdone (bexec dbg n vs sched bc)) -> binv (bexec dbg n vs sched bc).
Proof.
  induction sched as [|a s IH]; intros bc HB HF; [exact HB|]. cbn [bexec fold_left] in *. fold (bexec dbg n vs s (bstep dbg n vs bc a)) in *.
  apply IH; auto. apply binv_step; auto. destruct (bexec_done s (bstep dbg n vs bc a)) as (l & E). rewrite E in HF. eapply fine_prefix; eauto.
Qed.

(** ** Progress *)

Lemma cnt_exists {B} (f : B -> bool) l : (0 < cnt f l)%nat -> exists t y, nth_error l t = Some y /\ f y = true.
Proof.
  unfold cnt. intros H. destruct (filter f l) as [|y r] eqn:E; [cbn in H; lia|]. assert (In y (filter f l)) as I by (rewrite E; left; auto).
  apply filter_In in I. destruct I as [I F]. apply In_nth_error in I. destruct I as [t I]. eauto.
Qed.

(** A thread that is between calls can make its next call. *)
Lemma begins bc t p ms m c : binv bc -> fine (bdone bc) -> nth_error (ithreads (R (bdone bc))) t = Some None -> nth_error (bprogs bc) t = Some p ->
  nth_error (bowned bc) t = Some ms -> next_call (R (bdone bc)) vs ms p m = Some c ->
  exists q, nth_error (ithreads (begin_call (R (bdone bc)) t c)) t = Some (Some q).
Proof.
  intros HB HF Et Ep Em Ec. pose proof (fine_inv _ HF) as HI. pose proof (b_usable _ _ _ HB Em) as HU. set (cf := R (bdone bc)) in *.
  assert (forall x u mu, nth_error (bowned bc) u = Some mu -> In x mu -> In x (vs ++ ms) -> u = t) as SAME.
  { intros x u mu Eu I J. apply in_app_or in J. destruct J as [J|J]; [elim (b_apart _ HB x J); eapply in_concat_at; eauto|]. eapply nodup_at; eauto. apply (b_once _ HB). }
  assert (forall x, In x (vs ++ ms) -> exists k v b, nth_error (handles cf) x = Some (Handle k v (Held b))) as NL.
  { intros x I. destruct (HU x I) as ([k v [b| |]] & E & Hg); eauto; [|elim Hg; reflexivity]. exfalso. pose proof (ij_bor _ _ HI x) as B. rewrite E in B. cbn in B.
    destruct (cnt_exists (lev x) (ithreads cf)) as (u & y & Eu & Y); [lia|]. destruct y as [q|]; [|discriminate]. destruct q; try discriminate. cbn in Y. apply Nat.eqb_eq in Y. subst n0.
    destruct (b_pend _ HB _ _ Eu) as (p0 & mu & E1 & E2 & P).
    assert (In x mu) as J. { destruct p0; cbn [pending call_of] in P; try contradiction; try discriminate P; destruct P as (y & Ey & J & _); try discriminate Ey. injection Ey as <-. exact J. }
    assert (u = t) by eauto. subst u. congruence. }
  destruct p as [r|k f|l f|k p|k p]; cbn [next_call] in Ec; try discriminate.
  - destruct (usable cf (vs ++ ms) m k) eqn:Eu; [|discriminate]. injection Ec as <-. apply usable_spec in Eu. destruct Eu as (I & _). destruct (NL m I) as (k' & v & b & E).
    cbn [begin_call]. rewrite E. cbn [set_thread ithreads]. rewrite set_handle_threads, (nth_upd_same _ _ _ _ Et). eauto.
  - injection Ec as <-. cbn [begin_call set_thread ithreads]. rewrite (nth_upd_same _ _ _ _ Et). eauto.
  - destruct (usable cf (vs ++ ms) m k) eqn:Eu; [|discriminate]. injection Ec as <-. apply usable_spec in Eu. destruct Eu as (I & _). destruct (NL m I) as (k' & v & b & E).
    cbn [begin_call]. rewrite E. cbn [set_thread ithreads]. rewrite set_handle_threads, (nth_upd_same _ _ _ _ Et). eauto.
  - destruct (usable cf ms m k) eqn:Eu; [|discriminate]. injection Ec as <-. apply usable_spec in Eu. destruct Eu as (I & _). destruct (NL m) as (k' & v & b & E); [apply in_or_app; auto|].
    assert (b = O) as ->.
    { destruct b as [|b]; auto. exfalso. pose proof (ij_bor _ _ HI m) as B. rewrite E in B. cbn in B.
      destruct (cnt_exists (bor m) (ithreads cf)) as (u & y & Eu & Y); [lia|]. destruct y as [q|]; [|discriminate].
      destruct (b_pend _ HB _ _ Eu) as (p0 & mu & E1 & E2 & P).
      assert (In m (vs ++ mu)) as J.
      { destruct q; try discriminate; cbn in Y; apply Nat.eqb_eq in Y; subst n0; destruct p0; cbn [pending call_of] in P; try contradiction; try discriminate P;
          destruct P as (y & Ey & J & _); try discriminate Ey; injection Ey as <-; exact J. }
      apply in_app_or in J. destruct J as [J|J]; [exact (b_apart _ HB m J (in_concat_at _ _ _ _ Em I))|].
      assert (u = t) by (apply (SAME m u mu); auto; apply in_or_app; auto). subst u. congruence. }
    cbn [begin_call]. rewrite E. cbn [set_thread ithreads]. rewrite set_handle_threads, (nth_upd_same _ _ _ _ Et). eauto.
Qed.

(** It has a handle to make it through. *)
Lemma has_call bc t p ms : binv bc -> nth_error (bprogs bc) t = Some p -> nth_error (bowned bc) t = Some ms -> (forall r, p <> PStop r) ->
  exists m c, next_call (R (bdone bc)) vs ms p m = Some c.
Proof.
  intros HB Ep Em NS. pose proof (b_prog _ HB _ _ _ Ep Em) as W. pose proof (b_usable _ _ _ HB Em) as HU. set (cf := R (bdone bc)) in *.
  assert (forall xs k l, (forall x, In x xs -> usable_now cf x) -> In (k, l) (map (entry cf) xs) -> exists m, usable cf xs m k = true) as X.
  { intros xs k l U I. apply in_map_iff in I. destruct I as (m & E & I). exists m. unfold usable. apply andb_true_iff. split; [apply existsb_exists; exists m; split; auto; apply Nat.eqb_refl|].
    destruct (U m I) as (h & Eh & _). unfold entry in E. rewrite Eh in *. apply Z.eqb_eq. congruence. }
  destruct p as [r|k f|l f|k p|k p]; cbn [wp next_call] in *; [elim (NS r); auto| | | |].
  - destruct W as (l & I & _). rewrite <- (b_vars _ HB), <- map_app in I. destruct (X _ _ _ HU I) as (m & E). exists m. rewrite E. eauto.
  - exists O. eauto.
  - destruct W as (l & I & _). rewrite <- (b_vars _ HB), <- map_app in I. destruct (X _ _ _ HU I) as (m & E). exists m. rewrite E. eauto.
  - destruct W as (l & O1 & O2 & E & _). destruct (X ms k l) as (m & Em'); [intros x I; apply HU, in_or_app; auto|rewrite E; apply in_elt|]. exists m. rewrite Em'. eauto.
Qed.

Lemma run_len acts : length (ithreads (R acts)) = n.
Proof.
  unfold run, iexec. rewrite <- (fold_left_rev_right). induction (rev acts) as [|a l IH]; cbn [fold_right]; [unfold start, iinitial; cbn; apply repeat_length|].
  destruct a as [u c|u]; cbn [iconf_step]; destruct (nth_error (ithreads _) u) as [[q|]|]; auto.
  - destruct (begin_threads (fold_right (fun y x => step dbg x y) (start n) l) u c) as [->|[q ->]]; rewrite ?len_upd; auto.
  - destruct (step_threads list_eqb dbg (fold_right (fun y x => step dbg x y) (start n) l) u q) as [->|[q' ->]]; rewrite ?len_upd; auto.
Qed.
Lemma can_step bc t p : binv bc -> fine (bdone bc) -> (t < n)%nat -> nth_error (bprogs bc) t = Some p -> (forall r, p <> PStop r) ->
  exists m, bdone (bstep dbg n vs bc (t, m)) <> bdone bc.
Proof.
  intros HB HF Ht Ep NS. pose proof (fine_inv _ HF) as HI.
  assert (exists ms, nth_error (bowned bc) t = Some ms) as (ms & Em).
  { destruct (nth_error (bowned bc) t) eqn:E; eauto. apply nth_error_None in E. assert (t < length (bprogs bc))%nat by (apply nth_error_Some; congruence). rewrite (b_len _ HB) in *. lia. }
  assert (forall (l : list (action (list Z))) x, l ++ [x] <> l) as NE. { intros l x E. apply (f_equal (@length _)) in E. rewrite app_length in E. cbn in E. lia. }
  destruct (nth_error (ithreads (R (bdone bc))) t) as [[q|]|] eqn:Et.
  - exists O. unfold bstep. rewrite Et, Ep, Em. destruct (nth_error (ithreads (R (bdone bc ++ [Go t]))) t) as [[?|]|]; cbn [bdone]; auto. destruct (resume _ _ _ _ _). cbn [bdone]. auto.
  - destruct (has_call bc t p ms HB Ep Em NS) as (m & c & Ec). exists m. unfold bstep. rewrite Et, Ep, Em, Ec. cbn [bdone]. auto.
  - exfalso. apply nth_error_None in Et. rewrite run_len in Et. lia.
Qed.
(** ** A thread that keeps taking steps finishes *)

(** The first [k] steps of an endless schedule. *)
Definition after (f : nat -> nat * nat) (bc : bconf) (k : nat) : bconf := bexec dbg n vs (map f (seq 0 k)) bc.
Definition takes_step (f : nat -> nat * nat) (bc : bconf) (t k : nat) : Prop := fst (f k) = t /\ bdone (after f bc (S k)) <> bdone (after f bc k).
Definition finished (bc : bconf) (t : nat) : Prop := exists r, nth_error (bprogs bc) t = Some (PStop r).

Lemma after_S f bc k : after f bc (S k) = bstep dbg n vs (after f bc k) (f k).
Proof. unfold after. rewrite seq_S, map_app. unfold bexec. rewrite fold_left_app. reflexivity. Qed.

Definition view (bc : bconf) (t : nat) := (nth_error (bprogs bc) t, nth_error (ithreads (R (bdone bc))) t).

Lemma no_step bc a : bdone (bstep dbg n vs bc a) = bdone bc -> bstep dbg n vs bc a = bc.
Proof.
  assert (forall (l : list (action (list Z))) x, l ++ [x] <> l) as NE. { intros l x E. apply (f_equal (@length _)) in E. rewrite app_length in E. cbn in E. lia. }
  destruct a as [t m]. unfold bstep. destruct (nth_error (ithreads (R (bdone bc))) t) as [[q|]|]; auto; destruct (nth_error (bprogs bc) t); auto; destruct (nth_error (bowned bc) t); auto.
  - destruct (nth_error (ithreads (R (bdone bc ++ [Go t]))) t) as [[?|]|]; [|destruct (resume _ _ _ _ _)|]; cbn [bdone]; intros E; elim (NE _ _ E).
  - destruct (next_call _ _ _ _ _); auto. cbn [bdone]. intros E. elim (NE _ _ E).
Qed.
Lemma view_other bc u m t : u <> t -> view (bstep dbg n vs bc (u, m)) t = view bc t.
Proof.
  intros Hn. unfold view, bstep. destruct (nth_error (ithreads (R (bdone bc))) u) as [[q|]|] eqn:Eu; auto; destruct (nth_error (bprogs bc) u); auto; destruct (nth_error (bowned bc) u); auto.
  - assert (nth_error (ithreads (R (bdone bc ++ [Go u]))) t = nth_error (ithreads (R (bdone bc))) t) as X.
    { rewrite (step_go _ _ _ Eu). destruct (step_threads list_eqb dbg (R (bdone bc)) u q) as [->|[q' ->]]; auto. rewrite nth_upd_other; auto. }
    destruct (nth_error (ithreads (R (bdone bc ++ [Go u]))) u) as [[?|]|]; [|destruct (resume _ _ _ _ _)|]; cbn [bdone bprogs]; rewrite X; auto.
    rewrite nth_upd_other; auto.
  - destruct (next_call _ _ _ _ _) as [c|]; auto. cbn [bdone bprogs]. rewrite (step_begin _ _ c Eu). f_equal.
    destruct (begin_threads (R (bdone bc)) u c) as [->|[q' ->]]; auto. rewrite nth_upd_other; auto.
Qed.
Lemma first_step f bc t d : forall k, takes_step f bc t (d + k) -> exists k', (k <= k')%nat /\ takes_step f bc t k' /\ view (after f bc k') t = view (after f bc k) t.
Proof.
  induction d as [|d IH]; intros k H; [exists k; auto|]. rewrite Nat.add_succ_comm in H.
  destruct (IH (S k) H) as (k' & Hk & H' & E).
  destruct (list_eq_dec (fun x y : nat => Nat.eq_dec x y) [fst (f k)] [t]) as [Ef|Nf].
  - injection Ef as Ef. destruct (Nat.eq_dec (length (bdone (after f bc (S k)))) (length (bdone (after f bc k)))) as [El|Nl].
    + exists k'. split; [lia|]. split; auto. rewrite E. rewrite after_S in El |- *. rewrite no_step; auto.
      destruct (bstep_done (after f bc k) (f k)) as (l & Eb). rewrite Eb in El |- *. rewrite app_length in El. destruct l; [rewrite app_nil_r; auto|cbn in El; lia].
    + exists k. split; auto. split; auto. split; auto. intros X. apply Nl. rewrite X. auto.
  - exists k'. split; [lia|]. split; auto. rewrite E, after_S. destruct (f k) as [u m]. apply view_other. cbn in Nf. congruence.
Qed.

Lemma finishes_all f bc t p0 : binv bc -> nth_error (bprogs bc) t = Some p0 -> nth_error (ithreads (R (bdone bc))) t = Some None -> (forall k, fine (bdone (after f bc k))) ->
  (forall k, finished (after f bc k) t \/ exists k', (k <= k')%nat /\ takes_step f bc t k') -> exists k, finished (after f bc k) t.
Proof.
  intros HB0 Ep0 Et0 HF HS.
  assert (forall k, binv (after f bc k)) as HB. { intros k. apply binv_exec; auto. apply HF. }
  destruct (Z_of_nat_complete (2 ^ 57) ltac:(lia)) as (B & EB).
  assert (forall k, length (store_of (R (bdone (after f bc k)))) <= B)%nat as HB'. { intros k. destruct (HF k) as (_ & _ & X). lia. }
  assert (forall k, finished (after f bc k) t \/ exists k', (k <= k')%nat /\ takes_step f bc t k' /\ view (after f bc k') t = view (after f bc k) t) as NX.
  { intros k. destruct (HS k) as [X|(k' & Hk & X)]; auto. right. apply (first_step f bc t (k' - k)). replace (k' - k + k)%nat with k' by lia. exact X. }
  clear EB.
  (* inside a call, by the number of steps it still needs; then by the program *)
  assert (forall p, (forall k1 q ms, let cf := R (bdone (after f bc k1)) in let cf' := R (bdone (after f bc k1) ++ [Go t]) in
      view (after f bc (S k1)) t = (Some (fst (resume cf cf' q ms p)), Some None) -> exists k, finished (after f bc k) t) ->
    forall r k q, (remaining B q <= r)%nat -> view (after f bc k) t = (Some p, Some (Some q)) -> exists k', finished (after f bc k') t) as IN.
  { intros p HR. induction r as [|r IH]; intros k q Hr Hv.
    - exfalso. unfold view in Hv. injection Hv as _ Ht. pose proof (ij_pc _ _ (fine_inv _ (HF k)) _ _ Ht) as P. destruct q; cbn in Hr, P; try lia; contradiction.
    - destruct (NX k) as [X|(k1 & Hk1 & (Ef & Ed) & Ev)]; [eauto|]. rewrite Hv in Ev. pose proof Ev as Ev0. unfold view in Ev0. injection Ev0 as Ep Et.
      rewrite after_S in Ed. pose proof (after_S f bc k1) as Ea. destruct (f k1) as [u m]. cbn [fst] in Ef. subst u. unfold bstep in Ea, Ed. rewrite Et, Ep in Ea, Ed.
      destruct (nth_error (bowned (after f bc k1)) t) as [ms|] eqn:Em; [|elim Ed; reflexivity].
      pose proof (step_go _ _ _ Et) as Es.
      destruct (own_step list_eqb dbg _ _ _ _ _ (fine_inv _ (HF k1)) full_small Et (HB' k1)) as [(E' & _)|(q' & E' & Lt & Ec)].
      + rewrite <- Es in E'. rewrite E' in Ea. apply (HR k1 q ms). destruct (resume _ _ q ms p) as [p' ms'] eqn:Er. rewrite Ea. unfold view. cbn [bprogs bdone fst].
        rewrite (nth_upd_same _ _ _ _ Ep), E'. reflexivity.
      + rewrite <- Es in E'. rewrite E' in Ea. apply (IH (S k1) q'); [lia|]. rewrite Ea. unfold view. cbn [bprogs bdone]. rewrite Ep, E'. reflexivity. }
  assert (forall p k, view (after f bc k) t = (Some p, Some None) -> exists k', finished (after f bc k') t) as OUT.
  { assert (forall p, (forall k1 q ms, let cf := R (bdone (after f bc k1)) in let cf' := R (bdone (after f bc k1) ++ [Go t]) in
      view (after f bc (S k1)) t = (Some (fst (resume cf cf' q ms p)), Some None) -> exists k, finished (after f bc k) t) ->
      forall k, view (after f bc k) t = (Some p, Some None) -> exists k', finished (after f bc k') t) as GO.
    { intros p HR k Hv. destruct (NX k) as [X|(k1 & Hk1 & (Ef & Ed) & Ev)]; [eauto|]. rewrite Hv in Ev. pose proof Ev as Ev0. unfold view in Ev0. injection Ev0 as Ep Et.
      rewrite after_S in Ed. pose proof (after_S f bc k1) as Ea. destruct (f k1) as [u m]. cbn [fst] in Ef. subst u. unfold bstep in Ea, Ed. rewrite Et, Ep in Ea, Ed.
      destruct (nth_error (bowned (after f bc k1)) t) as [ms|] eqn:Em; [|elim Ed; reflexivity].
      destruct (next_call (R (bdone (after f bc k1))) vs ms p m) as [c|] eqn:Ec; [|elim Ed; reflexivity].
      destruct (begins _ _ _ _ _ _ (HB k1) (HF k1) Et Ep Em Ec) as (q & Eq). rewrite <- (step_begin _ _ _ Et) in Eq.
      apply (IN p HR (remaining B q) (S k1) q); auto. rewrite Ea. unfold view. cbn [bprogs bdone]. rewrite Ep, Eq. reflexivity. }
    induction p as [r|k f0 IH|l f0 IH|k p IH|k p IH]; intros k0 Hv.
    - exists k0. exists r. unfold view in Hv. congruence.
    - apply (GO (PGet k f0)) with (k := k0); auto. intros k1 q ms cf cf' Hv'. cbn [resume fst] in Hv'. destruct (last _ _) as [? [l|]]; [eauto|]. exists (S k1). eexists. unfold view in Hv'. injection Hv' as -> _. reflexivity.
    - apply (GO (PAdd l f0)) with (k := k0); auto. intros k1 q ms cf cf' Hv'. cbn [resume fst] in Hv'. destruct (nth_error (handles cf') _) as [h|]; [eauto|]. exists (S k1). eexists. unfold view in Hv'. injection Hv' as -> _. reflexivity.
    - apply (GO (PIncr k p)) with (k := k0); auto. intros k1 q ms cf cf' Hv'. cbn [resume fst] in Hv'. eauto.
    - apply (GO (PDecr k p)) with (k := k0); auto. intros k1 q ms cf cf' Hv'. cbn [resume fst] in Hv'. eauto. }
  apply (OUT p0 0%nat). unfold view. change (after f bc 0) with bc. rewrite Ep0, Et0. reflexivity.
Qed.
End Run.
