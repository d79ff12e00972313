(** Proofs about WeakDataModel.v. *)
From Coq Require Import List Bool PeanoNat Lia.
From Verif Require Import Base ConcListModel ConcListSpec ConcListProofs WeakListModel WeakListSpec WeakListProofs WeakDataModel WeakDataSpec.
Import ListNotations.

Section Proofs.
Context {A : Type}.
Implicit Types (m : wmem A) (L : list nat) (vs : list A) (p : pc A) (c : call A) (V : view) (h : list (devent A)).

(** ** Which links a view has *)

Definition sees L V (q : nat) : Prop :=
  match q with 0 => In EHead V | S j => exists a, nth_error L j = Some a /\ In (ENext a) V end.

Lemma sees_good L V k : NoDup L -> good L V k -> forall q, sees L V q <-> q < k.
Proof.
  intros ND [H1 H2 H3 H4] [|j]; cbn; [exact H2|]. split.
  - intros (a & E & I). apply H3 in I. destruct I as (i & E' & Hi).
    assert (i = j) as -> by (apply (proj1 (NoDup_nth_error L) ND); [eapply nth_error_lt; eauto|congruence]). auto.
  - intros Hj. destruct (nth_error L j) as [a|] eqn:E; [|apply nth_error_None in E; lia].
    exists a. split; auto. apply H3. eauto.
Qed.

(** ** The messages in memory *)

Definition is_msg m (mv : view) : Prop :=
  (exists a, whead m = Some (a, mv)) \/
  exists a x b, nth_error (wheap m) a = Some x /\ wnext x = Some (b, mv).

Definition cells_in m L : Prop :=
  forall a x b mv, nth_error (wheap m) a = Some x -> wnext x = Some (b, mv) -> In a L.

Lemma msg_good m L vs mv : wlinked m L vs -> cells_in m L -> is_msg m mv -> exists k, good L mv k.
Proof.
  intros HL HC [(a & E)|(a & x & b & E & En)].
  - destruct (wl_msg0 _ _ _ HL _ _ E) as (k & _ & G). eauto.
  - pose proof (HC _ _ _ _ E En) as I. apply In_nth_error in I. destruct I as [i Hi].
    destruct (wl_msg _ _ _ HL _ _ _ _ _ Hi E En) as (k & _ & G). eauto.
Qed.

(** A property of views that joins keep. *)
Record closed (Q : view -> Prop) : Prop := {
  c_app : forall V V', Q V -> Q V' -> Q (V ++ V');
  c_init : forall V n, Q V -> Q (EInit n :: V);
  c_cons : forall V e, In e V -> Q V -> Q (e :: V) }.

Lemma load_head_keeps Q m L vs V k acq stale r V' : closed Q -> wlinked m L vs -> good L V k -> (forall mv, is_msg m mv -> Q mv) ->
  Q V -> acq = true \/ 0 < k -> load_at EHead (whead m) acq stale V = (r, V') -> Q V'.
Proof.
  intros [C1 C2 C3] HL HG HQ HV Ha E. unfold load_at in E. destruct (whead m) as [[a mv]|] eqn:Eh; [|injection E as <- <-; auto].
  destruct (stale && negb (knows V EHead)); injection E as <- <-; auto.
  destruct (wl_msg0 _ _ _ HL a mv Eh) as (km & Hkm & Gm). destruct acq.
  - apply C3; [apply in_app_iff; left; apply (g_head _ _ _ Gm); auto|]. apply C1; auto. apply HQ. left. eauto.
  - destruct Ha as [|Ha]; [discriminate|]. cbn [app]. apply C3; auto. apply (g_head _ _ _ HG). auto.
Qed.

Lemma cell_keeps Q m L vs V k j a x acq stale r V' : closed Q -> wlinked m L vs -> good L V k -> (forall mv, is_msg m mv -> Q mv) ->
  Q V -> nth_error L j = Some a -> nth_error (wheap m) a = Some x -> acq = true \/ S j < k ->
  load_at (ENext a) (wnext x) acq stale V = (r, V') -> Q V'.
Proof.
  intros [C1 C2 C3] HL HG HQ HV Hj Ex Ha E. unfold load_at in E. destruct (wnext x) as [[b mv]|] eqn:Eh; [|injection E as <- <-; auto].
  destruct (stale && negb (knows V (ENext a))); injection E as <- <-; auto.
  destruct (wl_msg _ _ _ HL j a x b mv Hj Ex Eh) as (km & Hkm & Gm). destruct acq.
  - apply C3; [apply in_app_iff; left; apply (g_next _ _ _ Gm); eauto|]. apply C1; auto. apply HQ. right. eauto 6.
  - destruct Ha as [|Ha]; [discriminate|]. cbn [app]. apply C3; auto. apply (g_next _ _ _ HG). eauto.
Qed.

Lemma next_keeps Q m L vs V k j a acq stale f o V' : closed Q -> wlinked m L vs -> good L V k -> (forall mv, is_msg m mv -> Q mv) ->
  Q V -> nth_error L j = Some a -> acq = true \/ S j < k ->
  wload_next m V a acq stale f = (o, V') -> Q V'.
Proof.
  intros HC HL HG HQ HV Hj Ha E. unfold wload_next, access in E. destruct (nth_error (wheap m) a) as [x|] eqn:Ex; [|injection E as <- <-; auto].
  destruct (knows V (EInit a)); [|injection E as <- <-; auto].
  destruct (load_at (ENext a) (wnext x) acq stale V) as [r V2] eqn:El. injection E as <- <-.
  eapply cell_keeps; eauto.
Qed.

Lemma next_outcome m V a acq stale f o V' : wload_next m V a acq stale f = (o, V') ->
  (exists r, o = f r) \/ o = WNext Crash \/ o = WRace.
Proof.
  unfold wload_next, access. destruct (nth_error (wheap m) a) as [x|]; [|intros [= <- _]; auto].
  destruct (knows V (EInit a)); [|intros [= <- _]; auto].
  destruct (load_at (ENext a) (wnext x) acq stale V) as [r V2]. intros [= <- _]. eauto.
Qed.

Lemma load_incl loc cell acq stale V r V' : load_at loc cell acq stale V = (r, V') -> incl V V'.
Proof.
  unfold load_at. destruct cell as [[a mv]|]; [|intros [= _ <-]; apply incl_refl].
  destruct (stale && negb (knows V loc)); intros [= _ <-]; [apply incl_refl|]. apply incl_tl, incl_appr, incl_refl.
Qed.

Lemma next_incl m V a acq stale f o V' : wload_next m V a acq stale f = (o, V') -> incl V V'.
Proof.
  unfold wload_next, access. destruct (nth_error (wheap m) a) as [x|]; [|intros [= _ <-]; apply incl_refl].
  destruct (knows V (EInit a)); [|intros [= _ <-]; apply incl_refl].
  destruct (load_at (ENext a) (wnext x) acq stale V) as [r V2] eqn:E. intros [= _ <-]. eapply load_incl; eauto.
Qed.

Lemma wmicro_incl stale p m V o m' V' : wmicro stale p m V = (o, m', V') -> incl V V'.
Proof.
  intros E.
  assert (FIN : forall acc r V2 o2 V3, (match r with
      | None => (WDone (RList acc), V2)
      | Some a => access m V2 a (fun x => (WNext (IterAt (Some a) (acc ++ [wval x])), V2))
      end) = (o2, V3) -> V3 = V2).
  { intros acc r V2 o2 V3 E2. destruct r as [b|]; [|injection E2 as _ <-; auto]. unfold access in E2.
    destruct (nth_error (wheap m) b); [|injection E2 as _ <-; auto]. destruct (knows V2 (EInit b)); injection E2 as _ <-; auto. }
  destruct p as [v|v n|q|q a len|q a len|v n a len|v n a len|v n a len| |i|i a [|r]|i a r|[a|] acc|]; cbn [wmicro] in E;
    try match type of E with context [wload_next ?m ?V ?a ?acq ?s ?f] =>
      destruct (wload_next m V a acq s f) as [o2 V2] eqn:El; injection E as _ _ <-; eapply next_incl; eauto end.
  - injection E as _ _ <-. apply incl_tl, incl_refl.
  - destruct (whead m) as [[a mv]|]; injection E as _ _ <-; [apply incl_tl, incl_appr, incl_refl|apply incl_tl, incl_refl].
  - destruct (load_at EHead (whead m) false stale V) as [r V2] eqn:El. injection E as _ _ <-. eapply load_incl; eauto.
  - destruct (nth_error (wheap m) a) as [x|]; [|injection E as _ _ <-; apply incl_refl].
    destruct (knows V (EInit a)); [|injection E as _ _ <-; apply incl_refl].
    destruct (wnext x) as [[b mv]|]; injection E as _ _ <-; [apply incl_tl, incl_appr, incl_refl|apply incl_tl, incl_refl].
  - destruct (load_at EHead (whead m) true stale V) as [r V2] eqn:El. injection E as _ _ <-. eapply load_incl; eauto.
  - destruct (load_at EHead (whead m) true stale V) as [r V2] eqn:El. injection E as _ _ <-. eapply load_incl; eauto.
  - unfold access in E. destruct (nth_error (wheap m) a); [|injection E as _ _ <-; apply incl_refl].
    destruct (knows V (EInit a)); injection E as _ _ <-; apply incl_refl.
  - destruct (access m V a _) as [o2 V2] eqn:El. injection E as _ _ <-.
    unfold access at 1 in El. destruct (nth_error (wheap m) a) as [x|]; [|injection El as _ <-; apply incl_refl].
    destruct (knows V (EInit a)); [|injection El as _ <-; apply incl_refl].
    destruct (load_at (ENext a) (wnext x) true stale V) as [r V3] eqn:E3. apply FIN in El. subst V2. eapply load_incl; eauto.
  - destruct (load_at EHead (whead m) true stale V) as [r V3] eqn:E3.
    destruct (match r with None => _ | Some _ => _ end) as [o2 V2] eqn:El. injection E as _ _ <-. apply FIN in El. subst V2. eapply load_incl; eauto.
  - injection E as _ _ <-. apply incl_refl.
Qed.

(** What a step inside a call does to the views: a successful exchange publishes the view of the
    thread, and every other step joins a message at most. *)
Definition view_step (Q : view -> Prop) (k : nat) m L V c (o : wout A) m' V' : Prop :=
  (Q V' /\ (forall mv, is_msg m' mv -> is_msg m mv) /\ cells_in m' L /\ (forall r, o = WDone r -> ~ is_push c)) \/
  (exists loc v r, c = Push v /\ o = WDone r /\ V' = loc :: V /\ k = length L /\
     (forall mv, is_msg m' mv -> is_msg m mv \/ mv = V') /\ cells_in m' L).

Lemma wmicro_view Q stale k aw m L vs V c p o m' V' : closed Q ->
  wlinked m L vs -> cells_in m L -> good L V k -> aw <= k -> wpcok k aw L vs c p ->
  (forall mv, is_msg m mv -> Q mv) -> Q V ->
  wmicro stale p m V = (o, m', V') -> view_step Q k m L V c o m' V'.
Proof.
  intros HC HL Hcell HG Haw HP HQ HV E. pose proof (g_len _ _ _ HG) as HkL.
  assert (KEEP : forall o', o' = o -> m' = m -> Q V' -> (forall r, o = WDone r -> ~ is_push c) -> view_step Q k m L V c o m' V').
  { intros o' _ -> HQ' Hp. left. auto 6. }
  destruct p as [v|v n|q|q a len|q a len|v n a len|v n a len|v n a len| |i|i a r|i a r|loc acc|]; cbn [wmicro] in E.
  - injection E as <- <- <-. left. split; [apply (c_init _ HC); auto|]. split; [|split; [|discriminate]].
    + intros mv [(a & Ea)|(a & x & b & Ea & En)]; cbn in *; [left; eauto|]. right.
      destruct (Nat.lt_ge_cases a (length (wheap m))) as [Hl|Hl].
      * rewrite nth_error_app1 in Ea by auto. eauto 6.
      * rewrite nth_error_app2 in Ea by auto. destruct (a - length (wheap m)) as [|d]; [cbn in Ea; injection Ea as <-; discriminate|]. destruct d; discriminate.
    + intros a x b mv Ea En. cbn in *. destruct (Nat.lt_ge_cases a (length (wheap m))) as [Hl|Hl].
      * rewrite nth_error_app1 in Ea by auto. eauto.
      * rewrite nth_error_app2 in Ea by auto. destruct (a - length (wheap m)) as [|d]; [cbn in Ea; injection Ea as <-; discriminate|]. destruct d; discriminate.
  - cbn in HP. subst c. destruct (whead m) as [[a mv]|] eqn:Eh; injection E as <- <- <-.
    + apply (KEEP _ eq_refl eq_refl); [|discriminate]. destruct (wl_msg0 _ _ _ HL a mv Eh) as (km & Hkm & Gm).
      apply (c_cons _ HC); [apply in_app_iff; left; apply (g_head _ _ _ Gm); auto|]. apply (c_app _ HC); auto. apply HQ. left. eauto.
    + right. exists EHead, v, (RNat 1). split; auto. split; auto. split; auto.
      pose proof (wl_head _ _ _ HL) as E0. rewrite Eh in E0. cbn in E0. symmetry in E0. apply hd_none in E0. subst L. cbn [length] in *.
      split; [lia|]. split.
      * intros mv [(b & Eb)|(b & x & b' & Eb & En)]; cbn in *; [injection Eb as _ <-; auto|]. left. right. eauto 6.
      * intros b x b' mv Eb En. cbn in *. eapply Hcell; eauto.
  - cbn in HP. destruct HP as [Hq Hk]. destruct (load_at EHead (whead m) false stale V) as [r V2] eqn:El. injection E as <- <- <-.
    apply (KEEP _ eq_refl eq_refl); [eapply load_head_keeps; eauto|].
    intros r' Er. destruct r; [discriminate|]. destruct q; [discriminate|]. cbn in Hq. subst c. cbn. auto.
  - cbn in HP. destruct HP as (Hq & Hlen & Ha).
    destruct (wload_next m V a true stale _) as [o2 V2] eqn:El. injection E as <- <- <-.
    apply (KEEP _ eq_refl eq_refl); [eapply next_keeps; eauto|].
    intros r' ->. destruct q; cbn in Hq; subst c; [|cbn; auto]. exfalso.
    destruct (next_outcome _ _ _ _ _ _ _ _ El) as [[[b|] Eo]|[Eo|Eo]]; discriminate.
  - cbn in HP. destruct HP as (Hq & Hlen & Ha).
    destruct (wload_next m V a false stale _) as [o2 V2] eqn:El. injection E as <- <- <-.
    apply (KEEP _ eq_refl eq_refl); [refine (next_keeps Q m L vs V k (len - 1) a _ _ _ _ _ HC HL HG HQ HV Ha (or_intror _) El); lia|].
    intros r' ->. exfalso.
    destruct (next_outcome _ _ _ _ _ _ _ _ El) as [[[b|] Eo]|[Eo|Eo]]; discriminate.
  - cbn in HP. destruct HP as (-> & Hl & j & Ha & Hj & Hlen).
    destruct (wl_node _ _ _ HL j a Ha) as (x & cell & Ex & En & Ev). rewrite Ex in E.
    rewrite (proj2 (knows_in V (EInit a))) in E by (eapply g_init; eauto). cbn [wnext wval] in E.
    destruct cell as [[b mv]|]; injection E as <- <- <-.
    + apply (KEEP _ eq_refl eq_refl); [|discriminate]. destruct (wl_msg _ _ _ HL j a _ b mv Ha Ex eq_refl) as (km & Hkm & Gm).
      apply (c_cons _ HC); [apply in_app_iff; left; apply (g_next _ _ _ Gm); eauto|]. apply (c_app _ HC); auto. apply HQ. right.
      exists a, (WNode x (Some (b, mv))), b. auto.
    + cbn in En. symmetry in En. pose proof (none_len _ _ _ Ha En) as Hll.
      right. exists (ENext a), v, (RNat (len + 1)). split; auto. split; auto. split; auto. split; [lia|]. split.
      * intros mv [(b & Eb)|(b & y & b' & Eb & En')]; cbn in *; [left; left; eauto|].
        apply nth_upd_cases in Eb. destruct Eb as [[-> ->]|[Hne Eb]]; [cbn in En'; injection En' as _ <-; auto|]. left. right. eauto 6.
      * intros b y b' mv Eb En'. cbn in *. apply nth_upd_cases in Eb. destruct Eb as [[-> ->]|[Hne Eb]]; [eapply nth_error_In; eauto|eapply Hcell; eauto].
  - cbn in HP. destruct HP as (-> & Hl & j & Ha & Hj & Hlen).
    destruct (wload_next m V a true stale _) as [o2 V2] eqn:El. injection E as <- <- <-.
    apply (KEEP _ eq_refl eq_refl); [eapply next_keeps; eauto|].
    intros r' ->. exfalso.
    destruct (next_outcome _ _ _ _ _ _ _ _ El) as [[[b|] Eo]|[Eo|Eo]]; discriminate.
  - cbn in HP. destruct HP as (-> & Hl & j & Ha & Hj & Hlen).
    destruct (wload_next m V a false stale _) as [o2 V2] eqn:El. injection E as <- <- <-.
    apply (KEEP _ eq_refl eq_refl); [refine (next_keeps Q m L vs V k j a _ _ _ _ _ HC HL HG HQ HV Ha (or_intror _) El); lia|].
    intros r' ->. exfalso.
    destruct (next_outcome _ _ _ _ _ _ _ _ El) as [[[b|] Eo]|[Eo|Eo]]; discriminate.
  - cbn in HP. subst c. destruct (load_at EHead (whead m) true stale V) as [r V2] eqn:El. injection E as <- <- <-.
    apply (KEEP _ eq_refl eq_refl); [eapply load_head_keeps; eauto|]. cbn. auto.
  - cbn in HP. subst c. destruct (load_at EHead (whead m) true stale V) as [r V2] eqn:El. injection E as <- <- <-.
    apply (KEEP _ eq_refl eq_refl); [eapply load_head_keeps; eauto|]. cbn. auto.
  - cbn in HP. destruct HP as (-> & Hr & Ha & Hk). destruct r as [|r].
    + unfold access in E. destruct (nth_error (wheap m) a); [|injection E as <- <- <-; apply (KEEP _ eq_refl eq_refl); cbn; auto].
      destruct (knows V (EInit a)); injection E as <- <- <-; apply (KEEP _ eq_refl eq_refl); cbn; auto.
    + destruct (wload_next m V a true stale _) as [o2 V2] eqn:El. injection E as <- <- <-.
      apply (KEEP _ eq_refl eq_refl); [eapply next_keeps; eauto|]. cbn. auto.
  - cbn in HP. destruct HP as (-> & Hr & Ha & Hk).
    destruct (wload_next m V a false stale _) as [o2 V2] eqn:El. injection E as <- <- <-.
    apply (KEEP _ eq_refl eq_refl); [refine (next_keeps Q m L vs V k (i - S r) a _ _ _ _ _ HC HL HG HQ HV Ha (or_intror _) El); lia|]. cbn. auto.
  - assert (c = IterAll) as Hc by (destruct loc; cbn -[firstn] in HP; apply HP).
    assert (FIN : forall r V2 o2 V3, Q V2 -> (match r with
      | None => (WDone (RList acc), V2)
      | Some a => access m V2 a (fun x => (WNext (IterAt (Some a) (acc ++ [wval x])), V2))
      end) = (o2, V3) -> Q V3).
    { intros r V2 o2 V3 H2 E2. destruct r as [b|]; [|injection E2 as <- <-; auto]. unfold access in E2.
      destruct (nth_error _ _); [|injection E2 as <- <-; auto]. destruct (knows _ _); injection E2 as <- <-; auto. }
    destruct loc as [a|]; cbn -[firstn] in HP.
    + destruct HP as (_ & j & Ha & Hj & _).
      destruct (access m V a _) as [o2 V2] eqn:El. injection E as <- <- <-. apply (KEEP _ eq_refl eq_refl); [|subst c; cbn; auto].
      unfold access at 1 in El. destruct (nth_error (wheap m) a) as [x|] eqn:Ex; [|injection El as <- <-; auto].
      destruct (knows V (EInit a)); [|injection El as <- <-; auto].
      destruct (load_at (ENext a) (wnext x) true stale V) as [r V3] eqn:E3. eapply FIN; [|exact El]. eapply cell_keeps; eauto.
    + destruct (load_at EHead (whead m) true stale V) as [r V3] eqn:E3.
      destruct (match r with None => _ | Some _ => _ end) as [o2 V2] eqn:El. injection E as <- <- <-.
      apply (KEEP _ eq_refl eq_refl); [|subst c; cbn; auto]. eapply FIN; [|exact El]. eapply load_head_keeps; eauto.
  - destruct HP.
Qed.

(** ** Histories *)

Definition accesses h : list (nat * nat * bool) :=
  flat_map (fun e => match e with DList _ => [] | DAccess t x w => [(t, x, w)] end) h.
Definition access_at h (i d : nat) : Prop :=
  d = length (accesses (firstn i h)) /\ exists t x w, nth_error h i = Some (DAccess t x w).
Definition upto h (i k : nat) : Prop := i = k \/ happens_before h i k.

Lemma list_part_app h h' : list_part (h ++ h') = list_part h ++ list_part h'.
Proof. apply flat_map_app. Qed.
Lemma accesses_app h h' : accesses (h ++ h') = accesses h ++ accesses h'.
Proof. apply flat_map_app. Qed.
Lemma list_part_map (l : list (wevent A)) : list_part (map DList l) = l.
Proof. induction l as [|e l IH]; [reflexivity|]. change (e :: list_part (map DList l) = e :: l). rewrite IH. auto. Qed.
Lemma accesses_map (l : list (wevent A)) : accesses (map DList l) = [].
Proof. induction l as [|e l IH]; [reflexivity|]. exact IH. Qed.

Lemma firstn_old h l i : i <= length h -> firstn i (h ++ l) = firstn i h.
Proof. intros H. rewrite firstn_app. replace (i - length h) with 0 by lia. cbn. apply app_nil_r. Qed.

Lemma by_thread_old h l i t : i < length h -> by_thread (h ++ l) i t <-> by_thread h i t.
Proof. intros H. unfold by_thread. rewrite nth_error_app1 by auto. tauto. Qed.
Lemma by_thread_lt h i t : by_thread h i t -> i < length h.
Proof. unfold by_thread. destruct (nth_error h i) eqn:E; [|tauto]. intros _. eapply nth_error_lt; eauto. Qed.
Lemma pushes_old h l i q : i < length h -> pushes (h ++ l) i q <-> pushes h i q.
Proof. intros H. unfold pushes. rewrite nth_error_app1, firstn_old by lia. tauto. Qed.
Lemma pushes_lt h i q : pushes h i q -> i < length h.
Proof. intros (_ & t & v & r & E). eapply nth_error_lt; eauto. Qed.
Lemma access_old h l i d : i < length h -> access_at (h ++ l) i d <-> access_at h i d.
Proof. intros H. unfold access_at. rewrite nth_error_app1, firstn_old by lia. tauto. Qed.
Lemma access_lt h i d : access_at h i d -> i < length h.
Proof. intros (_ & t & v & r & E). eapply nth_error_lt; eauto. Qed.

Lemma edge_lt h i j : edge h i j -> i < j < length h.
Proof.
  intros [t H1 H2 H3|t u H1 H2 H3|t q H1 H2 H3 H4]; split; auto.
  - eapply by_thread_lt; eauto.
  - eapply nth_error_lt; eauto.
  - eapply by_thread_lt; eauto.
Qed.
Lemma hb_lt h i j : happens_before h i j -> i < j < length h.
Proof. induction 1 as [j H|k j H IH E]; [apply edge_lt; auto|]. apply edge_lt in E. lia. Qed.

Lemma edge_old h l i j : j < length h -> edge (h ++ l) i j <-> edge h i j.
Proof.
  intros H. split; intros [t H1 H2 H3|t u H1 H2 H3|t q H1 H2 H3 H4].
  - rewrite by_thread_old in H2, H3 by lia. eapply by_program; eauto.
  - rewrite by_thread_old in H2 by lia. rewrite nth_error_app1 in H3 by lia. eapply by_sync; eauto.
  - rewrite pushes_old in H2 by lia. rewrite by_thread_old in H3 by lia. rewrite firstn_old in H4 by lia. eapply by_list; eauto.
  - apply by_program with t; auto; rewrite by_thread_old by lia; auto.
  - apply by_sync with t u; auto; [rewrite by_thread_old by lia; auto|rewrite nth_error_app1 by lia; eauto].
  - apply by_list with t q; auto; [rewrite pushes_old by lia; auto|rewrite by_thread_old by lia; auto|rewrite firstn_old by lia; auto].
Qed.
Lemma hb_old h l i j : j < length h -> happens_before (h ++ l) i j <-> happens_before h i j.
Proof.
  intros H. split; intros HB.
  - revert H. induction HB as [j E|k j HB IH E]; intros H.
    + apply hb_one. eapply edge_old; eauto.
    + pose proof (edge_lt _ _ _ E). eapply hb_more; [apply IH; lia|]. eapply edge_old; eauto.
  - induction HB as [j E|k j HB IH E].
    + apply hb_one. apply edge_old; auto.
    + pose proof (edge_lt _ _ _ E). eapply hb_more; [apply IH; lia|]. apply edge_old; auto.
Qed.
Lemma upto_old h l i j : j < length h -> upto (h ++ l) i j <-> upto h i j.
Proof. intros H. unfold upto. rewrite hb_old by auto. tauto. Qed.

Lemma hb_new h e i : happens_before (h ++ [e]) i (length h) -> exists k, k < length h /\ upto h i k /\ edge (h ++ [e]) k (length h).
Proof.
  intros H. remember (length h) as n eqn:En. destruct H as [j E|k j HB E].
  - exists i. pose proof (edge_lt _ _ _ E). split; [lia|]. split; [left; auto|]. auto.
  - exists k. pose proof (edge_lt _ _ _ E). split; [lia|]. split; [|auto]. right. apply (hb_old h [e]); [lia|auto].
Qed.

(** Every access that happens before what thread [t] does next is in [V]. *)
Definition informed h t V : Prop :=
  forall i d k, access_at h i d -> by_thread h k t -> upto h i k -> In (EData d) V.
(** Every access that happens before the push of element [q] is in [V]. *)
Definition published h q V : Prop :=
  forall i d k, access_at h i d -> pushes h k q -> happens_before h i k -> In (EData d) V.

Lemma access_push h i d q : access_at h i d -> ~ pushes h i q.
Proof. intros (_ & t & x & w & E) (_ & t' & v & r & E'). congruence. Qed.

Lemma by_last h e k t u : by_thread (h ++ [e]) (length h) u -> by_thread (h ++ [e]) k t -> k < length h \/ k = length h /\ t = u.
Proof.
  intros H1 H2. pose proof (by_thread_lt _ _ _ H2) as Hk. rewrite app_length in Hk. cbn in Hk.
  destruct (Nat.lt_ge_cases k (length h)); [auto|]. assert (k = length h) as -> by lia. right. split; auto.
  unfold by_thread in *. destruct (nth_error (h ++ [e]) (length h)) as [[[]|]|]; congruence || tauto.
Qed.

Lemma informed_new h e t V V' : by_thread (h ++ [e]) (length h) t ->
  informed h t V -> incl V V' ->
  (forall q, q < aware (list_part (h ++ [e])) t -> q < length (wpushed (list_part h)) -> published h q V') ->
  (forall u, e = DList (WSynced t u) -> informed h u V') ->
  (forall x w, e = DAccess t x w -> In (EData (length (accesses h))) V') ->
  informed (h ++ [e]) t V'.
Proof.
  intros Ht HI HV HP HS HD i d k Ha Hk Hu. pose proof (by_thread_lt _ _ _ Hk) as Hlt. rewrite app_length in Hlt. cbn in Hlt.
  assert (Hik : i <= k) by (destruct Hu as [->|Hu]; [auto|apply hb_lt in Hu; lia]).
  destruct (Nat.lt_ge_cases k (length h)) as [Hk'|Hk'].
  - rewrite access_old in Ha by lia. rewrite by_thread_old in Hk by lia. rewrite upto_old in Hu by lia. apply HV. eapply HI; eauto.
  - assert (k = length h) as -> by lia. destruct Hu as [->|Hu].
    + destruct Ha as (-> & t' & x & w & E). rewrite firstn_old, firstn_all by lia.
      rewrite nth_error_app2, Nat.sub_diag in E by lia. cbn in E. injection E as ->. apply (HD x w).
      unfold by_thread in Ht. rewrite nth_error_app2, Nat.sub_diag in Ht by lia. cbn in Ht. subst. auto.
    + destruct (hb_new _ _ _ Hu) as (k & Hkl & Huk & He). pose proof (hb_lt _ _ _ Hu) as Hil.
      rewrite access_old in Ha by lia.
      destruct He as [t' H1 H2 H3|t' u H1 H2 H3|t' q H1 H2 H3 H4].
      * assert (t' = t) as -> by (destruct (by_last _ _ _ _ _ Ht H3) as [|[_ ->]]; [lia|auto]).
        rewrite by_thread_old in H2 by lia. apply HV. eapply HI; eauto.
      * rewrite nth_error_app2, Nat.sub_diag in H3 by lia. cbn in H3. injection H3 as ->.
        assert (t' = t) as -> by (unfold by_thread in Ht; rewrite nth_error_app2, Nat.sub_diag in Ht by lia; exact Ht).
        rewrite by_thread_old in H2 by lia. eapply HS; eauto.
      * assert (t' = t) as -> by (destruct (by_last _ _ _ _ _ Ht H3) as [|[_ ->]]; [lia|auto]).
        rewrite pushes_old in H2 by lia. replace (S (length h)) with (length (h ++ [e])) in H4 by (rewrite app_length; cbn; lia).
        rewrite firstn_all in H4. destruct Huk as [->|Huk]; [elim (access_push _ _ _ _ Ha H2)|].
        eapply HP; eauto. destruct H2 as (-> & tt & v & r & E).
        rewrite <- (firstn_skipn k h) at 2. rewrite list_part_app, wpushed_app, app_length.
        assert (exists l, skipn k h = DList (WRet tt (Push v) r) :: l) as [l ->].
        { clear -E. revert k E. induction h as [|y h IH]; intros [|k] E; cbn in *; try discriminate; [injection E as ->; eauto|auto]. }
        cbn. lia.
Qed.

Lemma informed_other h e t u V : by_thread (h ++ [e]) (length h) t -> u <> t -> informed h u V -> informed (h ++ [e]) u V.
Proof.
  intros Ht Hu HI i d k Ha Hk Hup. destruct (by_last _ _ _ _ _ Ht Hk) as [Hlt|[_ E]]; [|congruence].
  assert (Hik : i <= k) by (destruct Hup as [->|Hup]; [auto|apply hb_lt in Hup; lia]).
  rewrite access_old in Ha by lia. rewrite by_thread_old in Hk by lia. rewrite upto_old in Hup by lia. eapply HI; eauto.
Qed.

Lemma published_other h e q V : (forall t v r, e <> DList (WRet t (Push v) r)) -> published h q V -> published (h ++ [e]) q V.
Proof.
  intros He HP i d k Ha Hk Hb. pose proof (hb_lt _ _ _ Hb) as Hlt. pose proof (pushes_lt _ _ _ Hk) as Hkl. rewrite app_length in Hkl. cbn in Hkl.
  destruct (Nat.lt_ge_cases k (length h)) as [Hk'|Hk'].
  - rewrite access_old in Ha by lia. rewrite pushes_old in Hk by lia. rewrite hb_old in Hb by lia. eapply HP; eauto.
  - destruct Hk as (_ & t & v & r & E). assert (k = length h) as -> by lia. rewrite nth_error_app2, Nat.sub_diag in E by lia. cbn in E.
    injection E as E. elim (He t v r). auto.
Qed.

Lemma published_push h t v r q V : 
  (q < length (wpushed (list_part h)) -> published h q V) ->
  (q = length (wpushed (list_part h)) -> informed (h ++ [DList (WRet t (Push v) r)]) t V) ->
  published (h ++ [DList (WRet t (Push v) r)]) q V.
Proof.
  intros HP HI i d k Ha Hk Hb. pose proof (hb_lt _ _ _ Hb) as Hlt. pose proof (pushes_lt _ _ _ Hk) as Hkl. rewrite app_length in Hkl. cbn in Hkl.
  destruct (Nat.lt_ge_cases k (length h)) as [Hk'|Hk'].
  - rewrite access_old in Ha by lia. rewrite pushes_old in Hk by lia. rewrite hb_old in Hb by lia. eapply HP; eauto.
    destruct Hk as (-> & tt & v' & r' & E).
    rewrite <- (firstn_skipn k h) at 2. rewrite list_part_app, wpushed_app, app_length.
    assert (exists l, skipn k h = DList (WRet tt (Push v') r') :: l) as [l ->].
    { clear -E. revert k E. induction h as [|y h IH]; intros [|k] E; cbn in *; try discriminate; [injection E as ->; eauto|auto]. }
    cbn. lia.
  - assert (k = length h) as -> by lia. destruct Hk as (-> & _). rewrite firstn_old, firstn_all in HI by lia.
    eapply HI; eauto; [|right; eauto]. unfold by_thread. rewrite nth_error_app2, Nat.sub_diag by lia. cbn. auto.
Qed.

(** ** The list and its threads *)

Definition is_view (b : wconf A) V : Prop :=
  (exists t th, nth_error (wthreads b) t = Some th /\ wview th = V) \/ is_msg (wmemory b) V.

Record binv (b : wconf A) h L : Prop := {
  bi_winv : winv b L;
  bi_cells : cells_in (wmemory b) L;
  bi_hist : list_part h = whistory b;
  bi_none : forall t k, nth_error (wthreads b) t = None -> ~ by_thread h k t;
  bi_thread : forall t th, nth_error (wthreads b) t = Some th -> informed h t (wview th);
  bi_pub : forall V, is_view b V -> forall q, sees L V q -> published h q V }.

Lemma view_good b h L V : binv b h L -> is_view b V -> exists k, good L V k.
Proof.
  intros H [(t & th & E & <-)|H'].
  - destruct (wi_th _ _ (bi_winv _ _ _ H) t th E) as (k & G & _). eauto.
  - eapply msg_good; eauto; [apply (wi_linked _ _ (bi_winv _ _ _ H))|apply (bi_cells _ _ _ H)].
Qed.

Lemma nodup (b : wconf A) L : winv b L -> NoDup L.
Proof. intros H. apply (wl_nodup _ _ _ (wi_linked _ _ H)). Qed.
Lemma len_pushed (b : wconf A) L : winv b L -> length (wpushed (whistory b)) = length L.
Proof. intros H. apply (wl_len _ _ _ (wi_linked _ _ H)). Qed.

Lemma published_incl h q V V' : incl V V' -> published h q V -> published h q V'.
Proof. intros HV H i d k Ha Hk Hb. apply HV. eapply H; eauto. Qed.

Lemma published_closed h L : closed (fun V => forall q, sees L V q -> published h q V).
Proof.
  constructor.
  - intros V V' H H' q Hs. destruct q as [|j]; cbn in Hs.
    + apply in_app_iff in Hs. destruct Hs as [Hs|Hs].
      * apply (published_incl _ _ V); [apply incl_appl, incl_refl|]. apply H. exact Hs.
      * apply (published_incl _ _ V'); [apply incl_appr, incl_refl|]. apply H'. exact Hs.
    + destruct Hs as (a & Ea & Hs). apply in_app_iff in Hs. destruct Hs as [Hs|Hs].
      * apply (published_incl _ _ V); [apply incl_appl, incl_refl|]. apply H. exists a. auto.
      * apply (published_incl _ _ V'); [apply incl_appr, incl_refl|]. apply H'. exists a. auto.
  - intros V n H q Hs. apply (published_incl _ _ V); [apply incl_tl, incl_refl|]. apply H. destruct q as [|j]; cbn in *.
    + destruct Hs as [|]; [discriminate|auto].
    + destruct Hs as (a & Ea & [|]); [discriminate|]. eauto.
  - intros V e He H q Hs. apply (published_incl _ _ V); [apply incl_tl, incl_refl|]. apply H. destruct q as [|j]; cbn in *.
    + destruct Hs as [->|]; auto.
    + destruct Hs as (a & Ea & [->|]); eauto.
Qed.

Lemma sees_data L V n q : sees L (EData n :: V) q <-> sees L V q.
Proof.
  destruct q as [|j]; cbn.
  - split; [intros [|]; [discriminate|auto]|auto].
  - split; intros (a & E & I); exists a; split; auto. destruct I as [|]; [discriminate|auto].
Qed.

Lemma good_data L V k n : good L V k -> good L (EData n :: V) k.
Proof.
  intros [H1 H2 H3 H4]. constructor; auto.
  - cbn. split; [intros [E|E]; [discriminate|tauto]|tauto].
  - intros a. cbn. rewrite <- H3. split; [intros [E|E]; [discriminate|auto]|auto].
  - intros i a Hi E. cbn. eauto.
Qed.

Lemma views_upd (b : wconf A) t th th' V m' hh r' : nth_error (wthreads b) t = Some th ->
  is_view (WConf m' (upd (wthreads b) t th') hh r') V ->
  V = wview th' \/ (exists u thu, u <> t /\ nth_error (wthreads b) u = Some thu /\ wview thu = V) \/ is_msg m' V.
Proof.
  intros Et [(u & thu & E & <-)|H]; cbn in *; [|auto]. apply nth_upd_cases in E. destruct E as [[-> ->]|[Hne E]]; [auto|].
  right. left. exists u, thu. auto.
Qed.

(** A thread between two calls changes what it has to do, or its view by plain accesses. *)
Lemma winv_idle (b : wconf A) t th acts V' L : winv b L -> nth_error (wthreads b) t = Some th -> wcur th = None ->
  (V' = wview th \/ exists n, V' = EData n :: wview th) ->
  winv (set_thread b t (WThread acts None V')) L.
Proof.
  intros [H1 H2 H3 H4 H5 H6] Et Ec HV. constructor; cbn [set_thread wmemory wthreads whistory raced]; auto.
  - intros t' E. apply H2. eapply upd_none; eauto.
  - intros t' th' E. apply nth_upd_cases in E. destruct E as [[-> ->]|[Hne E]]; [|auto].
    destruct (H3 t th Et) as (k & G & Hk & _). exists k. cbn. split; [|split; [auto|discriminate]].
    destruct HV as [->|[n ->]]; [auto|]. apply good_data; auto.
  - intros t' th' c p v n E Ec' Eo. apply nth_upd_cases in E. destruct E as [[-> ->]|[Hne E]]; [discriminate|].
    destruct (H4 _ _ _ _ _ _ E Ec' Eo) as (K1 & K2 & K3 & K4). split; auto. split; auto. split; auto.
    intros t2 th2 c2 p2 v2 E2 Ec2 Eo2. apply nth_upd_cases in E2. destruct E2 as [[-> ->]|[Hne2 E2]]; [discriminate|].
    eapply K4; eauto.
Qed.

Lemma binv_give b h t th a L : binv b h L -> nth_error (wthreads b) t = Some th -> wcur th = None ->
  binv (set_thread b t (WThread [a] None (wview th))) h L.
Proof.
  intros [H1 H2 H3 H4 H5 H6] Et Ec. constructor; auto.
  - eapply winv_idle; eauto.
  - cbn. intros u k E. apply H4. eapply upd_none; eauto.
  - cbn. intros u thu E. apply nth_upd_cases in E. destruct E as [[-> ->]|[Hne E]]; cbn; auto.
  - intros V HV. eapply views_upd in HV; [|exact Et]. destruct HV as [->|[(u & thu & _ & E & <-)|HV]]; cbn.
    + apply H6. left. eauto.
    + apply H6. left. eauto.
    + apply H6. right. auto.
Qed.

Lemma by_end h e t : (match e with DList (WInv u _) | DList (WRet u _ _) | DList (WSynced u _) | DAccess u _ _ => u end) = t ->
  by_thread (h ++ [e]) (length h) t.
Proof. intros E. unfold by_thread. rewrite nth_error_app2, Nat.sub_diag by lia. cbn. destruct e as [[]|]; auto. Qed.

Lemma no_thread h e t u k : by_thread (h ++ [e]) (length h) t -> u <> t -> ~ by_thread h k u -> ~ by_thread (h ++ [e]) k u.
Proof.
  intros Ht Hu Hn Hk. destruct (by_last _ _ _ _ _ Ht Hk) as [Hl|[_ ->]]; [|auto]. apply Hn. apply (by_thread_old h [e]); auto.
Qed.

Lemma binv_plain b h t th acts x w L : binv b h L -> nth_error (wthreads b) t = Some th -> wcur th = None ->
  binv (set_thread b t (WThread acts None (EData (length (accesses h)) :: wview th))) (h ++ [DAccess t x w]) L.
Proof.
  intros HB Et Ec. pose proof HB as [H1 H2 H3 H4 H5 H6].
  assert (by_thread (h ++ [DAccess t x w]) (length h) t) as Ht by (apply by_end; auto).
  assert (HP : forall V q, published h q V -> published (h ++ [DAccess t x w]) q V) by (intros; apply published_other; [discriminate|auto]).
  constructor; auto.
  - eapply winv_idle; eauto.
  - rewrite list_part_app. cbn. rewrite app_nil_r. auto.
  - cbn. intros u k E. apply upd_none in E. apply no_thread with t; auto. congruence.
  - cbn. intros u thu E. apply nth_upd_cases in E. destruct E as [[-> ->]|[Hne E]]; cbn.
    + apply informed_new with (V := wview th); auto; try discriminate.
      * apply incl_tl, incl_refl.
      * rewrite list_part_app. cbn [list_part flat_map]. rewrite app_nil_r, H3. intros q Hq _.
        apply (published_incl _ _ (wview th)); [apply incl_tl, incl_refl|]. apply H6; [left; eauto|].
        destruct (wi_th _ _ H1 t th Et) as (k & G & Hk & _). apply (sees_good _ _ _ (nodup _ _ H1) G). lia.
      * intros x' w' _. left. auto.
    + apply informed_other with t; auto.
  - intros V HV q Hs. eapply views_upd in HV; [|exact Et]. apply HP. destruct HV as [->|[(u & thu & _ & E & <-)|HV]]; cbn in *.
    + apply sees_data in Hs. apply (published_incl _ _ (wview th)); [apply incl_tl, incl_refl|]. apply H6; [left; eauto|auto].
    + apply H6; [left; eauto|auto].
    + apply H6; [right; auto|auto].
Qed.

Lemma skip_app {T} (l l' : list T) : skipn (length l) (l ++ l') = l'.
Proof. rewrite skipn_app, skipn_all, Nat.sub_diag. auto. Qed.

Lemma same_len L L' n : length (L ++ L') = length L + n -> length L' = n.
Proof. rewrite app_length. lia. Qed.

Lemma binv_step b h ch L : binv b h L -> len_when_aware (whistory (wconf_step b ch)) ->
  exists L', binv (wconf_step b ch) (h ++ map DList (skipn (length (whistory b)) (whistory (wconf_step b ch)))) L'.
Proof.
  intros HB HLen. pose proof HB as [H1 H2 H3 H4 H5 H6].
  destruct (winv_step b ch L H1 HLen) as (L' & W). clear HLen. revert W. destruct ch as [t stale]. unfold wconf_step.
  assert (SAME : exists L0, binv b (h ++ map DList (skipn (length (whistory b)) (whistory b))) L0).
  { exists L. rewrite skipn_all. cbn. rewrite app_nil_r. auto. }
  destruct (nth_error (wthreads b) t) as [th|] eqn:Et; [|intros _; exact SAME].
  destruct (wi_th _ _ H1 t th Et) as (k & G & Hk & Hpc).
  assert (SEE : forall V q, is_view b V -> sees L V q -> published h q V) by (intros; apply H6; auto).
  assert (OWN : forall q, q < k -> published h q (wview th)).
  { intros q Hq. apply H6; [left; eauto|]. apply (sees_good _ _ _ (nodup _ _ H1) G). auto. }
  destruct (wcur th) as [[c p]|] eqn:Ec.
  2: { destruct (wtodo th) as [|[c|u] acts] eqn:Etd; [intros _; exact SAME| |]; cbn [whistory]; rewrite skip_app; cbn [map]; intros W;
       pose proof (len_pushed _ _ W) as LW; cbn [whistory] in LW; rewrite wpushed_app in LW; cbn in LW; rewrite app_nil_r, (len_pushed _ _ H1) in LW;
       assert (L' = []) as -> by (destruct L'; [auto|rewrite app_length in LW; cbn in LW; lia]); clear LW; rewrite app_nil_r in W; exists L.
    - set (e := DList (WInv t c)). assert (by_thread (h ++ [e]) (length h) t) as Ht by (apply by_end; auto).
      constructor; cbn [wmemory wthreads whistory]; auto.
      + rewrite list_part_app, H3. auto.
      + intros u j E. apply upd_none in E. apply no_thread with t; auto. congruence.
      + intros u thu E. apply nth_upd_cases in E. destruct E as [[-> ->]|[Hne E]]; cbn [wview].
        * apply informed_new with (V := wview th); auto; try discriminate; [apply incl_refl|].
          rewrite list_part_app, H3. unfold e. cbn [list_part flat_map app]. intros q Hq _. rewrite aware_snoc in Hq. cbn in Hq. apply OWN. lia.
        * apply informed_other with t; auto.
      + intros V HV q Hs. apply published_other; [discriminate|]. eapply views_upd in HV; [|exact Et].
        destruct HV as [->|[(u & thu & _ & E & <-)|HV]]; cbn in *; (apply H6; [|auto]).
        * left. eauto.
        * left. eauto.
        * right. auto.
    - set (e := DList (WSynced t u)). assert (by_thread (h ++ [e]) (length h) t) as Ht by (apply by_end; auto).
      assert (HU : informed h u (view_of b u)).
      { unfold view_of. destruct (nth_error (wthreads b) u) as [thu|] eqn:Eu; [auto|]. intros i d j _ Hj. elim (H4 _ _ Eu Hj). }
      assert (PU : forall q, sees L (view_of b u) q -> published h q (view_of b u)).
      { intros q Hq. unfold view_of in *. destruct (nth_error (wthreads b) u) as [thu|] eqn:Eu.
        - apply H6; auto. left. eauto.
        - destruct q as [|j]; cbn in Hq; [destruct Hq|]. destruct Hq as (a & _ & []). }
      constructor; cbn [wmemory wthreads whistory]; auto.
      + rewrite list_part_app, H3. auto.
      + intros v j E. apply upd_none in E. apply no_thread with t; auto. congruence.
      + intros v thv E. apply nth_upd_cases in E. destruct E as [[-> ->]|[Hne E]]; cbn [wview].
        * apply informed_new with (V := wview th); auto; try discriminate; [apply incl_appr, incl_refl| |].
          -- rewrite list_part_app, H3. unfold e. cbn [list_part flat_map app]. intros q Hq _. rewrite aware_snoc in Hq. cbn in Hq. rewrite Nat.eqb_refl in Hq.
             destruct (Nat.lt_ge_cases q (aware (whistory b) t)) as [Hqt|Hqt].
             ++ apply (published_incl _ _ (wview th)); [apply incl_appr, incl_refl|]. apply OWN. lia.
             ++ apply (published_incl _ _ (view_of b u)); [apply incl_appl, incl_refl|]. apply PU.
                assert (q < aware (whistory b) u) as Hqu by lia. unfold view_of. destruct (nth_error (wthreads b) u) as [thu|] eqn:Eu.
                ** destruct (wi_th _ _ H1 u thu Eu) as (ku & Gu & Hku & _). apply (sees_good _ _ _ (nodup _ _ H1) Gu). lia.
                ** rewrite (wi_none _ _ H1 u Eu) in Hqu. lia.
          -- intros u' [= <-] i d j Ha Hj Hup. apply in_app_iff. left. eapply HU; eauto.
        * apply informed_other with t; auto.
      + intros V HV q Hs. apply published_other; [discriminate|]. eapply views_upd in HV; [|exact Et].
        destruct HV as [->|[(v & thv & _ & E & <-)|HV]]; cbn [wview] in *.
        * revert q Hs. apply (c_app _ (published_closed h L)); [exact PU|]. intros q Hq. apply H6; auto. left. eauto.
        * apply H6; auto. left. eauto.
        * apply H6; auto. right. auto. }
  specialize (Hpc c p eq_refl).
  assert (HO : forall v n, owned p = Some (v, n) ->
     nth_error (wheap (wmemory b)) n = Some (WNode v None) /\ ~ In n L /\ In (EInit n) (wview th))
    by (intros v n E; destruct (wi_owned _ _ H1 _ _ _ _ _ _ Et Ec E) as (K1 & K2 & K3 & _); auto).
  pose proof (wmicro_ok stale k _ _ _ _ _ _ _ (wi_linked _ _ H1) G Hk Hpc HO) as HM.
  destruct (wmicro stale p (wmemory b) (wview th)) as [[o m'] V'] eqn:EM.
  assert (VS := wmicro_view (fun V => forall q, sees L V q -> published h q V) stale k _ _ _ _ _ _ _ _ _ _
    (published_closed h L) (wi_linked _ _ H1) H2 G Hk Hpc (fun mv Hmv => H6 mv (or_intror Hmv)) (H6 (wview th) (or_introl (ex_intro _ t (ex_intro _ th (conj Et eq_refl))))) EM).
  destruct o as [p'|r|]; cbn [whistory step_ok] in *; [| |destruct HM].
  - (* inside a call *)
    intros W. rewrite skipn_all. cbn [map]. rewrite app_nil_r. destruct VS as [(Q1 & Q2 & Q3 & _)|(loc & v & r & _ & E & _)]; [|discriminate].
    destruct HM as (k' & _ & _ & _ & HV & _).
    pose proof (len_pushed _ _ W) as LW; cbn [whistory] in LW. rewrite (len_pushed _ _ H1) in LW.
    assert (L' = []) as -> by (destruct L'; [auto|rewrite app_length in LW; cbn in LW; lia]). rewrite app_nil_r in W. exists L.
    constructor; cbn [wmemory wthreads whistory]; auto.
    + intros u j E. apply upd_none in E. auto.
    + intros u thu E. apply nth_upd_cases in E. destruct E as [[-> ->]|[Hne E]]; cbn [wview]; auto.
      intros i d j Ha Hj Hup. apply HV. eapply H5; eauto.
    + intros V HV' q Hs. eapply views_upd in HV'; [|exact Et].
      destruct HV' as [->|[(v & thv & _ & E & <-)|HV']]; cbn [wview] in *; auto.
      * apply H6; auto. left. eauto.
      * apply H6; auto. right. auto.
  - (* a return *)
    rewrite skip_app. cbn [map]. set (e := DList (WRet t c r)). assert (by_thread (h ++ [e]) (length h) t) as Ht by (apply by_end; auto).
    destruct VS as [(Q1 & Q2 & Q3 & Hc)|(loc & v & r' & -> & [= <-] & -> & Hkl & Q2 & Q3)].
    + specialize (Hc r eq_refl). destruct HM as [(v & n & len & -> & _)|(-> & _ & _ & k' & Hk' & G' & Ha)]; [elim Hc; cbn; auto|].
      intros W. pose proof (len_pushed _ _ W) as LW; cbn [whistory] in LW. rewrite wpushed_snoc_other, (len_pushed _ _ H1) in LW by exact Hc.
      assert (L' = []) as -> by (destruct L'; [auto|rewrite app_length in LW; cbn in LW; lia]). rewrite app_nil_r in W. exists L.
      assert (HV : incl (wview th) V').
      { eapply wmicro_incl; eauto. }
      constructor; cbn [wmemory wthreads whistory]; auto.
      * rewrite list_part_app, H3. auto.
      * intros u j E. apply upd_none in E. apply no_thread with t; auto. congruence.
      * intros u thu E. apply nth_upd_cases in E. destruct E as [[-> ->]|[Hne E]]; cbn [wview].
        -- apply informed_new with (V := wview th); auto; try discriminate.
           rewrite list_part_app, H3. unfold e. cbn [list_part flat_map app]. intros q Hq _. rewrite aware_snoc in Hq.
           apply Q1. apply (sees_good _ _ _ (nodup _ _ H1) G'). pose proof (learned_le (aware (whistory b)) (length (wpushed (whistory b))) t c r k' _ Hc Ha ltac:(lia)). lia.
        -- apply informed_other with t; auto.
      * intros V HV' q Hs. apply published_other; [unfold e; intros t0 v0 r0 [= _ -> _]; apply Hc; cbn; auto|]. eapply views_upd in HV'; [|exact Et].
        destruct HV' as [->|[(v & thv & _ & E & <-)|HV']]; cbn [wview] in *; auto.
        -- apply H6; auto. left. eauto.
        -- apply H6; auto. right. auto.
    + (* a push *)
      clear HM. intros W. pose proof (len_pushed _ _ W) as LW; cbn [whistory] in LW. rewrite wpushed_app in LW. cbn in LW. rewrite app_length, (len_pushed _ _ H1) in LW. cbn in LW.
      assert (exists n, L' = [n]) as [n ->].
      { destruct L' as [|n [|n' L']]; rewrite app_length in LW; cbn in LW; try lia. eauto. }
      exists (L ++ [n]).
      assert (INF : informed (h ++ [e]) t (loc :: wview th)).
      { apply informed_new with (V := wview th); auto; try discriminate; [apply incl_tl, incl_refl|].
        rewrite H3, (len_pushed _ _ H1). intros q _ Hq. apply (published_incl _ _ (wview th)); [apply incl_tl, incl_refl|]. apply OWN. lia. }
      assert (MINE : forall q, published (h ++ [e]) q (loc :: wview th)).
      { intros q. apply published_push; [|intros _; exact INF]. rewrite H3, (len_pushed _ _ H1). intros Hq.
        apply (published_incl _ _ (wview th)); [apply incl_tl, incl_refl|]. apply OWN. lia. }
      assert (OLD : forall V q, is_view b V -> sees (L ++ [n]) V q -> published (h ++ [e]) q V).
      { intros V q HV Hs. destruct (view_good _ _ _ _ HB HV) as (kv & GV).
        apply (sees_good _ _ _ (nodup _ _ W) (good_grow _ _ _ n GV)) in Hs. pose proof (g_len _ _ _ GV).
        apply published_push; rewrite H3, (len_pushed _ _ H1); intros Hq; [|lia]. apply H6; auto. apply (sees_good _ _ _ (nodup _ _ H1) GV). auto. }
      constructor; cbn [wmemory wthreads whistory]; auto.
      * intros a x b' mv Ea En. apply in_app_iff. left. eapply Q3; eauto.
      * rewrite list_part_app, H3. auto.
      * intros u j E. apply upd_none in E. apply no_thread with t; auto. congruence.
      * intros u thu E. apply nth_upd_cases in E. destruct E as [[-> ->]|[Hne E]]; cbn [wview]; auto.
        apply informed_other with t; auto.
      * intros V HV q Hs. eapply views_upd in HV; [|exact Et].
        destruct HV as [->|[(u & thu & _ & E & <-)|HV]]; cbn [wview] in *; auto.
        -- apply OLD; auto. left. eauto.
        -- destruct (Q2 _ HV) as [HV'| ->]; auto. apply OLD; auto. right. auto.
Qed.

(** ** Executions *)

Definition ordered h : Prop := forall i j, conflict h i j -> happens_before h i j.

Lemma ordered_prefix h l : ordered (h ++ l) -> ordered h.
Proof.
  intros H i j (Hij & t & u & x & w & w' & E1 & E2 & Hw).
  assert (j < length h) by (eapply nth_error_lt; eauto). apply (hb_old h l); auto. apply H. split; auto.
  exists t, u, x, w, w'. rewrite !nth_error_app1 by lia. auto.
Qed.

Lemma races_spec V x w : forall log n, races V x w n log = true ->
  exists d t w', nth_error log d = Some (t, x, w') /\ (w' = true \/ w = true) /\ ~ In (EData (n + d)) V.
Proof.
  induction log as [|[[t y] w'] log IH]; intros n H; cbn [races] in H; [discriminate|]. apply orb_true_iff in H. destruct H as [H|H].
  - apply andb_true_iff in H. destruct H as [H H3]. apply andb_true_iff in H. destruct H as [H1 H2]. apply Nat.eqb_eq in H1. subst y.
    exists 0, t, w'. split; [reflexivity|]. split; [apply orb_true_iff in H2; tauto|]. rewrite Nat.add_0_r. intros I. apply knows_in in I.
    unfold unseen in H3. rewrite I in H3. discriminate.
  - destruct (IH _ H) as (d & t' & w2 & E & Hw & Hn). exists (S d), t', w2. split; auto. split; auto. replace (n + S d) with (S n + d) by lia. auto.
Qed.

Lemma nth_access h : forall d t x w, nth_error (accesses h) d = Some (t, x, w) ->
  exists i, access_at h i d /\ nth_error h i = Some (DAccess t x w).
Proof.
  induction h as [|e h IH] using rev_ind; intros d t x w E; [destruct d; discriminate|].
  rewrite accesses_app in E. destruct (Nat.lt_ge_cases d (length (accesses h))) as [Hd|Hd].
  - rewrite nth_error_app1 in E by auto. destruct (IH _ _ _ _ E) as (i & Ha & Ei). exists i. pose proof (access_lt _ _ _ Ha).
    rewrite access_old, nth_error_app1 by auto. auto.
  - rewrite nth_error_app2 in E by auto. destruct e as [e|t' x' w']; cbn in E; [destruct (d - length (accesses h)); discriminate|].
    destruct (d - length (accesses h)) as [|n] eqn:En; [|destruct n; discriminate]. cbn in E. injection E as -> -> ->.
    exists (length h). assert (nth_error (h ++ [DAccess t x w]) (length h) = Some (DAccess t x w)) as EE by (rewrite nth_error_app2, Nat.sub_diag by lia; auto).
    split; auto. split; [|eauto]. rewrite firstn_old, firstn_all by lia. lia.
Qed.

Record dinv (cf : dconf A) L : Prop := {
  dv_base : binv (dbase cf) (dhistory cf) L;
  dv_log : accesses (dhistory cf) = dlog cf;
  dv_race : ordered (dhistory cf) -> draced cf = false }.

Lemma dinv_initial progs : dinv (dinitial progs) [].
Proof.
  constructor; cbn; auto. constructor; auto.
  - apply winv_initial.
  - intros a x b mv E. cbn in E. destruct a; discriminate.
  - intros t [|k]; cbn; auto.
  - intros t th E i d k (_ & t' & x & w & E') _. destruct i; discriminate.
  - intros V _ q _ i d k (_ & t' & x & w & E') _. destruct i; discriminate.
Qed.

Lemma dstep_history (cf : dconf A) ch : exists l, dhistory (dconf_step cf ch) = dhistory cf ++ l.
Proof.
  destruct ch as [t stale]. cbn [dconf_step]. destruct (nth_error (wthreads (dbase cf)) t) as [th|]; [|exists []; rewrite app_nil_r; auto].
  destruct (wcur th); [cbn; eauto|]. destruct (nth t (dtodo cf) []) as [|[a|x w] acts]; cbn; eauto. exists []. rewrite app_nil_r. auto.
Qed.

Lemma list_part_step b h ch : list_part h = whistory b ->
  list_part (h ++ map DList (skipn (length (whistory b)) (whistory (wconf_step b ch)))) = whistory (wconf_step b ch) :> list (wevent A).
Proof.
  intros H. rewrite list_part_app, list_part_map, H. destruct (whistory_step b ch) as [l ->]. rewrite skip_app. auto.
Qed.

Lemma dinv_step cf ch L : dinv cf L -> len_when_aware (list_part (dhistory (dconf_step cf ch))) ->
  exists L', dinv (dconf_step cf ch) L'.
Proof.
  intros HD HLen. pose proof HD as [H1 H2 H3]. destruct (dstep_history cf ch) as [l Hl].
  assert (LIST : forall b, list_part (dhistory cf) = whistory b -> (exists L', binv (wconf_step b ch) (dhistory (on_list cf b (wconf_step b ch) (dtodo cf))) L') ->
    forall todo, exists L', dinv (on_list cf b (wconf_step b ch) todo) L').
  { intros b Hb [L' B] todo. exists L'. constructor; cbn [on_list dbase dhistory dlog draced] in *; auto.
    - rewrite accesses_app, accesses_map, app_nil_r. auto.
    - intros Ho. apply H3. eapply ordered_prefix; eauto. }
  destruct ch as [t stale]. cbn [dconf_step] in *.
  destruct (nth_error (wthreads (dbase cf)) t) as [th|] eqn:Et; [|eauto].
  destruct (wcur th) as [cp|] eqn:Ec.
  - apply LIST; [apply (bi_hist _ _ _ H1)|]. cbn [on_list dhistory] in HLen. rewrite list_part_step in HLen by apply (bi_hist _ _ _ H1).
    eapply binv_step; eauto.
  - destruct (nth t (dtodo cf) []) as [|[a|x w] acts] eqn:Etd; [eauto| |].
    + pose proof (binv_give _ _ _ _ a _ H1 Et Ec) as B. set (b := set_thread (dbase cf) t (WThread [a] None (wview th))) in *.
      apply LIST; [apply (bi_hist _ _ _ B)|]. cbn [on_list dhistory] in HLen. rewrite list_part_step in HLen by apply (bi_hist _ _ _ B).
      eapply binv_step; eauto.
    + exists L. pose proof (binv_plain _ _ _ _ (wtodo th) x w _ H1 Et Ec) as B. rewrite H2 in B. constructor; cbn [dbase dhistory dlog draced] in *; auto.
      * rewrite accesses_app, H2. auto.
      * intros Ho. rewrite (H3 (ordered_prefix _ _ Ho)). cbn [orb]. destruct (races (wview th) x w 0 (dlog cf)) eqn:Er; auto. exfalso.
        destruct (races_spec _ _ _ _ _ Er) as (d & t' & w' & E & Hw & Hn). cbn [Nat.add] in Hn. rewrite <- H2 in E.
        destruct (nth_access _ _ _ _ _ E) as (i & Ha & Ei). pose proof (access_lt _ _ _ Ha) as Hi.
        assert (happens_before (dhistory cf ++ [DAccess t x w]) i (length (dhistory cf))) as HB.
        { apply Ho. split; auto. exists t', t, x, w', w. rewrite nth_error_app1 by auto. rewrite nth_error_app2, Nat.sub_diag by lia. auto. }
        assert (In (EData d) (EData (length (dlog cf)) :: wview th)) as [I|I]; [| |auto].
        { apply (bi_thread _ _ _ B t (WThread (wtodo th) None (EData (length (dlog cf)) :: wview th))) with i (length (dhistory cf)).
          - cbn. rewrite nth_error_upd, Nat.eqb_refl. rewrite (proj2 (Nat.ltb_lt _ _)); [auto|]. eapply nth_error_lt; eauto.
          - apply access_old; auto.
          - apply by_end. auto.
          - right. auto. }
        injection I as I. apply nth_error_lt in E. rewrite H2 in E. lia.
Qed.

Lemma dexec_history sched : forall cf : dconf A, exists l, dhistory (dexec sched cf) = dhistory cf ++ l.
Proof.
  induction sched as [|ch sched IH]; intros cf; [exists []; rewrite app_nil_r; auto|].
  cbn. destruct (IH (dconf_step cf ch)) as [l Hl]. destruct (dstep_history cf ch) as [l' Hl'].
  exists (l' ++ l). unfold dexec in Hl. rewrite Hl, Hl', app_assoc. auto.
Qed.

Lemma dinv_exec sched : forall cf L, dinv cf L -> len_when_aware (list_part (dhistory (dexec sched cf))) ->
  exists L', dinv (dexec sched cf) L'.
Proof.
  induction sched as [|ch sched IH]; intros cf L H HLen; [exists L; exact H|]. cbn in *.
  destruct (dexec_history sched (dconf_step cf ch)) as [l Hl].
  destruct (dinv_step cf ch L H) as [L1 H1]. { eapply len_when_aware_prefix. rewrite <- list_part_app, <- Hl. exact HLen. }
  apply (IH _ _ H1 HLen).
Qed.

Lemma dreachable progs sched : len_when_aware (list_part (dhistory (dexec sched (dinitial progs)))) ->
  exists L, dinv (dexec sched (dinitial (A := A) progs)) L.
Proof. intros H. exact (dinv_exec sched _ _ (dinv_initial progs) H). Qed.

(** ** Elements *)

Lemma nth_pushed h : forall q x, nth_error (wpushed (list_part h)) q = Some x ->
  exists k t r, pushes h k q /\ nth_error h k = Some (DList (WRet t (Push x) r)).
Proof.
  induction h as [|e h IH] using rev_ind; intros q x E; [destruct q; discriminate|].
  rewrite list_part_app, wpushed_app in E. destruct (Nat.lt_ge_cases q (length (wpushed (list_part h)))) as [Hq|Hq].
  - rewrite nth_error_app1 in E by auto. destruct (IH _ _ E) as (k & t & r & Hp & Ek). exists k, t, r. pose proof (pushes_lt _ _ _ Hp).
    rewrite pushes_old, nth_error_app1 by auto. auto.
  - rewrite nth_error_app2 in E by auto.
    assert (exists t r, e = DList (WRet t (Push x) r) /\ q = length (wpushed (list_part h))) as (t & r & -> & ->).
    { destruct e as [[t c|t [v|i| | |] r|t u]|]; cbn in E; try (destruct (q - _); discriminate).
      destruct (q - length (wpushed (list_part h))) as [|n] eqn:En; [|destruct n; discriminate]. cbn in E. injection E as ->. exists t, r. split; auto. lia. }
    exists (length h), t, r. assert (nth_error (h ++ [DList (WRet t (Push x) r)]) (length h) = Some (DList (WRet t (Push x) r))) as EE
      by (rewrite nth_error_app2, Nat.sub_diag by lia; auto).
    split; auto. split; [|eauto]. rewrite firstn_old, firstn_all by lia. auto.
Qed.

Lemma split_nth {T} (l : list T) i e : nth_error l i = Some e -> l = firstn i l ++ e :: skipn (S i) l.
Proof. revert i. induction l as [|y l IH]; intros [|i] E; cbn in *; try discriminate; [congruence|]. f_equal. auto. Qed.

End Proofs.
