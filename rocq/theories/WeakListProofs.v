(** Proofs about WeakListModel.v. *)
From Coq Require Import List Bool PeanoNat Lia.
From Verif Require Import Base ConcListModel ConcListSpec ConcListProofs WeakListModel WeakListSpec.
Import ListNotations.

Ltac conj := repeat match goal with |- _ /\ _ => split end.

Lemma ev_eqb_spec x y : ev_eqb x y = true <-> x = y.
Proof.
  destruct x, y; cbn; try rewrite Nat.eqb_eq; split; intros H; try discriminate; try congruence; auto.
Qed.

Lemma knows_in V e : knows V e = true <-> In e V.
Proof.
  unfold knows. rewrite existsb_exists. split.
  - intros (x & Hx & E). apply ev_eqb_spec in E. subst. auto.
  - intros H. exists e. split; auto. apply ev_eqb_spec. auto.
Qed.

(** [V] knows exactly the first [k] links of the list [L], and has seen those nodes
    initialised. *)
Record good (L : list nat) (V : view) (k : nat) : Prop := {
  g_len : k <= length L;
  g_head : In EHead V <-> 0 < k;
  g_next : forall a, In (ENext a) V <-> exists i, nth_error L i = Some a /\ S i < k;
  g_init : forall i a, i < k -> nth_error L i = Some a -> In (EInit a) V }.

Lemma good_empty L : good L [] 0.
Proof. constructor; cbn; [lia|split; [tauto|lia]| |intros; lia]. intros a. split; [tauto|]. intros (i & _ & H). lia. Qed.

Lemma nth_error_app_lt {T} (l l' : list T) i : i < length l -> nth_error (l ++ l') i = nth_error l i.
Proof. intros. apply nth_error_app1. auto. Qed.

Lemma good_grow L V k n : good L V k -> good (L ++ [n]) V k.
Proof.
  intros [H1 H2 H3 H4]. constructor; auto.
  - rewrite app_length. lia.
  - intros a. rewrite H3. split; intros (i & E & Hi); exists i; rewrite nth_error_app_lt in * by lia; auto.
  - intros i a Hi E. rewrite nth_error_app_lt in E by lia. eauto.
Qed.

Lemma good_join L V k V' k' : good L V k -> good L V' k' -> good L (V ++ V') (Nat.max k k').
Proof.
  intros [H1 H2 H3 H4] [J1 J2 J3 J4]. constructor.
  - lia.
  - rewrite in_app_iff, H2, J2. lia.
  - intros a. rewrite in_app_iff, H3, J3. split.
    + intros [(i & E & Hi)|(i & E & Hi)]; exists i; split; auto; lia.
    + intros (i & E & Hi). destruct (Nat.lt_ge_cases (S i) k); [left|right]; exists i; split; auto; lia.
  - intros i a Hi E. rewrite in_app_iff. destruct (Nat.lt_ge_cases i k); [left|right]; [eapply H4|eapply J4]; eauto. lia.
Qed.

Lemma good_same L V V' k : good L V k -> (forall e, In e V' <-> In e V) -> good L V' k.
Proof.
  intros [H1 H2 H3 H4] HS. constructor; auto.
  - rewrite HS. auto.
  - intros a. rewrite HS. auto.
  - intros i a Hi E. rewrite HS. eauto.
Qed.

Lemma good_cons L V k e : good L V k -> In e V -> good L (e :: V) k.
Proof. intros H He. eapply good_same; eauto. intros x. cbn. split; [intros [<-|]; auto|auto]. Qed.

Lemma good_add_init L V k n : good L V k -> good L (EInit n :: V) k.
Proof.
  intros [H1 H2 H3 H4]. constructor; auto.
  - cbn. split; [intros [E|E]; [discriminate|tauto]|tauto].
  - intros a. cbn. rewrite <- H3. split; [intros [E|E]; [discriminate|auto]|auto].
  - intros i a Hi E. cbn. eauto.
Qed.

Section Proofs.
Context {A : Type}.
Implicit Types (m : wmem A) (L : list nat) (vs : list A) (p : pc A) (c : call A) (V : view).

Record wlinked m L vs : Prop := {
  wl_head : option_map fst (whead m) = hd_error L;
  wl_node : forall i a, nth_error L i = Some a ->
    exists v cell, nth_error (wheap m) a = Some (WNode v cell) /\ option_map fst cell = nth_error L (S i) /\ nth_error vs i = Some v;
  wl_len : length vs = length L;
  wl_nodup : NoDup L;
  wl_msg0 : forall a mv, whead m = Some (a, mv) -> exists k, 0 < k /\ good L mv k;
  wl_msg : forall i a x b mv, nth_error L i = Some a -> nth_error (wheap m) a = Some x -> wnext x = Some (b, mv) ->
    exists k, S i < k /\ good L mv k }.

Lemma load_head_ok m L vs V k acq stale : wlinked m L vs -> good L V k -> acq = true \/ 0 < k ->
  let '(r, V') := load_at EHead (whead m) acq stale V in
  (r = None /\ V' = V /\ k = 0) \/
  exists a k', r = Some a /\ nth_error L 0 = Some a /\ good L V' k' /\ k <= k' /\ 0 < k' /\ incl V V'.
Proof.
  intros HL HG Ha. pose proof (wl_head _ _ _ HL) as Eh. unfold load_at.
  destruct (whead m) as [[a mv]|] eqn:Ec.
  - cbn in Eh. symmetry in Eh. apply hd_some in Eh.
    destruct (wl_msg0 _ _ _ HL a mv Ec) as (km & Hkm & Gm).
    destruct (stale && negb (knows V EHead)) eqn:Es.
    + left. split; auto. split; auto. apply andb_true_iff in Es. destruct Es as [_ Es]. apply negb_true_iff in Es.
      destruct (Nat.eq_dec k 0) as [|N]; auto. exfalso.
      assert (knows V EHead = true) by (apply knows_in, (g_head _ _ _ HG); lia). congruence.
    + right. exists a. destruct acq.
      * exists (Nat.max km k). conj; auto; try lia.
        -- apply good_cons; [apply good_join; auto|]. apply in_app_iff. left. apply (g_head _ _ _ Gm). auto.
        -- intros e He. right. apply in_app_iff. auto.
      * exists k. destruct Ha as [|Ha]; [discriminate|]. conj; auto; try lia.
        -- cbn [app]. apply good_cons; auto. apply (g_head _ _ _ HG). auto.
        -- intros e He. right. auto.
  - left. split; auto. split; auto. cbn in Eh. symmetry in Eh. apply hd_none in Eh. subst L.
    pose proof (g_len _ _ _ HG). cbn in *. lia.
Qed.

Lemma cell_ok m L vs V k j a x acq stale : wlinked m L vs -> good L V k -> nth_error L j = Some a -> j < k ->
  nth_error (wheap m) a = Some x -> acq = true \/ S j < k ->
  let '(r, V') := load_at (ENext a) (wnext x) acq stale V in
  (r = None /\ V' = V /\ k = S j) \/
  exists b k', r = Some b /\ nth_error L (S j) = Some b /\ good L V' k' /\ k <= k' /\ S j < k' /\ incl V V'.
Proof.
  intros HL HG Hj Hk Ex Ha. destruct (wl_node _ _ _ HL j a Hj) as (v & cell & Ex' & En & _).
  rewrite Ex in Ex'. injection Ex' as ->. cbn [wnext]. unfold load_at.
  destruct cell as [[b mv]|].
  - cbn in En. destruct (wl_msg _ _ _ HL j a _ b mv Hj Ex eq_refl) as (km & Hkm & Gm).
    destruct (stale && negb (knows V (ENext a))) eqn:Es.
    + left. split; auto. split; auto. apply andb_true_iff in Es. destruct Es as [_ Es]. apply negb_true_iff in Es.
      destruct (Nat.eq_dec k (S j)) as [|N]; auto. exfalso.
      assert (knows V (ENext a) = true) by (apply knows_in, (g_next _ _ _ HG); exists j; split; auto; lia). congruence.
    + right. exists b. destruct acq.
      * exists (Nat.max km k). conj; auto; try lia.
        -- apply good_cons; [apply good_join; auto|]. apply in_app_iff. left. apply (g_next _ _ _ Gm). eauto.
        -- intros e He. right. apply in_app_iff. auto.
      * exists k. destruct Ha as [|Ha]; [discriminate|]. conj; auto; try lia.
        -- cbn [app]. apply good_cons; auto. apply (g_next _ _ _ HG). eauto.
        -- intros e He. right. auto.
  - left. split; auto. split; auto. cbn in En. symmetry in En. pose proof (none_len _ _ _ Hj En).
    pose proof (g_len _ _ _ HG). lia.
Qed.

Lemma access_ok m L vs V k j a f : wlinked m L vs -> good L V k -> nth_error L j = Some a -> j < k ->
  exists v cell, access m V a f = f (WNode v cell) /\ nth_error (wheap m) a = Some (WNode v cell) /\
    option_map fst cell = nth_error L (S j) /\ nth_error vs j = Some v.
Proof.
  intros HL HG Hj Hk. destruct (wl_node _ _ _ HL j a Hj) as (v & cell & Ex & En & Ev).
  exists v, cell. unfold access. rewrite Ex. rewrite (proj2 (knows_in V (EInit a))); auto. eapply g_init; eauto.
Qed.

Lemma load_next_ok m L vs V k j a acq stale f : wlinked m L vs -> good L V k -> nth_error L j = Some a -> j < k ->
  acq = true \/ S j < k ->
  (wload_next m V a acq stale f = (f None, V) /\ k = S j) \/
  exists b k' V', wload_next m V a acq stale f = (f (Some b), V') /\ nth_error L (S j) = Some b /\
    good L V' k' /\ k <= k' /\ S j < k' /\ incl V V'.
Proof.
  intros HL HG Hj Hk Ha. unfold wload_next.
  destruct (access_ok m L vs V k j a (fun x => let '(r, V') := load_at (ENext a) (wnext x) acq stale V in (f r, V')) HL HG Hj Hk)
    as (v & cell & -> & Ex & _).
  pose proof (cell_ok m L vs V k j a _ acq stale HL HG Hj Hk Ex Ha) as HC.
  destruct (load_at _ _ _ _ _) as [r V']. destruct HC as [(-> & -> & E)|(b & k' & -> & E1 & E2 & E3 & E4 & E5)]; [left|right]; auto.
  exists b, k', V'. auto 10.
Qed.

Definition wpcok (k aw : nat) L vs c p : Prop :=
  match p with
  | PushNew v | PushHead v _ => c = Push v
  | TailHead q => asker_ok c q /\ 0 < k
  | TailNext q a len => asker_ok c q /\ 1 <= len <= k /\ nth_error L (len - 1) = Some a
  | TailLoad q a len => asker_ok c q /\ 1 <= len < k /\ nth_error L (len - 1) = Some a
  | PushCas v n a len | PushRetry v n a len =>
      c = Push v /\ aw <= len /\ exists j, nth_error L j = Some a /\ j < k /\ 1 <= len <= S j
  | PushReload v n a len =>
      c = Push v /\ aw <= len /\ exists j, nth_error L j = Some a /\ S j < k /\ 1 <= len <= S j
  | EmptyHead => c = IsEmpty
  | GetHead i => c = Get i
  | GetNext i a r => c = Get i /\ r <= i /\ nth_error L (i - r) = Some a /\ i - r < k
  | GetLoad i a r => c = Get i /\ S r <= i /\ nth_error L (i - S r) = Some a /\ i - r < k
  | IterAt None acc => c = IterAll /\ acc = []
  | IterAt (Some a) acc => c = IterAll /\ exists j, nth_error L j = Some a /\ j < k /\ acc = firstn (S j) vs
  | Crash => False
  end.

Lemma wpcok_grow k aw L vs c p n v : length vs = length L -> k <= length L ->
  wpcok k aw L vs c p -> wpcok k aw (L ++ [n]) (vs ++ [v]) c p.
Proof.
  intros HL Hk.
  destruct p as [?|? ?|q|q a len|q a len|? ? a len|? ? a len|? ? a len| |i|i a r|i a r|[a|] acc|]; cbn -[firstn]; auto;
    intros H;
    repeat match goal with H : _ /\ _ |- _ => destruct H | H : exists _, _ |- _ => destruct H end;
    repeat match goal with
           | |- _ /\ _ => split
           | |- exists _, _ => eexists
           | |- nth_error (_ ++ _) _ = Some _ => eapply nth_error_snoc; eassumption
           end; try assumption; try lia.
  subst acc. rewrite firstn_app. replace (S x - length vs) with 0 by lia. cbn [firstn]. rewrite app_nil_r. auto.
Qed.

Lemma wstart_ok k aw L vs c : (c = Len -> 0 < k) -> wpcok k aw L vs c (start c).
Proof. destruct c; cbn; auto. Qed.

Definition step_ok (k aw : nat) m L vs V c p (o : wout A) (m' : wmem A) (V' : view) : Prop :=
  match o with
  | WNext p' => exists k', k <= k' /\ wlinked m' L vs /\ good L V' k' /\ incl V V' /\ wpcok k' aw L vs c p' /\
      ((m' = m /\ owned p' = owned p) \/
       (exists v, whead m' = whead m /\ wheap m' = wheap m ++ [WNode v None] /\
          owned p' = Some (v, length (wheap m)) /\ In (EInit (length (wheap m))) V' /\ owned p = None))
  | WDone r =>
      (exists v n len, c = Push v /\ r = RNat (len + 1) /\ owned p = Some (v, n) /\ aw <= len <= length vs /\
         wlinked m' (L ++ [n]) (vs ++ [v]) /\ good (L ++ [n]) V' (S (length L)) /\
         (forall b, ~ In b L -> nth_error (wheap m') b = nth_error (wheap m) b) /\ length (wheap m') = length (wheap m)) \/
      (m' = m /\ ~ is_push c /\ owned p = None /\
       exists k', k <= k' /\ good L V' k' /\ seen_answer (firstn k' vs) c r)
  | WRace => False
  end.

Lemma owned_sum c q a len : asker_ok c q -> owned (match q with ForPush v n => PushCas v n a len | ForLen => TailNext q a len end)
  = owned (TailNext q a len).
Proof. destruct q; auto. Qed.

Lemma good_link L V k n j tail : good L V k -> nth_error L j = Some tail -> j < k -> length L = S j -> ~ In n L -> NoDup L ->
  In (EInit n) V -> good (L ++ [n]) (ENext tail :: V) (S (S j)).
Proof.
  intros HG Hj Hk Hl Hn ND Hi. pose proof (g_len _ _ _ HG). assert (k = S j) as -> by lia. destruct HG as [H1 H2 H3 H4].
  constructor.
  - rewrite app_length. cbn. lia.
  - cbn. split; [lia|]. intros _. right. apply H2. lia.
  - intros a. cbn. split.
    + intros [[= <-]|Ha].
      * exists j. split; [|lia]. rewrite nth_error_app_lt by lia. auto.
      * apply H3 in Ha. destruct Ha as (i & E & Hlt). exists i. split; [|lia]. rewrite nth_error_app_lt by lia. auto.
    + intros (i & E & Hlt). rewrite nth_error_app_lt in E by lia. destruct (Nat.eq_dec i j) as [->|N].
      * left. congruence.
      * right. apply H3. exists i. split; auto. lia.
  - intros i a Hi' E. right. destruct (Nat.eq_dec i (S j)) as [->|N].
    + rewrite nth_error_app2 in E by lia. rewrite Hl, Nat.sub_diag in E. cbn in E. congruence.
    + rewrite nth_error_app_lt in E by lia. apply (H4 i); auto. lia.
Qed.

Lemma wmicro_ok stale k aw m L vs V c p :
  wlinked m L vs -> good L V k -> aw <= k -> wpcok k aw L vs c p ->
  (forall v n, owned p = Some (v, n) -> nth_error (wheap m) n = Some (WNode v None) /\ ~ In n L /\ In (EInit n) V) ->
  let '(o, m', V') := wmicro stale p m V in step_ok k aw m L vs V c p o m' V'.
Proof.
  intros HL HG Haw HP HO. pose proof (g_len _ _ _ HG) as HkL.
  destruct p as [v|v n|q|q a len|q a len|v n a len|v n a len|v n a len| |i|i a r|i a r|loc acc|]; cbn [wmicro].
  - (* allocate *)
    cbn in HP. subst c. cbn [step_ok]. exists k. split; [lia|]. split.
    + destruct HL as [H1 H2 H3 H4 H5 H6]. constructor; cbn; auto.
      * intros i a E. destruct (H2 i a E) as (x & cell & E1 & E2). exists x, cell. split; auto. apply nth_error_snoc, E1.
      * intros i a x b mv E Ex Em. destruct (H2 i a E) as (y & cell & E1 & _).
        rewrite nth_error_app_lt in Ex by (eapply nth_error_lt; eauto). exact (H6 i a x b mv E Ex Em).
    + split; [apply good_add_init; auto|]. split; [intros e He; right; auto|]. split; [reflexivity|].
      right. exists v. conj; auto. left. auto.
  - (* exchange of the head *)
    cbn in HP. subst c. destruct (whead m) as [[a mv]|] eqn:Eh.
    + destruct (wl_msg0 _ _ _ HL a mv Eh) as (km & Hkm & Gm). cbn [step_ok].
      exists (Nat.max km k). split; [lia|]. split; auto. split; [|split; [|split; [split; [reflexivity|lia]|left; auto]]].
      * apply good_cons; [apply good_join; auto|]. apply in_app_iff. left. apply (g_head _ _ _ Gm). auto.
      * intros e He. right. apply in_app_iff. auto.
    + left. exists v, n, 0. destruct (HO v n eq_refl) as (Hn & Hn' & Hi).
      pose proof (wl_head _ _ _ HL) as E. rewrite Eh in E. cbn in E. symmetry in E. apply hd_none in E. subst L.
      assert (vs = []) by (pose proof (wl_len _ _ _ HL) as E; destruct vs; [reflexivity|discriminate]). subst vs.
      cbn [length] in HkL. assert (k = 0) as -> by lia.
      assert (good [n] (EHead :: V) 1) as G1.
      { destruct HG as [G1 G2 G3 G4]. constructor; cbn; auto.
        - split; auto.
        - intros b. split.
          + intros [E|E]; [discriminate|]. apply G3 in E. destruct E as (i & _ & E). lia.
          + intros (i & _ & E). lia.
        - intros [|i] b Hlt E; [|lia]. cbn in E. injection E as <-. auto. }
      cbn [app length]. conj; auto; try lia. constructor; auto.
      * intros [|i] b E; cbn in *; [|destruct i; discriminate]. injection E as <-. exists v, None. auto.
      * constructor; [cbn; tauto|constructor].
      * cbn. intros b mv [= <- <-]. exists 1. split; auto.
      * cbn [wheap]. intros [|i] b x b' mv E Ex Em; cbn in E; [|destruct i; discriminate]. injection E as <-.
        rewrite Hn in Ex. injection Ex as <-. discriminate.
  - (* relaxed load of the head *)
    cbn in HP. destruct HP as [Hq Hk].
    pose proof (load_head_ok m L vs V k false stale HL HG (or_intror Hk)) as HH.
    destruct (load_at EHead (whead m) false stale V) as [r V'].
    destruct HH as [(_ & _ & E)|(a & k' & -> & E1 & G' & H1 & H2 & HI)]; [lia|]. cbn [step_ok].
    exists k'. split; auto. split; auto. split; auto. split; auto. split; [|left; destruct q; auto].
    cbn; conj; auto; lia.
  - (* next *)
    cbn in HP. destruct HP as (Hq & Hlen & Ha).
    destruct (load_next_ok m L vs V k (len - 1) a true stale
      (fun nx => match nx with None => of_sum (tail_found q a len) | Some _ => WNext (TailLoad q a len) end) HL HG Ha ltac:(lia) (or_introl eq_refl))
      as [(-> & Ek)|(b & k' & V' & -> & E1 & G' & H1 & H2 & HI)].
    + destruct q as [v n|]; cbn [tail_found of_sum].
      * cbn [step_ok]. exists k. split; auto. split; auto. split; auto. split; [apply incl_refl|]. split; [|left; auto].
        cbn in *. split; auto. split; [lia|]. exists (len - 1). split; auto. lia.
      * cbn in Hq. subst c. right. conj; auto. exists k. split; auto. split; auto. cbn.
        rewrite firstn_length, (wl_len _ _ _ HL). lia.
    + cbn [step_ok]. exists k'. split; auto. split; auto. split; auto. split; auto. split; [|left; destruct q; auto].
      cbn; conj; auto; lia.
  - (* relaxed reload *)
    cbn in HP. destruct HP as (Hq & Hlen & Ha).
    assert (S (len - 1) < k) as HS by lia.
    destruct (load_next_ok m L vs V k (len - 1) a false stale
      (fun nx => match nx with None => WNext Crash | Some b => WNext (TailNext q b (len + 1)) end) HL HG Ha ltac:(lia) (or_intror HS))
      as [(-> & Ek)|(b & k' & V' & -> & E1 & G' & H1 & H2 & HI)]; [lia|].
    cbn [step_ok]. exists k'. split; auto. split; auto. split; auto. split; auto. split; [|left; destruct q; auto].
    cbn. split; auto. split; [lia|]. replace (len + 1 - 1) with (S (len - 1)) by lia. auto.
  - (* exchange of next *)
    cbn in HP. destruct HP as (-> & Hl & j & Ha & Hj & Hlen).
    destruct (wl_node _ _ _ HL j a Ha) as (x & cell & Ex & En & Ev). rewrite Ex.
    rewrite (proj2 (knows_in V (EInit a))) by (eapply g_init; eauto). cbn [wnext wval].
    destruct cell as [[b mv]|].
    + destruct (wl_msg _ _ _ HL j a _ b mv Ha Ex eq_refl) as (km & Hkm & Gm). cbn [step_ok].
      exists (Nat.max km k). split; [lia|]. split; auto. split; [|split; [|split; [|left; auto]]].
      * apply good_cons; [apply good_join; auto|]. apply in_app_iff. left. apply (g_next _ _ _ Gm). eauto.
      * intros e He. right. apply in_app_iff. auto.
      * cbn. split; auto. split; auto. exists j. split; auto. split; [lia|]. lia.
    + cbn in En. symmetry in En. pose proof (none_len _ _ _ Ha En) as Hll.
      destruct (HO v n eq_refl) as (Hn & Hn' & Hi).
      assert (In a L) as HaL by (eapply nth_error_In; eauto).
      assert (a <> n) as Hneq by (intros ->; auto).
      pose proof (good_link L V k n j a HG Ha Hj Hll Hn' (wl_nodup _ _ _ HL) Hi) as GL.
      left. exists v, n, len. split; auto. split; auto. split; auto. split; [pose proof (wl_len _ _ _ HL); lia|].
      assert (forall b, b <> a -> nth_error (upd (wheap m) a (WNode x (Some (n, ENext a :: V)))) b = nth_error (wheap m) b) as HU.
      { intros b Hb. rewrite nth_error_upd. destruct (Nat.eqb_spec a b); congruence. }
      assert (nth_error (upd (wheap m) a (WNode x (Some (n, ENext a :: V)))) a = Some (WNode x (Some (n, ENext a :: V)))) as HU'.
      { rewrite nth_error_upd, Nat.eqb_refl. assert (a < length (wheap m)) as Hlt by (eapply nth_error_lt; eauto).
        apply Nat.ltb_lt in Hlt. rewrite Hlt. auto. }
      split; [|split].
      * destruct HL as [H1 H2 H3 H4 H5 H6]. constructor; cbn [whead wheap].
        -- rewrite H1. destruct L; [destruct j; discriminate|reflexivity].
        -- intros i b E. destruct (Nat.eq_dec i (S j)) as [->|N].
           ++ rewrite nth_error_app2 in E by lia. rewrite Hll, Nat.sub_diag in E. cbn in E. injection E as <-.
              exists v, None. rewrite HU by auto. split; auto. split.
              ** cbn [option_map]. symmetry. apply nth_error_None. rewrite app_length. cbn. lia.
              ** rewrite nth_error_app2 by lia. rewrite H3, Hll, Nat.sub_diag. reflexivity.
           ++ assert (i < length L) as Hlt by (apply nth_error_lt in E; rewrite app_length in E; cbn in E; lia).
              rewrite nth_error_app_lt in E by auto. destruct (Nat.eq_dec i j) as [->|N2].
              ** assert (b = a) as -> by congruence. exists x. eexists. split; [exact HU'|]. split.
                 --- cbn [option_map fst]. rewrite nth_error_app2 by lia. rewrite Hll, Nat.sub_diag. reflexivity.
                 --- rewrite nth_error_app_lt by lia. auto.
              ** destruct (H2 i b E) as (y & cell & E1 & E2 & E3). exists y, cell. rewrite HU.
                 --- split; auto. split; [rewrite nth_error_app_lt by lia; auto|]. rewrite nth_error_app_lt by lia. auto.
                 --- intros ->. apply N2. apply (proj1 (NoDup_nth_error L) H4); [lia|congruence].
        -- rewrite !app_length. cbn. lia.
        -- apply NoDup_rev in H4. rewrite <- (rev_involutive (L ++ [n])), rev_app_distr. apply NoDup_rev. cbn. constructor; auto.
           rewrite <- in_rev. auto.
        -- intros b mv E. destruct (H5 b mv E) as (k0 & Hk0 & G0). exists k0. split; auto. apply good_grow; auto.
        -- intros i b y b' mv E Ey Em. destruct (Nat.eq_dec i (S j)) as [->|N].
           ++ rewrite nth_error_app2 in E by lia. rewrite Hll, Nat.sub_diag in E. cbn in E. injection E as <-.
              rewrite HU, Hn in Ey by auto. injection Ey as <-. discriminate.
           ++ assert (i < length L) as Hlt by (apply nth_error_lt in E; rewrite app_length in E; cbn in E; lia).
              rewrite nth_error_app_lt in E by auto. destruct (Nat.eq_dec b a) as [->|N2].
              ** rewrite HU' in Ey. injection Ey as <-. cbn in Em. injection Em as <- <-.
                 exists (S (S j)). split; auto. assert (i = j) as -> by (apply (proj1 (NoDup_nth_error L) H4); [lia|congruence]). lia.
              ** rewrite HU in Ey by auto. destruct (H6 i b y b' mv E Ey Em) as (k0 & Hk0 & G0). exists k0. split; auto.
                 apply good_grow; auto.
      * rewrite Hll. auto.
      * split; [|apply length_upd]. intros b Hb. cbn [wheap]. apply HU. intros ->. auto.
  - (* retry *)
    cbn in HP. destruct HP as (-> & Hl & j & Ha & Hj & Hlen).
    destruct (load_next_ok m L vs V k j a true stale
      (fun nx => match nx with None => WNext (PushCas v n a len) | Some _ => WNext (PushReload v n a len) end) HL HG Ha Hj (or_introl eq_refl))
      as [(-> & Ek)|(b & k' & V' & -> & E1 & G' & H1 & H2 & HI)]; cbn [step_ok].
    + exists k. split; auto. split; auto. split; auto. split; [apply incl_refl|]. split; [|left; auto].
      cbn. split; auto. split; auto. exists j. auto.
    + exists k'. split; auto. split; auto. split; auto. split; auto. split; [|left; auto].
      cbn. split; auto. split; auto. exists j. auto.
  - (* reload *)
    cbn in HP. destruct HP as (-> & Hl & j & Ha & Hj & Hlen).
    destruct (load_next_ok m L vs V k j a false stale
      (fun nx => match nx with None => WNext Crash | Some b => WNext (PushCas v n b len) end) HL HG Ha ltac:(lia) (or_intror Hj))
      as [(-> & Ek)|(b & k' & V' & -> & E1 & G' & H1 & H2 & HI)]; [lia|]. cbn [step_ok].
    exists k'. split; auto. split; auto. split; auto. split; auto. split; [|left; auto].
    cbn. split; auto. split; auto. exists (S j). split; auto. lia.
  - (* is_empty *)
    cbn in HP. subst c. pose proof (load_head_ok m L vs V k true stale HL HG (or_introl eq_refl)) as HH.
    destruct (load_at EHead (whead m) true stale V) as [r V'].
    destruct HH as [(-> & -> & ->)|(a & k' & -> & E1 & G' & H1 & H2 & HI)]; right; conj; auto.
    + exists 0. conj; cbn; auto; split; auto.
    + exists k'. split; auto. split; auto. cbn. split; [discriminate|]. intros E. exfalso.
      assert (length (firstn k' vs) = 0) as E0 by (rewrite E; auto). rewrite firstn_length, (wl_len _ _ _ HL) in E0.
      apply nth_error_lt in E1. lia.
  - (* get, head *)
    cbn in HP. subst c. pose proof (load_head_ok m L vs V k true stale HL HG (or_introl eq_refl)) as HH.
    destruct (load_at EHead (whead m) true stale V) as [r V'].
    destruct HH as [(-> & -> & ->)|(a & k' & -> & E1 & G' & H1 & H2 & HI)].
    + right. conj; auto. exists 0. split; auto. split; auto. cbn. destruct i; auto.
    + cbn [step_ok]. exists k'. split; auto. split; auto. split; auto. split; auto. split; [|left; auto].
      cbn. rewrite Nat.sub_diag. auto.
  - (* get, next *)
    cbn in HP. destruct HP as (-> & Hr & Ha & Hk). destruct r as [|r].
    + rewrite Nat.sub_0_r in *.
      destruct (access_ok m L vs V k i a (fun x => (WDone (ROpt (Some (wval x))), V)) HL HG Ha Hk) as (v & cell & -> & Ex & En & Ev).
      right. conj; auto. exists k. split; auto. split; auto. cbn. rewrite <- Ev.
      rewrite <- (firstn_skipn k vs) at 1. rewrite nth_error_app_lt; auto. rewrite firstn_length.
      apply nth_error_lt in Ev. lia.
    + destruct (load_next_ok m L vs V k (i - S r) a true stale
        (fun nx => match nx with None => WDone (ROpt None) | Some _ => WNext (GetLoad i a r) end) HL HG Ha Hk (or_introl eq_refl))
        as [(-> & Ek)|(b & k' & V' & -> & E1 & G' & H1 & H2 & HI)].
      * right. conj; auto. exists k. split; auto. split; auto. cbn. symmetry. apply nth_error_None.
        rewrite firstn_length. lia.
      * cbn [step_ok]. exists k'. split; auto. split; auto. split; auto. split; auto. split; [|left; auto].
        cbn. split; auto. split; auto. split; auto. lia.
  - (* get, reload *)
    cbn in HP. destruct HP as (-> & Hr & Ha & Hk).
    assert (S (i - S r) < k) as HS by lia.
    destruct (load_next_ok m L vs V k (i - S r) a false stale
      (fun nx => match nx with None => WNext Crash | Some b => WNext (GetNext i b r) end) HL HG Ha ltac:(lia) (or_intror HS))
      as [(-> & Ek)|(b & k' & V' & -> & E1 & G' & H1 & H2 & HI)]; [lia|]. cbn [step_ok].
    exists k'. split; auto. split; auto. split; auto. split; auto. split; [|left; auto].
    cbn. split; auto. split; [lia|]. replace (S (i - S r)) with (i - r) in * by lia. auto.
  - (* iteration *)
    destruct loc as [a|]; cbn -[firstn] in HP.
    + destruct HP as (-> & j & Ha & Hj & ->).
      match goal with |- context [access m V a ?f] => 
        destruct (access_ok m L vs V k j a f HL HG Ha Hj) as (x & cell & -> & Ex & En & Ev) end.
      pose proof (cell_ok m L vs V k j a _ true stale HL HG Ha Hj Ex (or_introl eq_refl)) as HC.
      destruct (load_at (ENext a) (wnext (WNode x cell)) true stale V) as [r V'].
      destruct HC as [(-> & -> & Ek)|(b & k' & -> & E1 & G' & H1 & H2 & HI)].
      * right. conj; auto. exists k. split; auto. split; auto. unfold seen_answer. subst k. reflexivity.
      * match goal with |- context [access m V' b ?f] => 
          destruct (access_ok m L vs V' k' (S j) b f HL G' E1 H2) as (y & cell' & -> & Ey & _ & Eyv) end.
        cbn [step_ok]. exists k'. split; auto. split; auto. split; auto. split; auto. split; [|left; auto].
        cbn [wpcok]. split; auto. exists (S j). split; auto. split; auto. cbn [wval]. rewrite (firstn_snoc vs (S j) y); auto.
    + destruct HP as (-> & ->).
      pose proof (load_head_ok m L vs V k true stale HL HG (or_introl eq_refl)) as HH.
      destruct (load_at EHead (whead m) true stale V) as [r V'].
      destruct HH as [(-> & -> & ->)|(b & k' & -> & E1 & G' & H1 & H2 & HI)].
      * right. conj; auto. exists 0. split; auto. split; auto. reflexivity.
      * match goal with |- context [access m V' b ?f] => 
          destruct (access_ok m L vs V' k' 0 b f HL G' E1 H2) as (y & cell' & -> & Ey & _ & Eyv) end.
        cbn [step_ok]. exists k'. split; auto. split; auto. split; auto. split; auto. split; [|left; auto].
        cbn [wpcok]. split; auto. exists 0. split; auto. split; auto. cbn [wval app]. rewrite (firstn_snoc vs 0 y); auto.
  - destruct HP.
Qed.

(** ** Histories *)

Definition wthread_of (e : wevent A) : nat := match e with WInv t _ => t | WRet t _ _ => t | WSynced t _ => t end.

Lemma wpushed_app (h1 h2 : list (wevent A)) : wpushed (h1 ++ h2) = wpushed h1 ++ wpushed h2.
Proof. unfold wpushed. apply flat_map_app. Qed.

Lemma aware_from_snoc (h : list (wevent A)) e : forall aw len,
  aware_from aw len (h ++ [e]) = learn (aware_from aw len h) (len + length (wpushed h)) e.
Proof.
  induction h as [|x h IH]; intros aw len; cbn [app aware_from].
  - cbn [wpushed flat_map length]. rewrite Nat.add_0_r. auto.
  - rewrite IH. change (x :: h) with ([x] ++ h). rewrite wpushed_app, app_length, Nat.add_assoc. auto.
Qed.

Lemma aware_snoc (h : list (wevent A)) e t : aware (h ++ [e]) t = learn (aware h) (length (wpushed h)) e t.
Proof. unfold aware. rewrite aware_from_snoc. auto. Qed.

Lemma learn_other aw len (e : wevent A) t : wthread_of e <> t -> learn aw len e t = aw t.
Proof.
  intros H. destruct e as [u c|u c r|u u']; cbn in *; auto.
  - destruct c, r as [|[]| |[]]; auto; destruct (Nat.eqb_spec t u); congruence.
  - destruct (Nat.eqb_spec t u); congruence.
Qed.

Definition weak_ok (h : list (wevent A)) : Prop :=
  forall h1 t c r h2, h = h1 ++ WRet t c r :: h2 ->
  exists k, aware h1 t <= k <= length (wpushed h1) /\ seen_answer (firstn k (wpushed h1)) c r.

Lemma weak_ok_snoc h e : weak_ok h -> (forall t c r, e <> WRet t c r) -> weak_ok (h ++ [e]).
Proof.
  intros H He h1 t c r h2 E. destruct (snoc_split _ _ _ _ _ E) as [(_ & _ & E')|(h3 & _ & E')].
  - elim (He t c r). auto.
  - exact (H _ _ _ _ _ E').
Qed.

Lemma weak_ok_ret h t c r k : weak_ok h -> aware h t <= k <= length (wpushed h) ->
  seen_answer (firstn k (wpushed h)) c r -> weak_ok (h ++ [WRet t c r]).
Proof.
  intros H Hk Ha h1 t' c' r' h2 E. destruct (snoc_split _ _ _ _ _ E) as [(_ & -> & E')|(h3 & _ & E')].
  - injection E' as -> -> ->. exists k. auto.
  - exact (H _ _ _ _ _ E').
Qed.

Lemma learned_le aw len t c r k vs : ~ is_push c -> seen_answer (firstn k vs) c r -> aw t <= k ->
  learn aw len (WRet t c r) t <= k.
Proof.
  intros Hc Ha Hk. destruct c; cbn in Hc; try tauto; destruct r as [n|o|l|b]; cbn in Ha; try contradiction; cbn; auto.
  - destruct o as [x|]; auto. rewrite Nat.eqb_refl. symmetry in Ha. apply nth_error_lt in Ha. rewrite firstn_length in Ha. lia.
  - rewrite Nat.eqb_refl. subst l. rewrite firstn_length. lia.
  - destruct b; auto. rewrite Nat.eqb_refl. destruct k; [|lia]. cbn in Ha. destruct Ha as [_ Ha]. discriminate (Ha eq_refl).
Qed.

Lemma wpushed_snoc_other h t c r : ~ is_push c -> wpushed (h ++ [WRet t c r]) = wpushed h :> list A.
Proof. intros H. rewrite wpushed_app. destruct c; cbn in *; try tauto; apply app_nil_r. Qed.

(** ** Configurations *)

Record winv (cf : wconf A) L : Prop := {
  wi_linked : wlinked (wmemory cf) L (wpushed (whistory cf));
  wi_none : forall t, nth_error (wthreads cf) t = None -> aware (whistory cf) t = 0;
  wi_th : forall t th, nth_error (wthreads cf) t = Some th ->
    exists k, good L (wview th) k /\ aware (whistory cf) t <= k /\
    forall c p, wcur th = Some (c, p) -> wpcok k (aware (whistory cf) t) L (wpushed (whistory cf)) c p;
  wi_owned : forall t th c p v n, nth_error (wthreads cf) t = Some th -> wcur th = Some (c, p) -> owned p = Some (v, n) ->
    nth_error (wheap (wmemory cf)) n = Some (WNode v None) /\ ~ In n L /\ In (EInit n) (wview th) /\
    forall t' th' c' p' v', nth_error (wthreads cf) t' = Some th' -> wcur th' = Some (c', p') ->
      owned p' = Some (v', n) -> t' = t;
  wi_hist : weak_ok (whistory cf);
  wi_race : raced cf = false }.

Lemma winv_initial progs : winv (winitial progs) [].
Proof.
  constructor; cbn; auto.
  - constructor; cbn; auto; try discriminate.
    + intros [|i]; discriminate.
    + constructor.
    + intros [|i]; discriminate.
  - intros t th E. rewrite nth_error_map in E. destruct (nth_error progs t); [|discriminate].
    injection E as <-. exists 0. split; [apply good_empty|]. split; [auto|]. discriminate.
  - intros t th c p v n E. rewrite nth_error_map in E. destruct (nth_error progs t); [|discriminate].
    injection E as <-. discriminate.
  - intros h1 t c r h2 E. destruct h1; discriminate.
Qed.

Lemma upd_none {T} (l : list T) i v j : nth_error (upd l i v) j = None -> nth_error l j = None.
Proof. rewrite !nth_error_None, length_upd. auto. Qed.

Lemma winv_step cf choice L : winv cf L -> len_when_aware (whistory (wconf_step cf choice)) ->
  exists L', winv (wconf_step cf choice) (L ++ L').
Proof.
  intros HI. destruct choice as [t stale]. unfold wconf_step.
  destruct (nth_error (wthreads cf) t) as [th|] eqn:Et; [|exists []; rewrite app_nil_r; exact HI].
  destruct (wcur th) as [[c p]|] eqn:Ec.
  2: { destruct (wtodo th) as [|[c|u] cs] eqn:Etd; intros HLen; exists []; rewrite app_nil_r; auto.
    - (* a call *)
      destruct HI as [H1 H2 H3 H4 H5 H6]. constructor; cbn [wmemory wthreads whistory raced] in *; auto.
      + rewrite wpushed_app. cbn. rewrite app_nil_r. auto.
      + intros t' E. rewrite aware_snoc. cbn. apply H2. eapply upd_none; eauto.
      + intros t' th' E. rewrite aware_snoc. cbn [learn]. rewrite wpushed_app. cbn [wpushed flat_map]. rewrite app_nil_r.
        apply nth_upd_cases in E. destruct E as [[-> ->]|[Hne E]]; [|apply H3; auto].
        destruct (H3 t th Et) as (k & G & Hk & _). exists k. cbn [wview wcur]. split; auto. split; auto.
        intros c' p' [= <- <-]. apply wstart_ok. intros ->. specialize (HLen (whistory cf) t []). 
        pose proof (HLen eq_refl). lia.
      + intros t' th' c' p' v n E Ec' Eo. apply nth_upd_cases in E. destruct E as [[-> ->]|[Hne E]].
        * cbn in Ec'. injection Ec' as <- <-. destruct c; discriminate.
        * destruct (H4 _ _ _ _ _ _ E Ec' Eo) as (K1 & K2 & K3 & K4). conj; auto.
          intros t2 th2 c2 p2 v2 E2 Ec2 Eo2. apply nth_upd_cases in E2. destruct E2 as [[-> ->]|[Hne2 E2]].
          -- cbn in Ec2. injection Ec2 as <- <-. destruct c; discriminate.
          -- eapply K4; eauto.
      + apply weak_ok_snoc; auto. discriminate.
    - (* synchronisation *)
      destruct HI as [H1 H2 H3 H4 H5 H6]. constructor; cbn [wmemory wthreads whistory raced] in *; auto.
      + rewrite wpushed_app. cbn. rewrite app_nil_r. auto.
      + intros t' E. rewrite aware_snoc, learn_other; [apply H2; eapply upd_none; eauto|]. cbn. intros ->.
        apply upd_none in E. congruence.
      + intros t' th' E. rewrite aware_snoc. rewrite wpushed_app. cbn [wpushed flat_map]. rewrite app_nil_r.
        apply nth_upd_cases in E. destruct E as [[-> ->]|[Hne E]].
        * destruct (H3 t th Et) as (k & G & Hk & _). cbn [learn wview wcur]. rewrite Nat.eqb_refl.
          assert (exists ku, good L (view_of cf u) ku /\ aware (whistory cf) u <= ku) as (ku & Gu & Hu).
          { unfold view_of. destruct (nth_error (wthreads cf) u) as [thu|] eqn:Eu.
            - destruct (H3 u thu Eu) as (ku & G' & Hk' & _). eauto.
            - exists 0. split; [apply good_empty|]. rewrite (H2 u Eu). auto. }
          exists (Nat.max ku k). split; [apply good_join; auto|]. split; [lia|]. discriminate.
        * rewrite learn_other by (cbn; auto). apply H3; auto.
      + intros t' th' c' p' v n E Ec' Eo. apply nth_upd_cases in E. destruct E as [[-> ->]|[Hne E]]; [discriminate|].
        destruct (H4 _ _ _ _ _ _ E Ec' Eo) as (K1 & K2 & K3 & K4). conj; auto.
        intros t2 th2 c2 p2 v2 E2 Ec2 Eo2. apply nth_upd_cases in E2. destruct E2 as [[-> ->]|[Hne2 E2]]; [discriminate|].
        eapply K4; eauto.
      + apply weak_ok_snoc; auto. discriminate. }
  intros _. destruct HI as [H1 H2 H3 H4 H5 H6]. destruct (H3 t th Et) as (k & G & Haw & Hp). specialize (Hp c p Ec).
  assert (HO : forall v n, owned p = Some (v, n) ->
     nth_error (wheap (wmemory cf)) n = Some (WNode v None) /\ ~ In n L /\ In (EInit n) (wview th))
    by (intros v n E; destruct (H4 _ _ _ _ _ _ Et Ec E) as (K1 & K2 & K3 & _); auto).
  pose proof (wmicro_ok stale k _ _ _ _ _ _ _ H1 G Haw Hp HO) as HM.
  destruct (wmicro stale p (wmemory cf) (wview th)) as [[[p'|r|] m'] V'].
  - (* inside a call *)
    cbn [step_ok] in HM. destruct HM as (k' & Hk' & M1 & G' & HV & Hp' & M3).
    exists []. rewrite !app_nil_r. constructor; cbn [wmemory wthreads whistory raced]; auto.
    + intros t' E. apply H2. eapply upd_none; eauto.
    + intros t' th' E. apply nth_upd_cases in E. destruct E as [[-> ->]|[Hne E]]; [|apply H3; auto].
      exists k'. cbn [wview wcur]. split; auto. split; [lia|]. intros c' q [= <- <-]. auto.
    + assert (HF : forall n x, nth_error (wheap (wmemory cf)) n = Some x -> nth_error (wheap m') n = Some x).
      { intros n x E. destruct M3 as [[-> _]|(v & _ & -> & _)]; [exact E|]. apply nth_error_snoc, E. }
      intros t' th' c' q v n E Ec' Eo. apply nth_upd_cases in E. destruct E as [[-> ->]|[Hne E]].
      * cbn in Ec'. injection Ec' as <- <-. destruct M3 as [[-> Eq]|(v' & _ & Eh & Eq & HiV & _)].
        -- rewrite Eq in Eo. destruct (H4 _ _ _ _ _ _ Et Ec Eo) as (K1 & K2 & K3 & K4).
           split; [exact K1|]. split; [exact K2|]. split; [apply HV, K3|].
           intros t2 th2 c2 p2 v2 E2 Ec2 Eo2. apply nth_upd_cases in E2. destruct E2 as [[-> ->]|[Hne2 E2]]; [reflexivity|].
           eapply K4; eauto.
        -- rewrite Eo in Eq. injection Eq as -> ->. split; [rewrite Eh; apply nth_error_last|]. split; [|split; [exact HiV|]].
           ++ intros Hn. apply In_nth_error in Hn. destruct Hn as [i Hi].
              destruct (wl_node _ _ _ H1 _ _ Hi) as (x & cell & Ex & _). apply nth_error_lt in Ex. lia.
           ++ intros t2 th2 c2 p2 v2 E2 Ec2 Eo2. apply nth_upd_cases in E2. destruct E2 as [[-> ->]|[Hne2 E2]]; [reflexivity|].
              destruct (H4 _ _ _ _ _ _ E2 Ec2 Eo2) as (K1 & _). apply nth_error_lt in K1. lia.
      * destruct (H4 _ _ _ _ _ _ E Ec' Eo) as (K1 & K2 & K3 & K4). split; [apply HF, K1|]. split; [exact K2|]. split; [exact K3|].
        intros t2 th2 c2 p2 v2 E2 Ec2 Eo2. apply nth_upd_cases in E2. destruct E2 as [[-> ->]|[Hne2 E2]].
        -- cbn in Ec2. injection Ec2 as <- <-. destruct M3 as [[_ Eq]|(v' & _ & Eh & Eq & _)].
           ++ rewrite Eq in Eo2. eapply K4; eauto.
           ++ rewrite Eo2 in Eq. injection Eq as -> ->. apply nth_error_lt in K1. lia.
        -- eapply K4; eauto.
  - (* a return *)
    cbn [step_ok] in HM.
    destruct HM as [(v & n & len & -> & -> & Eo & Hlen & M1 & G' & M3 & _)|(-> & M1 & Eo & k' & Hk' & G' & Ha)].
    + exists [n]. destruct (H4 _ _ _ _ _ _ Et Ec Eo) as (_ & _ & _ & K4).
      assert (EP : wpushed (whistory cf ++ [WRet t (Push v) (RNat (len + 1))]) = wpushed (whistory cf) ++ [v])
        by (rewrite wpushed_app; reflexivity).
      constructor; cbn [wmemory wthreads whistory raced]; auto.
      * rewrite EP. exact M1.
      * intros t' E. rewrite aware_snoc, learn_other; [apply H2; eapply upd_none; eauto|]. cbn. intros ->.
        apply upd_none in E. congruence.
      * intros t' th' E. rewrite aware_snoc, EP. apply nth_upd_cases in E. destruct E as [[-> ->]|[Hne E]].
        -- exists (S (length L)). cbn [wview wcur learn]. rewrite Nat.eqb_refl. split; auto. split; [|discriminate].
           rewrite (wl_len _ _ _ H1). pose proof (g_len _ _ _ G). lia.
        -- rewrite learn_other by (cbn; auto). destruct (H3 t' th' E) as (k0 & G0 & Ha0 & Hp0).
           exists k0. split; [apply good_grow; auto|]. split; auto. intros c' q Eq.
           apply wpcok_grow; [apply (wl_len _ _ _ H1)|apply (g_len _ _ _ G0)|auto].
      * intros t' th' c' q w b E Ec' Eo'. apply nth_upd_cases in E. destruct E as [[-> ->]|[Hne E]]; [discriminate|].
        destruct (H4 _ _ _ _ _ _ E Ec' Eo') as (J1 & J2 & J3 & J4). split; [rewrite M3; assumption|]. split; [|split; auto].
        -- rewrite in_app_iff. intros [Hb|[Hb|[]]]; [auto|]. subst b. elim Hne. eapply K4; eauto.
        -- intros t2 th2 c2 p2 v2 E2 Ec2 Eo2. apply nth_upd_cases in E2. destruct E2 as [[-> ->]|[Hne2 E2]]; [discriminate|].
           eapply J4; eauto.
      * apply (weak_ok_ret _ _ _ _ len); auto. cbn. rewrite firstn_length. lia.
    + exists []. rewrite app_nil_r. constructor; cbn [wmemory wthreads whistory raced]; auto.
      * rewrite wpushed_snoc_other by exact M1. exact H1.
      * intros t' E. rewrite aware_snoc, learn_other; [apply H2; eapply upd_none; eauto|]. cbn. intros ->.
        apply upd_none in E. congruence.
      * intros t' th' E. rewrite aware_snoc, wpushed_snoc_other by exact M1.
        apply nth_upd_cases in E. destruct E as [[-> ->]|[Hne E]].
        -- exists k'. cbn [wview wcur]. split; auto. split; [|discriminate].
           eapply learned_le; eauto. lia.
        -- rewrite learn_other by (cbn; auto). apply H3; auto.
      * intros t' th' c' q w b E Ec' Eo'. apply nth_upd_cases in E. destruct E as [[-> ->]|[Hne E]]; [discriminate|].
        destruct (H4 _ _ _ _ _ _ E Ec' Eo') as (J1 & J2 & J3 & J4). split; [exact J1|]. split; [exact J2|]. split; [exact J3|].
        intros t2 th2 c2 p2 v2 E2 Ec2 Eo2. apply nth_upd_cases in E2. destruct E2 as [[-> ->]|[Hne2 E2]]; [discriminate|].
        eapply J4; eauto.
      * apply (weak_ok_ret _ _ _ _ k'); auto. split; [lia|]. rewrite (wl_len _ _ _ H1). apply (g_len _ _ _ G').
  - destruct HM.
Qed.

Lemma whistory_step (cf : wconf A) ch : exists h, whistory (wconf_step cf ch) = whistory cf ++ h.
Proof.
  destruct ch as [t stale]. unfold wconf_step. destruct (nth_error (wthreads cf) t) as [th|]; [|exists []; rewrite app_nil_r; auto].
  destruct (wcur th) as [[c p]|].
  - destruct (wmicro stale p (wmemory cf) (wview th)) as [[[p'|r|] m'] V']; cbn; eauto; exists []; rewrite app_nil_r; auto.
  - destruct (wtodo th) as [|[c|u] l]; cbn; eauto. exists []. rewrite app_nil_r. auto.
Qed.

Lemma whistory_grows sched : forall cf : wconf A, exists h, whistory (wexec sched cf) = whistory cf ++ h.
Proof.
  induction sched as [|t sched IH]; intros cf; [exists []; rewrite app_nil_r; auto|].
  cbn. destruct (IH (wconf_step cf t)) as [h Hh]. destruct (whistory_step cf t) as [h' Hh'].
  exists (h' ++ h). unfold wexec in Hh. rewrite Hh, Hh', app_assoc. auto.
Qed.

Lemma len_when_aware_prefix h h' : len_when_aware (A := A) (h ++ h') -> len_when_aware h.
Proof. intros H h1 t h2 ->. apply (H h1 t (h2 ++ h')). rewrite <- app_assoc. auto. Qed.

Lemma winv_exec sched : forall cf L, winv cf L -> len_when_aware (whistory (wexec sched cf)) ->
  exists L', winv (wexec sched cf) (L ++ L').
Proof.
  induction sched as [|t sched IH]; intros cf L H HLen.
  - exists []. rewrite app_nil_r. exact H.
  - cbn in *. destruct (whistory_grows sched (wconf_step cf t)) as [h Hh].
    destruct (winv_step cf t L H) as [L1 H1]. { eapply len_when_aware_prefix. rewrite <- Hh. exact HLen. }
    destruct (IH _ _ H1 HLen) as [L2 H2]. exists (L1 ++ L2). rewrite app_assoc. exact H2.
Qed.

Lemma wreachable progs sched : len_when_aware (whistory (wexec sched (winitial progs))) ->
  exists L, winv (wexec sched (winitial (A := A) progs)) L.
Proof. intros H. destruct (winv_exec sched _ _ (winv_initial progs) H) as [L HL]. exists L. exact HL. Qed.

Lemma wwalk_linked m L vs : wlinked m L vs -> forall k f, k <= length L -> length L - k <= f ->
  wwalk (wheap m) f (nth_error L k) = Some (skipn k vs).
Proof.
  intros HL k f. revert k. induction f as [|f IH]; intros k Hk Hf.
  - assert (k = length L) as -> by lia. destruct (nth_error L (length L)) eqn:E; [apply nth_error_lt in E; lia|].
    cbn. rewrite <- (wl_len _ _ _ HL), skipn_all. auto.
  - destruct (nth_error L k) as [a|] eqn:E.
    + destruct (wl_node _ _ _ HL k a E) as (v & cell & Ex & En & Ev). cbn [wwalk]. rewrite Ex. cbn [wval wnext]. rewrite En.
      rewrite IH by (apply nth_error_lt in E; lia). cbn. f_equal.
      clear -Ev. revert k Ev. induction vs as [|x vs IH]; intros [|k] Ev; cbn in *; try discriminate; try congruence. auto.
    + apply nth_error_None in E. assert (k = length L) as -> by lia. cbn. rewrite <- (wl_len _ _ _ HL), skipn_all. auto.
Qed.

Lemma wcontents_linked m L vs : wlinked m L vs -> wcontents m = Some vs.
Proof.
  intros HL. unfold wcontents. rewrite (wl_head _ _ _ HL).
  assert (hd_error L = nth_error L 0) as -> by (destruct L; auto).
  apply (wwalk_linked m L vs HL 0); try lia. rewrite Nat.sub_0_r.
  rewrite <- (seq_length (length (wheap m)) 0). apply NoDup_incl_length; [apply (wl_nodup _ _ _ HL)|].
  intros a Ha. apply In_nth_error in Ha. destruct Ha as [i Hi]. destruct (wl_node _ _ _ HL i a Hi) as (v & cell & Ex & _).
  apply nth_error_lt in Ex. apply in_seq. lia.
Qed.

(** ** Every allocated node is in the list or belongs to a running push *)

Definition wown (th : wthread A) : nat :=
  match wcur th with Some (_, p) => match owned p with Some _ => 1 | None => 0 end | None => 0 end.
Fixpoint wowners (l : list (wthread A)) : nat := match l with [] => 0 | th :: l' => wown th + wowners l' end.

Lemma wowners_upd (l : list (wthread A)) t th th' : nth_error l t = Some th ->
  wowners (upd l t th') + wown th = wowners l + wown th'.
Proof.
  revert t. induction l as [|x l IH]; intros [|t] E; cbn [upd wowners nth_error] in *; try discriminate.
  - injection E as ->. lia.
  - specialize (IH _ E). lia.
Qed.

Definition wcounted (cf : wconf A) : Prop :=
  length (wheap (wmemory cf)) = length (wpushed (whistory cf)) + wowners (wthreads cf).

Lemma wcounted_step cf ch L : winv cf L -> wcounted cf -> wcounted (wconf_step cf ch).
Proof.
  intros HI HC. unfold wcounted in *. destruct ch as [t stale]. unfold wconf_step.
  destruct (nth_error (wthreads cf) t) as [th|] eqn:Et; auto.
  destruct (wcur th) as [[c p]|] eqn:Ec.
  - destruct HI as [H1 H2 H3 H4 H5 H6]. destruct (H3 t th Et) as (k & G & Haw & Hp). specialize (Hp c p Ec).
    assert (HO : forall v n, owned p = Some (v, n) ->
       nth_error (wheap (wmemory cf)) n = Some (WNode v None) /\ ~ In n L /\ In (EInit n) (wview th))
      by (intros v n E; destruct (H4 _ _ _ _ _ _ Et Ec E) as (K1 & K2 & K3 & _); auto).
    pose proof (wmicro_ok stale k _ _ _ _ _ _ _ H1 G Haw Hp HO) as HM.
    destruct (wmicro stale p (wmemory cf) (wview th)) as [[[p'|r|] m'] V']; cbn [step_ok wmemory whistory wthreads] in *.
    + destruct HM as (k' & _ & _ & _ & _ & _ & M3).
      pose proof (wowners_upd _ t th (WThread (wtodo th) (Some (c, p')) V') Et) as HU. unfold wown in HU. cbn [wcur] in HU.
      rewrite Ec in HU. destruct M3 as [[-> Eq]|(v & _ & Eh & Eo & _ & Eo')].
      * rewrite Eq in HU. lia.
      * rewrite Eo, Eo' in HU. rewrite Eh, app_length. cbn. lia.
    + pose proof (wowners_upd _ t th (WThread (wtodo th) None V') Et) as HU. unfold wown in HU. cbn [wcur] in HU.
      rewrite Ec in HU. destruct HM as [(v & n & len & -> & -> & Eo & _ & _ & _ & _ & EL)|(-> & M1 & Eo & _)]; rewrite Eo in HU.
      * rewrite EL, wpushed_app, app_length. cbn. lia.
      * rewrite wpushed_snoc_other by auto. lia.
    + destruct HM.
  - destruct (wtodo th) as [|[c|u] l]; auto; cbn [wmemory whistory wthreads].
    + pose proof (wowners_upd _ t th (WThread l (Some (c, start c)) (wview th)) Et) as HU. unfold wown in HU. cbn [wcur] in HU.
      rewrite Ec in HU. rewrite wpushed_app, app_length. cbn.
      assert (owned (start c) = None) as E by (destruct c; auto). rewrite E in HU. lia.
    + pose proof (wowners_upd _ t th (WThread l None (view_of cf u ++ wview th)) Et) as HU. unfold wown in HU. cbn [wcur] in HU.
      rewrite Ec in HU. rewrite wpushed_app, app_length. cbn. lia.
Qed.

Lemma wcounted_exec progs sched : len_when_aware (whistory (wexec sched (winitial progs))) ->
  wcounted (wexec sched (winitial (A := A) progs)).
Proof.
  assert (forall cf L, winv cf L -> wcounted cf -> len_when_aware (whistory (wexec sched cf)) -> wcounted (wexec sched cf)) as K.
  { induction sched as [|t sched IH]; intros cf L HI HC HLen; auto. cbn in *.
    destruct (whistory_grows sched (wconf_step cf t)) as [h Hh].
    destruct (winv_step cf t L HI) as [L' HI']. { eapply len_when_aware_prefix. rewrite <- Hh. exact HLen. }
    eapply IH; eauto. eapply wcounted_step; eauto. }
  eapply K; [apply winv_initial|]. unfold wcounted, winitial. cbn. clear. induction progs; cbn; auto.
Qed.

(** ** Dropping the list *)

Lemma wdrop_walk m L vs : wlinked m L vs -> forall j stales hp V acc,
  j <= length L -> length L - j <= length stales -> good L V (length L) ->
  (forall a, nth_error hp a = if existsb (Nat.eqb a) (firstn j L) then Some None else option_map Some (nth_error (wheap m) a)) ->
  exists hp', wdrop_loop stales hp (nth_error L j) V acc = WFreed hp' (acc ++ skipn j vs) /\
    forall a, nth_error hp' a = if existsb (Nat.eqb a) L then Some None else option_map Some (nth_error (wheap m) a).
Proof.
  intros HL j stales. revert j. induction stales as [|s stales IH]; intros j hp V acc Hj Hs HG Hh.
  - cbn in Hs. assert (j = length L) as -> by lia. assert (nth_error L (length L) = None) as -> by (apply nth_error_None; auto).
    exists hp. cbn. rewrite <- (wl_len _ _ _ HL), skipn_all, app_nil_r. rewrite firstn_all in Hh. auto.
  - destruct (nth_error L j) as [a|] eqn:E.
    + destruct (wl_node _ _ _ HL j a E) as (v & cell & Ex & En & Ev). pose proof (nth_error_lt _ _ _ E) as Hlt.
      cbn [wdrop_loop].
      assert (nth_error hp a = Some (Some (WNode v cell))) as ->.
      { rewrite Hh, Ex. destruct (existsb (Nat.eqb a) (firstn j L)) eqn:Exx; auto. exfalso.
        apply existsb_exists in Exx. destruct Exx as (b & Hb & Eb). apply Nat.eqb_eq in Eb. subst b.
        apply In_nth_error in Hb. destruct Hb as [i Hi].
        assert (i < j) by (apply nth_error_lt in Hi; rewrite firstn_length in Hi; lia).
        assert (nth_error L i = Some a) as Hi' by (rewrite <- (firstn_skipn j L); rewrite nth_error_app1; auto; eapply nth_error_lt; eauto).
        pose proof (proj1 (NoDup_nth_error L) (wl_nodup _ _ _ HL) i j ltac:(lia) ltac:(congruence)). lia. }
      rewrite (proj2 (knows_in V (EInit a))) by (eapply g_init; eauto).
      assert (S j < length L \/ length L = S j) as Hnext by lia.
      assert (exists V', load_at (ENext a) (wnext (WNode v cell)) false s V = (nth_error L (S j), V') /\ good L V' (length L)) as (V' & EV & GV).
      { destruct Hnext as [HS|HS].
        - pose proof (cell_ok m L vs V (length L) j a _ false s HL HG E Hlt Ex (or_intror HS)) as HC.
          destruct (load_at _ _ _ _ _) as [r V']. destruct HC as [(_ & _ & E0)|(b & k' & -> & E1 & G1 & E2 & _)]; [lia|].
          exists V'. split; [congruence|]. assert (k' = length L) as <-; auto. pose proof (g_len _ _ _ G1). lia.
        - exists V. split; auto. assert (nth_error L (S j) = None) as En' by (apply nth_error_None; lia).
          rewrite En'. rewrite En' in En. destruct cell; [discriminate|]. reflexivity. }
      rewrite EV. cbn [wval]. cbn [length] in Hs.
      destruct (IH (S j) (upd hp a None) V' (acc ++ [v])) as (hp' & E1 & E3); auto; try lia.
      * intros b. rewrite nth_error_upd. rewrite (firstn_snoc L j a E), existsb_app. cbn [existsb]. rewrite orb_false_r.
        destruct (Nat.eqb_spec a b) as [<-|Hn].
        -- rewrite Nat.eqb_refl, orb_true_r.
           assert (a < length hp) as Ha. { apply nth_error_Some. rewrite Hh, Ex. destruct (existsb _ _); discriminate. }
           rewrite (proj2 (Nat.ltb_lt _ _) Ha). auto.
        -- rewrite (proj2 (Nat.eqb_neq b a)) by auto. rewrite orb_false_r. apply Hh.
      * exists hp'. split; auto. rewrite E1. f_equal. rewrite <- app_assoc. f_equal. cbn.
        clear -Ev. revert j Ev. induction vs as [|x vs IH]; intros [|k] E; cbn in *; try discriminate.
        -- congruence.
        -- apply IH. auto.
    + apply nth_error_None in E. assert (j = length L) as -> by lia. exists hp. cbn.
      rewrite <- (wl_len _ _ _ HL), skipn_all, app_nil_r. rewrite firstn_all in Hh. auto.
Qed.

End Proofs.
