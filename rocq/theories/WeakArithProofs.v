(** Threads that run the programs of ConcArithModel.v under weak memory: what each does alone ([wp] of ConcArithWp.v) it does among the
    others, as long as the interner keeps its promises (C122). *)
From Coq Require Import ZArith List Bool PeanoNat Lia Permutation.
From Verif Require Import Base Words Spec Arith BitSliceModel BitSliceProofs InternModel InternProofs BigIntModel BigIntSpec BigIntProofs BigIntOps ConcArithModel ConcArithWp
  ConcInternModel ConcInternSpec ConcInternProofs ConcInternMore PropInternProgress PropInternOverlap ConcBigIntModel ConcArithProofs
  WeakInternModel WeakInternSpec WeakInternProofs WeakChunkModel WeakChunkProofs WeakTurnSpec WeakTurnProofs WeakArithModel.
Import ListNotations.
Local Open Scope Z_scope.
Local Arguments cnt : simpl never.

Notation wc := (wconf (list Z)).

(** ** One step of the interner, as its callers see it *)

Lemma nth_seen (cf : wc) m h : nth_error (handles (seen cf)) m = Some h -> exists h', nth_error (whandles cf) m = Some h' /\ h = seen_handle h'.
Proof.
  cbn [seen handles]. rewrite nth_error_map. destruct (nth_error (whandles cf) m) as [h'|]; [|discriminate]. intros [= <-]. eauto.
Qed.
Lemma seen_nth (cf : wc) m h : nth_error (whandles cf) m = Some h -> nth_error (handles (seen cf)) m = Some (seen_handle h).
Proof. intros E. cbn [seen handles]. rewrite nth_error_map, E. reflexivity. Qed.
Lemma len_seen (cf : wc) : length (handles (seen cf)) = length (whandles cf).
Proof. cbn [seen handles]. apply map_length. Qed.

(** [t] took a step from [p]. *)
Definition stepped (b b' : wc) (t : nat) (p : wpc (list Z)) : Prop :=
  (exists p' V', wthreads b' = upd (wthreads b) t (WThread (Some p') V') /\ whandles b' = whandles b /\
     (p' = WBroken \/ call_of (seen_call p') = call_of (seen_call p) /\ forall m, call_of (seen_call p) <> Some (CDecr m))) \/
  exists V' c, wthreads b' = upd (wthreads b) t (WThread None V') /\ call_of (seen_call p) = Some c /\
    match c with
    | CAdd v => exists k, whandles b' = whandles b ++ [WHandle k v (Held 0) V' []]
    | CGet m => exists o, wreads b' = wreads b ++ [(m, o)] /\ whandles b' = unuse (whandles b) m V'
    | CIncr m => exists h, nth_error (whandles b) m = Some h /\
        whandles b' = unuse (whandles b) m V' ++ [WHandle (whid h) (whval h) (Held 0) V' []]
    | CDecr m => exists h, nth_error (whandles b) m = Some h /\
        whandles b' = upd (whandles b) m (WHandle (whid h) (whval h) Gone (whborn h) (whused h))
    end.

Lemma wstep_stepped locked b t pick p V : pcok (wslots b) (whandles b) V p ->
  stepped b (wstep list_eqb locked b t pick p V) t p.
Proof.
  assert (forall (x : bool) (c : wc) V, wthreads (if x then put_lock c V else c) = wthreads c) as E1 by (intros [] ? ?; reflexivity).
  intros HP. destruct p as [v k|v k c|v k|v k|v k|v|n k|n k|n k|n k|]; cbn [wstep pcok] in *.
  - left. destruct (nth_error (wslots b) k) as [s|].
    + destruct (load_refs s k pick true V) as [c V']. eexists _, _. split; [reflexivity|]. split; [reflexivity|]. right. split; [reflexivity|discriminate].
    + eexists _, _. split; [reflexivity|]. split; [reflexivity|]. right. split; [reflexivity|discriminate].
  - left. destruct (nth_error (wslots b) k) as [s|]; [|eexists _, _; split; [reflexivity|]; split; [reflexivity|]; left; reflexivity].
    eexists _, _. split; [reflexivity|]. split; [reflexivity|]. right. split; [|discriminate].
    destruct (match wcont s with Some cur => list_eqb v cur | None => false end); [reflexivity|]. destruct (c =? 0); reflexivity.
  - destruct (nth_error (wslots b) k) as [s|]; [|left; eexists _, _; split; [reflexivity|]; split; [reflexivity|]; left; reflexivity].
    destruct (update_refs s k 1 V) as [s' V']. right. eexists _, _. split; [|split; [reflexivity|]].
    + unfold wadded, put, put_handles. cbn [wthreads]. rewrite E1. reflexivity.
    + exists k. unfold wadded, put, put_handles. cbn [whandles]. reflexivity.
  - destruct (nth_error (wslots b) k) as [s|]; [|left; eexists _, _; split; [reflexivity|]; split; [reflexivity|]; left; reflexivity].
    destruct (update_refs s k 1 V) as [s' V']. left. eexists _, _. split; [reflexivity|]. split; [reflexivity|]. right. split; [reflexivity|discriminate].
  - destruct (nth_error (wslots b) k) as [s|]; [|left; eexists _, _; split; [reflexivity|]; split; [reflexivity|]; left; reflexivity].
    right. eexists _, _. split; [|split; [reflexivity|]].
    + unfold wadded, put, put_handles. cbn [wthreads]. rewrite E1. reflexivity.
    + exists k. unfold wadded, put, put_handles. cbn [whandles]. reflexivity.
  - left. eexists _, _. split; [reflexivity|]. split; [reflexivity|]. right. split; [reflexivity|discriminate].
  - destruct HP as (h & Eh & Ek & _).
    destruct (nth_error (wslots b) k) as [s|]; [|left; eexists _, _; split; [reflexivity|]; split; [reflexivity|]; left; reflexivity].
    destruct (update_refs s k 1 V) as [s' V']. rewrite Eh. right. eexists _, _. split; [reflexivity|]. split; [reflexivity|]. exists h. split; [exact Eh|]. rewrite Ek. reflexivity.
  - destruct HP as (h & Eh & Ek).
    destruct (nth_error (wslots b) k) as [s|]; [|left; eexists _, _; split; [reflexivity|]; split; [reflexivity|]; left; reflexivity].
    rewrite Eh. right. destruct (fst (last (wmsgs s) (0, [])) =? 0).
    + destruct (load_refs s k (length (wmsgs s) - 1) true V) as [c V']. eexists _, _. split; [reflexivity|]. split; [reflexivity|]. exists h. split; [exact Eh|reflexivity].
    + destruct (update_refs s k (-1) V) as [s' V']. eexists _, _. split; [reflexivity|]. split; [reflexivity|]. exists h. split; [exact Eh|reflexivity].
  - destruct (nth_error (wslots b) k) as [s|]; [|left; eexists _, _; split; [reflexivity|]; split; [reflexivity|]; left; reflexivity].
    destruct (load_refs s k pick false V) as [c V']. destruct (c =? 0).
    + right. eexists _, _. split; [reflexivity|]. split; [reflexivity|]. exists None. split; reflexivity.
    + left. eexists _, _. split; [reflexivity|]. split; [reflexivity|]. right. split; [reflexivity|discriminate].
  - destruct (nth_error (wslots b) k) as [s|]; [|left; eexists _, _; split; [reflexivity|]; split; [reflexivity|]; left; reflexivity].
    destruct (wcont s) as [v|].
    + right. eexists _, _. split; [reflexivity|]. split; [reflexivity|]. exists (Some v). split; reflexivity.
    + left. eexists _, _. split; [reflexivity|]. split; [reflexivity|]. left. reflexivity.
  - contradiction.
Qed.

Lemma stepped_put b t p q V b' : stepped (put b t p V) b' t q -> stepped b b' t q.
Proof.
  intros [(p' & V' & E1 & E2 & E3)|(V' & c & E1 & E2 & E3)]; [left|right]; cbn [put wthreads whandles wreads] in *; rewrite upd_upd in E1; eauto 8.
Qed.

Lemma cstep_stepped locked cs L t pick stale p V : winv (put_lock (cbase cs) L) -> nth_error (wthreads (cbase cs)) t = Some (WThread (Some p) V) ->
  stepped (cbase cs) (cbase (cstep list_eqb locked cs t pick stale p V)) t p.
Proof.
  intros HI Et. pose proof (wi_pc _ HI _ _ _ Et eq_refl) as HP. cbn [put_lock wslots whandles wview] in HP.
  assert ((forall v, p <> WPush v) -> stepped (cbase cs) (cbase (match looks_up p with
      | None => CConf (wstep list_eqb locked (cbase cs) t pick p V) (clinks cs)
      | Some i =>
        match reach (clinks cs) stale V i with
        | Some V' => CConf (wstep list_eqb locked (put (cbase cs) t (Some p) V') t pick p V') (clinks cs)
        | None => CConf (put (cbase cs) t (Some (match p with WFindRefs v _ => WPush v | _ => WBroken end)) V) (clinks cs)
        end
      end)) t p) as H.
  { intros _. destruct (looks_up p) as [i|]; [|apply wstep_stepped; exact HP]. destruct (reach (clinks cs) stale V i) as [V'|] eqn:ER; cbn [cbase].
    - eapply stepped_put. apply wstep_stepped. cbn [put wslots whandles]. eapply pcok_incl; [apply (reach_some _ _ _ _ _ ER)|exact HP].
    - left. eexists _, V. split; [reflexivity|]. split; [reflexivity|]. destruct p; try (left; reflexivity). right. split; [reflexivity|discriminate]. }
  destruct p as [v k|v k c|v k|v k|v k|v|n k|n k|n k|n k|] eqn:Ep; try (apply H; intros v'; discriminate).
  left. unfold cstep. cbn [cbase]. cbn zeta. unfold put at 1. cbn [wthreads wstep]. unfold put. cbn [wthreads whandles]. eexists _, _. rewrite !upd_upd. split; [reflexivity|].
  split; [reflexivity|]. right. split; [reflexivity|discriminate].
Qed.

Lemma map_upd {A B} (f : A -> B) l i x : map f (upd l i x) = upd (map f l) i (f x).
Proof. revert i. induction l as [|a l IH]; intros [|i]; cbn; auto. f_equal. apply IH. Qed.

Lemma kept_of (b b' : wc) (G : nat -> Prop) :
  (forall m h, nth_error (whandles b) m = Some h -> exists h', nth_error (whandles b') m = Some h' /\ whid h' = whid h /\ whval h' = whval h /\
     (whst h = Gone -> whst h' = Gone) /\ (whst h' = Gone -> whst h = Gone \/ G m)) -> kept (seen b) (seen b') G.
Proof.
  intros H m h E. apply nth_seen in E. destruct E as (h0 & E & ->). destruct (H m h0 E) as (h' & E' & H1 & H2 & H3 & H4).
  exists (whst h'). rewrite (seen_nth _ _ _ E'). unfold seen_handle. cbn [hid hval hst]. rewrite H1, H2. auto.
Qed.
Lemma unuse_at (hs : list (whandle (list Z))) n V m h : nth_error hs m = Some h ->
  exists h', nth_error (unuse hs n V) m = Some h' /\ whid h' = whid h /\ whval h' = whval h /\ (whst h = Gone <-> whst h' = Gone).
Proof.
  intros E. unfold unuse. destruct (nth_error hs n) as [[k v [u| |] born used]|] eqn:En; try (exists h; intuition auto; fail).
  destruct (Nat.eq_dec n m) as [->|Hn].
  - rewrite (nth_upd_same _ _ _ _ En). rewrite E in En. injection En as ->. eexists. split; [reflexivity|]. cbn. repeat split; auto; discriminate.
  - rewrite nth_upd_other by auto. exists h. intuition auto.
Qed.
Lemma unuse_len (hs : list (whandle (list Z))) n V : length (unuse hs n V) = length hs.
Proof. unfold unuse. destruct (nth_error hs n) as [[k v [u| |] born used]|]; auto. apply len_upd. Qed.

(** ** What is assumed of the interner *)

Definition keeps (cs : cconf (list Z)) : Prop :=
  (exists L, winv (put_lock (cbase cs) L)) /\ Z.of_nat (length (wslots (cbase cs))) <= 2 ^ 62.

Section Run.
Context {A : Type} {adds : bool} (locked : bool) (n : nat) (vs : list nat) (V : list (Z * list Z)) (L : nat) (Q : nat -> list (Z * list Z) -> A -> Prop).
Context (HQ : forall t O O' a, Permutation O O' -> Q t O a -> Q t O' a).
Context (P : list (waction (list Z) * bool) -> Prop) (P_prefix : forall a b, P (a ++ b) -> P a) (P_keeps : forall a, P a -> keeps (wrun locked n a)).
Notation W := (now locked n).
Notation S a := (seen (now locked n a)).

Lemma wrun_app a b : wrun locked n (a ++ b) = cexec list_eqb locked b (wrun locked n a).
Proof. unfold wrun, cexec. apply fold_left_app. Qed.

Lemma keeps_handles acts m h : P acts -> nth_error (whandles (W acts)) m = Some h -> whst h <> Gone ->
  exists s, nth_error (wslots (W acts)) (whid h) = Some s /\ wcont s = Some (whval h).
Proof.
  intros F E Hg. destruct (P_keeps _ F) as [(lk & HI) _]. destruct (wi_hand _ HI _ _ E) as (s & Es & H). exists s. split; [exact Es|].
  apply H. unfold gone. destruct (whst h); congruence.
Qed.
Lemma keeps_reads acts m o : P acts -> In (m, o) (wreads (W acts)) -> exists h, nth_error (whandles (W acts)) m = Some h /\ o = Some (whval h).
Proof. intros F I. destruct (P_keeps _ F) as [(lk & HI) _]. exact (wi_reads _ HI _ _ I). Qed.
Lemma keeps_id acts m h : P acts -> nth_error (handles (S acts)) m = Some h -> 0 <= hid h <= max_offset.
Proof.
  intros F E. apply nth_seen in E. destruct E as (h' & E & ->). destruct (P_keeps _ F) as [(lk & HI) HL]. destruct (wi_hand _ HI _ _ E) as (s & Es & _).
  cbn [put_lock wslots] in Es. assert (whid h' < length (wslots (W acts)))%nat as X by (apply nth_error_Some; unfold now; rewrite Es; discriminate). unfold seen_handle. cbn [hid]. rewrite max_offset_val.
  unfold now in X. lia.
Qed.
Lemma keeps_fn acts ms : P acts -> (forall m, In m ms -> usable_now (S acts) m) -> fn (map (entry (S acts)) ms).
Proof.
  intros F H k l l' I I'. apply in_map_iff in I, I'. destruct I as (m & E & I), I' as (m' & E' & I').
  destruct (H m I) as (h & Eh & Hg), (H m' I') as (h' & Eh' & Hg'). unfold entry in E, E'. rewrite Eh in E. rewrite Eh' in E'.
  apply nth_seen in Eh, Eh'. destruct Eh as (w & Eh & ->), Eh' as (w' & Eh' & ->). cbn [seen_handle hid hval hst] in *.
  injection E as E1 E2. injection E' as E1' E2'. destruct (keeps_handles _ _ _ F Eh Hg) as (s & Es & Ec), (keeps_handles _ _ _ F Eh' Hg') as (s' & Es' & Ec').
  assert (whid w = whid w') as X by lia. rewrite X in Es. congruence.
Qed.

Record winv_b (bc : wbconf A) : Prop := {
  b_len : length (wprogs bc) = length (wowned bc);
  b_prog : forall t p ms, nth_error (wprogs bc) t = Some p -> nth_error (wowned bc) t = Some ms -> wp adds V (map (entry (S (wdone bc))) ms) p (Q t);
  b_vars : map (entry (S (wdone bc))) vs = V;
  b_pend : forall t q, nth_error (ithreads (S (wdone bc))) t = Some (Some q) ->
    exists p ms, nth_error (wprogs bc) t = Some p /\ nth_error (wowned bc) t = Some ms /\ pending vs (S (wdone bc)) ms p q;
  b_live : forall m, In m vs \/ In m (concat (wowned bc)) -> usable_now (S (wdone bc)) m;
  b_once : NoDup (concat (wowned bc));
  b_apart : forall m, In m vs -> ~ In m (concat (wowned bc));
  b_left : forall m, usable_now (S (wdone bc)) m -> (m < L)%nat \/ In m (concat (wowned bc)) }.

Lemma winv_update bc t p ms a p' ms' (G : nat -> Prop) : winv_b bc ->
  nth_error (wprogs bc) t = Some p -> nth_error (wowned bc) t = Some ms ->
  let cf := S (wdone bc) in let cf' := S (wdone bc ++ [a]) in
  kept cf cf' G -> (forall m, G m -> In m ms /\ ~ In m ms') ->
  (forall m, In m ms' -> In m ms \/ (length (handles cf) <= m)%nat /\ usable_now cf' m) ->
  (forall m, In m ms -> In m ms' \/ ~ usable_now cf' m) -> NoDup ms' ->
  (forall m, usable_now cf' m -> (length (handles cf) <= m)%nat -> In m ms') ->
  (forall u q, u <> t -> nth_error (ithreads cf') u = Some (Some q) -> nth_error (ithreads cf) u = Some (Some q)) ->
  (forall q, nth_error (ithreads cf') t = Some (Some q) -> pending vs cf' ms' p' q) ->
  wp adds V (map (entry cf') ms') p' (Q t) ->
  winv_b (WBConf (wdone bc ++ [a]) (upd (wprogs bc) t p') (upd (wowned bc) t ms')).
Proof.
  intros HB Ep Em cf cf' K HG Hin Hout Hnd Hnew Hoth Hown Hwp. pose proof HB as [B1 B2 B3 B4 B5 B6 B7 B8]. fold cf in B2, B3, B4, B5, B8.
  destruct (split_at _ _ _ Em) as (o1 & o2 & Eo & Lo & Uo).
  assert (forall m, In m (concat (upd (wowned bc) t ms')) <-> In m ms' \/ In m (concat o1) \/ In m (concat o2)) as IN.
  { intros m. rewrite Uo, concat_app. cbn [concat]. rewrite !in_app_iff. tauto. }
  assert (forall m, In m (concat (wowned bc)) <-> In m ms \/ In m (concat o1) \/ In m (concat o2)) as IN0.
  { intros m. rewrite Eo, concat_app. cbn [concat]. rewrite !in_app_iff. tauto. }
  assert (forall m, usable_now cf m -> (m < length (handles cf))%nat) as LT. { intros m (h & E & _). apply nth_error_Some. congruence. }
  assert (forall m, In m ms -> ~ In m (concat o1) /\ ~ In m (concat o2)) as DJ.
  { rewrite Eo, concat_app in B6. cbn [concat] in B6. apply nodup_app in B6. destruct B6 as (N1 & N2 & N3). apply nodup_app in N2. destruct N2 as (N4 & N5 & N6).
    intros m I. split; [|auto]. intros X. apply (N3 m X), in_or_app. auto. }
  constructor; cbn [wdone wprogs wowned]; fold cf'.
  - rewrite !len_upd. exact B1.
  - intros u p0 ms0 E1 E2. apply nth_upd_cases in E1, E2. destruct E1 as [[-> ->]|[N1 E1]], E2 as [[? E2]|[N2 E2]]; try contradiction; [subst; exact Hwp|].
    replace (map (entry cf') ms0) with (map (entry cf) ms0); [apply (B2 u); auto|]. apply map_ext_in. intros m I. symmetry. apply (kept_entry _ _ _ _ K), B5. right. eapply in_concat_at; eauto.
  - rewrite <- B3. apply map_ext_in. intros m I. apply (kept_entry _ _ _ _ K), B5. auto.
  - intros u q E. destruct (Nat.eq_dec u t) as [->|Hn].
    + exists p', ms'. split; [eapply nth_upd_same; eauto|]. split; [eapply nth_upd_same; eauto|]. apply Hown. exact E.
    + destruct (B4 u q (Hoth u q Hn E)) as (p0 & ms0 & E1 & E2 & HP). exists p0, ms0. rewrite !nth_upd_other by auto. split; auto. split; auto.
      eapply pending_kept; [exact K| |exact HP]. intros m I. apply B5. apply in_app_or in I. destruct I as [I|I]; auto. right. eapply in_concat_at; eauto.
  - assert (forall m, In m vs \/ In m (concat (wowned bc)) -> ~ G m -> usable_now cf' m) as X. { intros m I NG. eapply kept_usable; eauto. }
    intros m [I|I].
    + apply X; auto. intros g. apply HG in g. apply (B7 m I), IN0. tauto.
    + apply IN in I. destruct I as [I|I].
      * destruct (Hin m I) as [J|[_ J]]; auto. apply X; [right; apply IN0; auto|]. intros g. apply HG in g. tauto.
      * apply X; [right; apply IN0; auto|]. intros g. apply HG in g. destruct (DJ m (proj1 g)). tauto.
  - rewrite Uo, concat_app. cbn [concat]. rewrite Eo, concat_app in B6. cbn [concat] in B6. apply nodup_app in B6. destruct B6 as (N1 & N2 & N3).
    apply nodup_app in N2. destruct N2 as (N4 & N5 & N6).
    assert (forall m, In m ms' -> ~ In m (concat o1) /\ ~ In m (concat o2)) as DJ'.
    { intros m I. destruct (Hin m I) as [J|[J _]]; auto.
      assert (~ In m (concat (wowned bc))) as X. { intros X. specialize (LT m (B5 m (or_intror X))). lia. } rewrite IN0 in X. tauto. }
    apply nodup_app. split; auto. split; [apply nodup_app; split; auto; split; auto; intros x I; apply (DJ' x I)|].
    intros x I J. apply in_app_or in J. destruct J as [J|J]; [exact (proj1 (DJ' x J) I)|]. apply (N3 x I), in_or_app. auto.
  - intros m I J. apply IN in J. destruct J as [J|J].
    + destruct (Hin m J) as [X|[X _]]; [apply (B7 m I), IN0; auto|]. specialize (LT m (B5 m (or_introl I))). lia.
    + apply (B7 m I), IN0. auto.
  - intros m U. destruct (Nat.lt_ge_cases m (length (handles cf))) as [Lt|Ge]; [|right; apply IN; left; auto].
    destruct (B8 m (kept_back _ _ _ _ K U Lt)) as [X|X]; auto. right. apply IN. apply IN0 in X. destruct X as [X|X]; auto. destruct (Hout m X); auto. contradiction.
Qed.

Lemma w_usable bc t ms : winv_b bc -> nth_error (wowned bc) t = Some ms -> forall m, In m (vs ++ ms) -> usable_now (S (wdone bc)) m.
Proof. intros HB E m I. apply (b_live _ HB). apply in_app_or in I. destruct I; auto. right. eapply in_concat_at; eauto. Qed.

Lemma now_go acts t pick stale q U : nth_error (wthreads (W acts)) t = Some (WThread (Some q) U) ->
  W (acts ++ [(WGo t pick, stale)]) = cbase (cstep list_eqb locked (wrun locked n acts) t pick stale q U).
Proof. intros E. unfold now in *. rewrite wrun_app. cbn [cexec fold_left cconf_step]. rewrite E. reflexivity. Qed.
Lemma now_begin acts t c stale U : nth_error (wthreads (W acts)) t = Some (WThread None U) ->
  W (acts ++ [(WBegin t c, stale)]) = wbegin locked (W acts) t U c.
Proof. intros E. unfold now in *. rewrite wrun_app. cbn [cexec fold_left cconf_step cbase wconf_step]. rewrite E. reflexivity. Qed.

(** What a step of a thread inside a call is for its caller. *)
Lemma go_seen acts t pick stale q U : let acts' := acts ++ [(WGo t pick, stale)] in P acts' -> nth_error (wthreads (W acts)) t = Some (WThread (Some q) U) ->
  kept (S acts) (S acts') (fun m => call_of (seen_call q) = Some (CDecr m)) /\
  (forall u x, u <> t -> nth_error (ithreads (S acts')) u = Some (Some x) -> nth_error (ithreads (S acts)) u = Some (Some x)) /\
  ((exists U' c, nth_error (wthreads (W acts')) t = Some (WThread None U') /\ nth_error (ithreads (S acts')) t = Some None /\ call_of (seen_call q) = Some c /\
      match c with
      | CAdd v => exists k, handles (S acts') = handles (S acts) ++ [Handle k v (Held 0)]
      | CIncr m => exists h, nth_error (handles (S acts)) m = Some h /\ length (handles (S acts')) = Datatypes.S (length (handles (S acts))) /\
          nth_error (handles (S acts')) (length (handles (S acts))) = Some (Handle (hid h) (hval h) (Held 0))
      | CDecr m => exists h, nth_error (handles (S acts)) m = Some h /\ handles (S acts') = upd (handles (S acts)) m (Handle (hid h) (hval h) Gone)
      | CGet m => length (handles (S acts')) = length (handles (S acts)) /\ exists v, ConcInternModel.reads (S acts') = ConcInternModel.reads (S acts) ++ [(m, Some v)]
      end) \/
   exists q' U', nth_error (wthreads (W acts')) t = Some (WThread (Some q') U') /\ nth_error (ithreads (S acts')) t = Some (Some (seen_call q')) /\
     call_of (seen_call q') = call_of (seen_call q) /\ (forall m, call_of (seen_call q) <> Some (CDecr m)) /\ handles (S acts') = handles (S acts)).
Proof.
  intros acts' HF Et. pose proof (P_prefix _ _ HF) as HF0. destruct (P_keeps _ HF0) as [(lk & HI) _].
  pose proof (now_go acts t pick stale q U Et) as Es. fold acts' in Es.
  destruct (P_keeps _ HF) as [(lk' & HI') _]. fold (W acts') in HI'.
  pose proof (cstep_stepped locked _ lk t pick stale q U HI Et) as ST. rewrite <- Es in ST. fold (W acts) in ST.
  assert (forall th, wthreads (W acts') = upd (wthreads (W acts)) t th ->
     (forall u x, u <> t -> nth_error (ithreads (S acts')) u = Some (Some x) -> nth_error (ithreads (S acts)) u = Some (Some x)) /\
     nth_error (wthreads (W acts')) t = Some th /\ nth_error (ithreads (S acts')) t = Some (option_map seen_call (wpos th))) as TH.
  { intros th E. cbn [seen ithreads]. rewrite E, map_upd. split; [|split].
    - intros u x Hn. rewrite nth_upd_other by auto. auto.
    - apply (nth_upd_same _ _ _ _ Et).
    - eapply nth_upd_same. rewrite nth_error_map, Et. reflexivity. }
  destruct ST as [(p' & U' & E1 & E2 & E3)|(U' & c & E1 & E2 & E3)]; destruct (TH _ E1) as (H1 & H2 & H3); cbn [wpos option_map] in H3.
  - assert (p' <> WBroken) as NB by (intros ->; exact (wi_pc _ HI' t _ _ H2 eq_refl)).
    destruct E3 as [E3|[E3 E4]]; [contradiction|]. split; [|split; [exact H1|]].
    + apply kept_of. intros m h E. rewrite E2. exists h. auto 6.
    + right. exists p', U'. split; auto. split; auto. split; auto. split; auto. cbn [seen handles]. rewrite E2. reflexivity.
  - destruct c as [v|m|m|m].
    + destruct E3 as (k & E3). split; [|split; [exact H1|left; exists U', (CAdd v); split; auto; split; auto; split; auto]].
      * apply kept_of. intros m h E. rewrite E3. exists h. split; [apply nth_app_l; exact E|]. auto 6.
      * exists (Z.of_nat k). cbn [seen handles]. rewrite E3, map_app. reflexivity.
    + destruct E3 as (h & Eh & E3). split; [|split; [exact H1|left; exists U', (CIncr m); split; auto; split; auto; split; auto]].
      * apply kept_of. intros m' h' E. rewrite E3. destruct (unuse_at _ m U' _ _ E) as (h2 & X1 & X2 & X3 & X4). exists h2. split; [apply nth_app_l; exact X1|]. tauto.
      * exists (seen_handle h). split; [apply seen_nth; exact Eh|]. rewrite !len_seen, E3, app_length, unuse_len. cbn [length]. split; [lia|].
        cbn [seen handles]. rewrite E3, nth_error_map, nth_error_app2, unuse_len, Nat.sub_diag by (rewrite unuse_len; lia). reflexivity.
    + destruct E3 as (h & Eh & E3). split; [|split; [exact H1|left; exists U', (CDecr m); split; auto; split; auto; split; auto]].
      * apply kept_of. intros m' h' E. rewrite E3, nth_error_upd. destruct (Nat.eqb_spec m m') as [->|Hn]; cbn [andb].
        -- rewrite (proj2 (Nat.ltb_lt _ _)) by (apply nth_error_Some; congruence). rewrite Eh in E. injection E as <-. eexists. split; [reflexivity|]. cbn. auto.
        -- exists h'. auto 6.
      * exists (seen_handle h). split; [apply seen_nth; exact Eh|]. cbn [seen handles]. rewrite E3, map_upd. reflexivity.
    + destruct E3 as (o & E3 & E4). split; [|split; [exact H1|left; exists U', (CGet m); split; auto; split; auto; split; auto]].
      * apply kept_of. intros m' h' E. rewrite E4. destruct (unuse_at _ m U' _ _ E) as (h2 & X1 & X2 & X3 & X4). exists h2. tauto.
      * rewrite !len_seen, E4, unuse_len. split; [reflexivity|]. destruct (keeps_reads _ m o HF) as (h & _ & Ho); [rewrite E3; apply in_or_app; right; left; reflexivity|].
        exists (whval h). cbn [seen ConcInternModel.reads]. rewrite E3, Ho. reflexivity.
Qed.

(** What the beginning of a call is for the caller. *)
Lemma begin_seen acts t c stale U : let acts' := acts ++ [(WBegin t c, stale)] in nth_error (wthreads (W acts)) t = Some (WThread None U) ->
  kept (S acts) (S acts') (fun _ => False) /\ length (handles (S acts')) = length (handles (S acts)) /\
  (forall u x, u <> t -> nth_error (ithreads (S acts')) u = Some (Some x) -> nth_error (ithreads (S acts)) u = Some (Some x)) /\
  (forall x, nth_error (ithreads (S acts')) t = Some (Some x) -> call_of x = Some c).
Proof.
  intros acts' Et. unfold acts'. rewrite (now_begin acts t c stale U Et). set (b := W acts) in *. rewrite !len_seen.
  assert (kept (seen b) (seen b) (fun _ => False) /\ length (whandles b) = length (whandles b) /\
    (forall u x, u <> t -> nth_error (ithreads (seen b)) u = Some (Some x) -> nth_error (ithreads (seen b)) u = Some (Some x)) /\
    (forall x, nth_error (ithreads (seen b)) t = Some (Some x) -> call_of x = Some c)) as SAME.
  { split; [apply kept_refl|]. split; [reflexivity|]. split; [auto|]. intros x E. cbn [seen ithreads] in E. rewrite nth_error_map, Et in E. discriminate. }
  assert (forall q X b2, wthreads b2 = wthreads b -> whandles b2 = whandles b -> call_of (seen_call q) = Some c ->
    kept (seen b) (seen (put b2 t (Some q) X)) (fun _ => False) /\ length (whandles (put b2 t (Some q) X)) = length (whandles b) /\
    (forall u x, u <> t -> nth_error (ithreads (seen (put b2 t (Some q) X))) u = Some (Some x) -> nth_error (ithreads (seen b)) u = Some (Some x)) /\
    (forall x, nth_error (ithreads (seen (put b2 t (Some q) X))) t = Some (Some x) -> call_of x = Some c)) as PUT0.
  { intros q X b2 T1 T2 Eq. cbn [put whandles]. rewrite T2. split; [|split; [reflexivity|]].
    - apply kept_of. intros m h E. cbn [put whandles]. rewrite T2. exists h. intuition auto.
    - cbn [seen put ithreads wthreads]. rewrite T1, map_upd. split.
      + intros u x Hn. rewrite nth_upd_other by auto. auto.
      + intros x. erewrite nth_upd_same by (rewrite nth_error_map, Et; reflexivity). cbn. intros [= <-]. exact Eq. }
  assert (forall q X m h st, nth_error (whandles b) m = Some h -> whst h <> Gone -> st <> Gone -> call_of (seen_call q) = Some c ->
    let b2 := put_handles b (upd (whandles b) m (WHandle (whid h) (whval h) st (whborn h) (whused h))) in
    kept (seen b) (seen (put b2 t (Some q) X)) (fun _ => False) /\ length (whandles (put b2 t (Some q) X)) = length (whandles b) /\
    (forall u x, u <> t -> nth_error (ithreads (seen (put b2 t (Some q) X))) u = Some (Some x) -> nth_error (ithreads (seen b)) u = Some (Some x)) /\
    (forall x, nth_error (ithreads (seen (put b2 t (Some q) X))) t = Some (Some x) -> call_of x = Some c)) as PUT.
  { intros q X m h st Eh N1 N2 Eq b2. cbn [put whandles b2 put_handles]. rewrite len_upd. split; [|split; [reflexivity|]].
    - apply kept_of. intros m' h' E. cbn [put whandles b2 put_handles]. rewrite nth_error_upd. destruct (Nat.eqb_spec m m') as [->|Hn]; cbn [andb].
      + rewrite (proj2 (Nat.ltb_lt _ _)) by (apply nth_error_Some; congruence). rewrite Eh in E. injection E as <-. eexists. split; [reflexivity|]. cbn. intuition congruence.
      + exists h'. intuition auto.
    - cbn [seen put ithreads wthreads b2 put_handles]. rewrite map_upd. split.
      + intros u x Hn. rewrite nth_upd_other by auto. auto.
      + intros x. erewrite nth_upd_same by (rewrite nth_error_map, Et; reflexivity). cbn. intros [= <-]. exact Eq. }
  destruct c as [v|m|m|m]; cbn [wbegin].
  - destruct locked; [destruct (existsb _ _); [exact SAME|]|]; apply PUT0; reflexivity.
  - destruct (nth_error (whandles b) m) as [[k v [u| |] born used]|] eqn:Eh; try exact SAME. apply (PUT _ _ m _ _ Eh); [discriminate..|reflexivity].
  - destruct (nth_error (whandles b) m) as [[k v [[|u]| |] born used]|] eqn:Eh; try exact SAME. apply (PUT _ _ m _ _ Eh); [discriminate..|reflexivity].
  - destruct (nth_error (whandles b) m) as [[k v [u| |] born used]|] eqn:Eh; try exact SAME. apply (PUT _ _ m _ _ Eh); [discriminate..|reflexivity].
Qed.

Lemma winv_step_b bc a : winv_b bc -> P (wdone (wbstep locked n vs bc a)) -> winv_b (wbstep locked n vs bc a).
Proof.
  intros HB. destruct a as [t m pick stale|t u]; cbn [wbstep].
  2: { intros _. assert (S (wdone bc ++ [(WSync t u, false)]) = S (wdone bc)) as E.
    { unfold now. rewrite wrun_app. cbn [cexec fold_left cconf_step cbase wconf_step]. fold (W (wdone bc)).
      destruct (nth_error (wthreads (W (wdone bc))) t) as [[[q|] U]|] eqn:Et; auto. destruct (nth_error (wthreads (W (wdone bc))) u) as [[[q|] U']|]; auto.
      unfold seen, put. cbn [wthreads whandles wreads]. f_equal. rewrite map_upd. cbn. apply upd_id. rewrite nth_error_map, Et. reflexivity. }
    destruct HB as [B1 B2 B3 B4 B5 B6 B7 B8]. constructor; cbn [wdone wprogs wowned]; rewrite ?E; auto. }
  destruct (nth_error (wthreads (W (wdone bc))) t) as [[[q|] U]|] eqn:Et; auto.
  - (* inside a call *)
    destruct (nth_error (wprogs bc) t) as [p|] eqn:Ep; auto. destruct (nth_error (wowned bc) t) as [ms|] eqn:Em; auto.
    intros HF. assert (P (wdone bc ++ [(WGo t pick, stale)])) as HF'.
    { destruct (nth_error (wthreads (W (wdone bc ++ [(WGo t pick, stale)]))) t) as [[[?|] ?]|]; auto. destruct (resume _ _ _ _ _). auto. }
    clear HF. pose proof (P_prefix _ _ HF') as HF. pose proof (w_usable _ _ _ HB Em) as HU.
    assert (nth_error (ithreads (S (wdone bc))) t = Some (Some (seen_call q))) as Et2 by (cbn [seen ithreads]; rewrite nth_error_map, Et; reflexivity).
    destruct (b_pend _ HB _ _ Et2) as (p0 & ms0 & Ep0 & Em0 & HP). assert (p0 = p) by congruence. assert (ms0 = ms) by congruence. subst p0 ms0.
    destruct (go_seen _ t pick stale q U HF' Et) as (K & Hoth & [(U' & c & E0 & E' & Ec & Hr)|(q' & U' & E0 & E' & Ec & ND & Lh)]).
    + (* the call returns *)
      rewrite E0. set (cf := S (wdone bc)) in *. set (acts' := wdone bc ++ [(WGo t pick, stale)]) in *. set (cf' := S acts') in *. cbn zeta.
      pose proof (b_prog _ HB _ _ _ Ep Em) as WP. fold cf in WP.
      assert (fn (V ++ map (entry cf) ms)) as FN.
      { rewrite <- (b_vars _ HB), <- map_app. apply keeps_fn; auto. }
      assert (forall x l, In x (vs ++ ms) -> In (fst (entry cf x), l) (V ++ map (entry cf) ms) -> entry cf x = (fst (entry cf x), l)) as ENT.
      { intros x l I J. destruct (entry cf x) as [k l'] eqn:Ex. cbn [fst] in *. f_equal. apply (FN k); auto.
        rewrite <- (b_vars _ HB), <- map_app. fold cf. rewrite <- Ex. apply in_map. auto. }
      assert (map (entry cf') ms = map (entry cf) ms) as ME.
      { apply map_ext_in. intros x I. apply (kept_entry _ _ _ _ K), HU, in_or_app. auto. }
      assert (forall x, usable_now cf' x -> (x < length (handles cf'))%nat) as LT'. { intros x (h & E & _). apply nth_error_Some. congruence. }
      assert (forall x, usable_now cf x -> (x < length (handles cf))%nat) as LT. { intros x (h & E & _). apply nth_error_Some. congruence. }
      pose proof (nodup_one _ _ _ (b_once _ HB) Em) as ND.
      assert (~ In (length (handles cf)) ms) as Hfresh. { intros X. specialize (LT _ (HU _ (in_or_app vs ms _ (or_intror X)))). lia. }
      destruct p as [r|k f|l f|k p|k p]; cbn [pending resume wp] in *; [contradiction|..].
      * (* get *)
        destruct HP as (x & Eq & I & Ek). rewrite Ec in Eq. injection Eq as ->. destruct Hr as (Lh & v & Er). rewrite Er, last_snoc.
        destruct WP as (l & J & WP). rewrite <- Ek in J. pose proof (ENT x l I J) as En.
        assert (v = l) as ->.
        { destruct (keeps_reads acts' x (Some v) HF') as (h & Eh & Ev).
          { change (wreads (W acts')) with (ConcInternModel.reads cf'). rewrite Er. apply in_or_app. right. left. reflexivity. }
          injection Ev as ->. rewrite <- (kept_entry _ _ _ _ K (HU x I)) in En. unfold entry in En. rewrite (seen_nth _ _ _ Eh : nth_error (handles cf') x = _) in En.
          cbn [seen_handle hid hval] in En. congruence. }
        apply winv_update with (p := PGet k f) (ms := ms) (G := fun m => call_of (seen_call q) = Some (CDecr m)); auto; fold cf; fold acts'; fold cf'.
        -- intros x0 g. congruence.
        -- intros x0 Ux Ge. specialize (LT' x0 Ux). lia.
        -- intros q2 E2. congruence.
        -- rewrite ME. exact WP.
      * (* add *)
        rewrite Ec in HP. injection HP as ->. destruct Hr as (k & Eh). assert (nth_error (handles cf') (length (handles cf)) = Some (Handle k l (Held 0))) as En.
        { rewrite Eh, nth_error_app2, Nat.sub_diag by lia. reflexivity. }
        rewrite En. assert (usable_now cf' (length (handles cf))) as UN. { exists (Handle k l (Held 0)). split; auto. discriminate. }
        assert (entry cf' (length (handles cf)) = (k, l)) as EE. { unfold entry. rewrite En. reflexivity. }
        assert (forall x, In x ms -> usable_now cf' x) as UM. { intros x I. eapply kept_usable; [exact K| |congruence]. apply HU, in_or_app. auto. }
        apply winv_update with (p := PAdd l f) (ms := ms) (G := fun m => call_of (seen_call q) = Some (CDecr m)); auto; fold cf; fold acts'; fold cf'.
        -- intros x g. congruence.
        -- intros x [<-|I]; [right; split; [lia|exact UN]|auto].
        -- intros x I. left. right. exact I.
        -- constructor; auto.
        -- intros x Ux Ge. specialize (LT' x Ux). rewrite Eh, app_length in LT'. cbn [length] in LT'. left. lia.
        -- intros q2 E2. congruence.
        -- cbn [map]. rewrite EE, ME. cbn [hid]. apply (proj2 WP); [apply (keeps_id _ _ _ HF' En)|].
           rewrite <- (b_vars _ HB). fold cf. replace (map (entry cf) vs) with (map (entry cf') vs).
           ++ rewrite <- EE, <- ME. change (entry cf' (length (handles cf)) :: map (entry cf') ms) with (map (entry cf') (length (handles cf) :: ms)). rewrite <- map_app.
              apply keeps_fn; auto. intros x I. apply in_app_or in I. destruct I as [I|[<-|I]]; auto. eapply kept_usable; [exact K| |congruence]. apply HU, in_or_app. auto.
           ++ apply map_ext_in. intros x I. apply (kept_entry _ _ _ _ K), HU, in_or_app. auto.
      * (* incr *)
        destruct HP as (x & Eq & I & Ek). rewrite Ec in Eq. injection Eq as ->. destruct Hr as (h & E1 & E2 & E3).
        destruct WP as (l & J & WP). rewrite <- Ek in J. pose proof (ENT x l I J) as En. rewrite Ek in En. unfold entry in En. rewrite E1 in En. injection En as En1 En2.
        assert (usable_now cf' (length (handles cf))) as UN. { eexists. split; [exact E3|]. discriminate. }
        assert (entry cf' (length (handles cf)) = (k, l)) as EE. { unfold entry. rewrite E3. cbn [hid hval]. congruence. }
        apply winv_update with (p := PIncr k p) (ms := ms) (G := fun m => call_of (seen_call q) = Some (CDecr m)); auto; fold cf; fold acts'; fold cf'.
        -- intros y g. congruence.
        -- intros y [<-|Iy]; [right; split; [lia|exact UN]|auto].
        -- intros y Iy. left. right. exact Iy.
        -- constructor; auto.
        -- intros y Uy Ge. specialize (LT' y Uy). left. lia.
        -- intros q2 Eq2. congruence.
        -- cbn [map]. rewrite EE, ME. exact WP.
      * (* decr *)
        destruct HP as (x & Eq & I & Ek). rewrite Ec in Eq. injection Eq as ->. destruct Hr as (h & E1 & E3).
        assert (exists k', seen_call q = Decr x k') as (k' & Eq). { destruct q; cbn in Ec; try discriminate. injection Ec as ->. cbn. eauto. } rewrite Eq. cbn iota.
        destruct WP as (l & O1 & O2 & EO & WP).
        assert (entry cf x = (k, l)) as EE.
        { rewrite <- Ek. apply ENT; [apply in_or_app; auto|]. apply in_or_app. right. rewrite EO, Ek. apply in_elt. }
        apply winv_update with (p := PDecr k p) (ms := ms) (G := fun m => call_of (seen_call q) = Some (CDecr m)); auto; fold cf; fold acts'; fold cf'.
        -- intros y g. rewrite Ec in g. injection g as <-. split; auto. apply remove_In.
        -- intros y Iy. apply in_remove in Iy. tauto.
        -- intros y Iy. destruct (Nat.eq_dec y x) as [->|Hn]; [|left; apply in_in_remove; auto]. right. intros (h' & Eh & Hg). apply Hg.
           rewrite E3, (nth_upd_same _ _ _ _ E1) in Eh. injection Eh as <-. reflexivity.
        -- pose proof (remove_perm x ms ND I) as PM. apply (Permutation_NoDup PM) in ND. inversion ND; auto.
        -- intros y Uy Ge. specialize (LT' y Uy). rewrite E3, len_upd in LT'. lia.
        -- intros q2 Eq2. congruence.
        -- replace (map (entry cf') (remove Nat.eq_dec x ms)) with (map (entry cf) (remove Nat.eq_dec x ms)).
           ++ eapply wp_perm; [apply HQ| |exact WP]. apply (Permutation_cons_inv (a := (k, l))).
              rewrite <- EE at 2. change (entry cf x :: map (entry cf) (remove Nat.eq_dec x ms)) with (map (entry cf) (x :: remove Nat.eq_dec x ms)).
              rewrite <- (Permutation_map (entry cf) (remove_perm x ms ND I)), EO. apply Permutation_middle.
           ++ apply map_ext_in. intros y Iy. symmetry. apply (kept_entry _ _ _ _ K), HU, in_or_app. right. apply in_remove in Iy. tauto.
    + (* the call goes on *)
      rewrite E0. rewrite <- (upd_id _ _ _ Ep), <- (upd_id _ _ _ Em).
      apply winv_update with (p := p) (ms := ms) (G := fun m => call_of (seen_call q) = Some (CDecr m)); auto.
      * intros x g. elim (ND x g).
      * eapply nodup_one; [apply (b_once _ HB)|exact Em].
      * intros x (h & E & _) Ge. rewrite <- Lh in Ge. apply nth_error_None in Ge. congruence.
      * intros q2 Eq2. assert (q2 = seen_call q') by congruence. subst q2. eapply (pending_kept _ _ _ _ _ _ (seen_call q')); [exact K|exact HU|].
        revert HP. destruct p; cbn [pending]; rewrite ?Ec; auto.
      * replace (map (entry (S (wdone bc ++ [(WGo t pick, stale)]))) ms) with (map (entry (S (wdone bc))) ms); [apply (b_prog _ HB); auto|].
        apply map_ext_in. intros x I. symmetry. apply (kept_entry _ _ _ _ K), HU, in_or_app. auto.
  - (* between calls *)
    destruct (nth_error (wprogs bc) t) as [p|] eqn:Ep; auto. destruct (nth_error (wowned bc) t) as [ms|] eqn:Em; auto.
    destruct (next_call (S (wdone bc)) vs ms p m) as [c|] eqn:Ec; auto. cbn [wdone]. intros HF'. pose proof (P_prefix _ _ HF') as HF. pose proof (w_usable _ _ _ HB Em) as HU.
    destruct (begin_seen _ t c stale U Et) as (K & Lh & Hoth & Hc).
    rewrite <- (upd_id _ _ _ Ep), <- (upd_id _ _ _ Em). apply winv_update with (p := p) (ms := ms) (G := fun _ => False); auto.
    * intros x [].
    * eapply nodup_one; [apply (b_once _ HB)|exact Em].
    * intros x (h & E & _) Ge. rewrite <- Lh in Ge. apply nth_error_None in Ge. congruence.
    * intros q Eq. eapply next_pending; eauto.
    * replace (map (entry (S (wdone bc ++ [(WBegin t c, stale)]))) ms) with (map (entry (S (wdone bc))) ms); [apply (b_prog _ HB); auto|].
      apply map_ext_in. intros x I. symmetry. apply (kept_entry _ _ _ _ K), HU, in_or_app. auto.
Qed.

Lemma wbstep_done (bc : wbconf A) a : exists l, wdone (wbstep locked n vs bc a) = wdone bc ++ l.
Proof.
  destruct a as [t m pick stale|t u]; cbn [wbstep]; [|eexists; reflexivity]. destruct (nth_error (wthreads (W (wdone bc))) t) as [[[q|] U]|]; [..|exists []; rewrite app_nil_r; auto];
    (destruct (nth_error (wprogs bc) t) as [p|]; [|exists []; rewrite app_nil_r; auto]);
    (destruct (nth_error (wowned bc) t) as [ms|]; [|exists []; rewrite app_nil_r; auto]).
  - destruct (nth_error (wthreads (W (wdone bc ++ [(WGo t pick, stale)]))) t) as [[[?|] ?]|]; [eexists; reflexivity| |eexists; reflexivity]. destruct (resume _ _ _ _ _). eexists. reflexivity.
  - destruct (next_call _ _ _ _ _); [eexists; reflexivity|exists []; rewrite app_nil_r; auto].
Qed.
Lemma wbexec_done sched : forall bc : wbconf A, exists l, wdone (wbexec locked n vs sched bc) = wdone bc ++ l.
Proof.
  induction sched as [|a s IH]; intros bc; [exists []; rewrite app_nil_r; auto|]. destruct (wbstep_done bc a) as (l & E). destruct (IH (wbstep locked n vs bc a)) as (l' & E').
  exists (l ++ l'). cbn [wbexec fold_left]. fold (wbexec locked n vs s (wbstep locked n vs bc a)). rewrite E', E, app_assoc. reflexivity.
Qed.
Lemma winv_exec_b sched : forall bc, winv_b bc -> P (wdone (wbexec locked n vs sched bc)) -> winv_b (wbexec locked n vs sched bc).
Proof.
  induction sched as [|a s IH]; intros bc HB HF; [exact HB|]. cbn [wbexec fold_left] in *. fold (wbexec locked n vs s (wbstep locked n vs bc a)) in *.
  apply IH; auto. apply winv_step_b; auto. destruct (wbexec_done s (wbstep locked n vs bc a)) as (l & E). rewrite E in HF. eapply P_prefix; eauto.
Qed.
End Run.

(** ** Lock or turns *)

Lemma slots_step {T} (eqb : T -> T -> bool) locked cs a : (length (wslots (cbase cs)) <= length (wslots (cbase (cconf_step eqb locked cs a))))%nat.
Proof.
  assert (forall b t pick p V, (length (wslots b) <= length (wslots (wstep eqb locked b t pick p V)))%nat) as H.
  { intros b t pick p V. assert (forall (c : wconf T) t v k V, wslots (wadded locked c t v k V) = wslots c) as HW by (intros; unfold wadded; destruct locked; reflexivity).
    destruct p; cbn [wstep];
      repeat match goal with
      | |- context [match ?x with _ => _ end] =>
        match x with nth_error _ _ => destruct x | load_refs _ _ _ _ _ => destruct x | update_refs _ _ _ _ => destruct x
        | fst _ =? _ => destruct x | _ =? 0 => destruct x end
      end; rewrite ?HW; cbn [put put_slot put_handles put_read put_log wslots]; rewrite ?len_upd, ?app_length; try lia.
    destruct (wcont w); cbn; lia. }
  destruct a as [[t c|t pick|t u] stale]; cbn [cconf_step cbase wconf_step].
  - destruct (nth_error (wthreads (cbase cs)) t) as [[[q|] V]|]; auto. unfold wbegin. destruct c; repeat match goal with |- context [match ?x with _ => _ end] => destruct x end; apply le_n.
  - destruct (nth_error (wthreads (cbase cs)) t) as [[[q|] V]|]; auto.
    assert ((forall v, q <> WPush v) -> (length (wslots (cbase cs)) <= length (wslots (cbase (match looks_up q with
      | None => CConf (wstep eqb locked (cbase cs) t pick q V) (clinks cs)
      | Some i =>
        match reach (clinks cs) stale V i with
        | Some V' => CConf (wstep eqb locked (put (cbase cs) t (Some q) V') t pick q V') (clinks cs)
        | None => CConf (put (cbase cs) t (Some (match q with WFindRefs v _ => WPush v | _ => WBroken end)) V) (clinks cs)
        end
      end))))%nat) as HN.
    { intros _. destruct (looks_up q); [destruct (reach _ _ _ _)|]; cbn [cbase]; auto. apply (H (put (cbase cs) t (Some q) v)). }
    destruct q as [v k|v k c|v k|v k|v k|v|m k|m k|m k|m k|] eqn:Eq; try (apply HN; intros v'; discriminate).
    unfold cstep. cbn [cbase put wslots wstep]. rewrite app_length. lia.
  - destruct (nth_error (wthreads (cbase cs)) t) as [[[q|] V]|]; auto. destruct (nth_error (wthreads (cbase cs)) u) as [[[q|] V']|]; auto.
Qed.
Lemma slots_exec {T} (eqb : T -> T -> bool) locked acts : forall cs, (length (wslots (cbase cs)) <= length (wslots (cbase (cexec eqb locked acts cs))))%nat.
Proof.
  induction acts as [|a acts IH]; intros cs; [apply le_n|]. cbn [cexec fold_left]. etransitivity; [apply (slots_step eqb locked cs a)|apply IH].
Qed.

Lemma in_turn_prefix {T} (eqb : T -> T -> bool) a b : forall h cs, in_turn eqb h (a ++ b) cs -> in_turn eqb h a cs.
Proof.
  induction a as [|[x st] a IH]; intros h cs; [intros _; exact I|]. cbn [app in_turn fst].
  destruct x as [t [v|m|m|m]|t pick|t u]; try apply IH.
  - intros [E H]. split; auto.
  - intros [H|(E & B1 & B2 & H)]; [left; auto|right]. split; auto.
Qed.

Definition few_slots (locked : bool) (n : nat) (acts : list (waction (list Z) * bool)) : Prop := Z.of_nat (length (wslots (now locked n acts))) <= 2 ^ 62.
Lemma few_prefix locked n a b : few_slots locked n (a ++ b) -> few_slots locked n a.
Proof.
  unfold few_slots, now. unfold wrun, cexec at 1. rewrite fold_left_app. fold (cexec list_eqb locked a (cinitial n 0)).
  fold (cexec list_eqb locked b (cexec list_eqb locked a (cinitial n 0))). pose proof (slots_exec list_eqb locked b (cexec list_eqb locked a (cinitial n 0))). lia.
Qed.

Lemma list_eqb_eq a b : list_eqb a b = true -> a = b.
Proof. apply list_eqb_ok. Qed.

Lemma locked_keeps n acts : few_slots true n acts -> keeps (wrun true n acts).
Proof.
  intros F. split; [|exact F]. exists (wlock (cbase (wrun true n acts))).
  pose proof (proj1 (cinv_exec list_eqb list_eqb_eq acts _ (cinv_initial n 0))) as HI. fold (wrun true n acts) in HI. destruct (cbase (wrun true n acts)). exact HI.
Qed.
Lemma turns_keep n h acts : in_turn list_eqb h acts (cinitial n 0) -> few_slots false n acts -> keeps (wrun false n acts).
Proof.
  intros HT F. split; [|exact F]. destruct (tinv_exec list_eqb list_eqb_eq acts h _ (tinv_initial h n 0) HT) as (h' & lk & [HI _] & _). exists lk. exact HI.
Qed.
