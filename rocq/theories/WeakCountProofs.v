(** The shared interner under weak memory, with or without a lock around [add]: the reference counts. *)
From Coq Require Import ZArith List Bool PeanoNat Lia.
From Verif Require Import Base Arith ConcInternModel ConcInternProofs WeakInternModel WeakInternProofs WeakChunkModel WeakChunkProofs.
Import ListNotations.
Local Open Scope Z_scope.
Local Arguments cnt : simpl never.

Section Inv.
Context {T : Type} (eqb : T -> T -> bool) (locked : bool).
Implicit Types (sl : list (wslot T)) (ths : list (wthread T)) (hs : list (whandle T)) (V : view)
  (s : wslot T) (h : whandle T) (th : wthread T) (p : wpc T) (b : wconf T) (cs : cconf T) (rd : list (nat * option T)).

(** No message of the count that may be read is zero. *)
Definition nz s V (k : nat) : Prop := forall q m, nth_error (wmsgs s) q = Some m -> (bound V k <= q)%nat -> fst m <> 0.

Definition hfull sl h : Prop := exists s, nth_error sl (whid h) = Some s /\ chunks_to (whborn h) (S (whid h / 32)) /\
  (gone h = false -> wcont s <> None /\ nz s (whborn h) (whid h)).

Definition pc2 sl hs V p : Prop :=
  match p with
  | WFindRefs _ k => (k mod 32)%nat = 0%nat \/ chunks_to V (S (k / 32))
  | WPush _ => True
  | WFindVal _ k _ | WIncrDead _ k => (exists s, nth_error sl k = Some s) /\ chunks_to V (S (k / 32))
  | WIncrLive _ k => (exists s, nth_error sl k = Some s /\ wcont s <> None) /\ chunks_to V (S (k / 32))
  | WSetVal _ k => (exists s, nth_error sl k = Some s /\ nz s V k) /\ chunks_to V (S (k / 32))
  | WIncr n k | WGetRefs n k | WGetVal n k | WDecr n k => exists h, nth_error hs n = Some h /\ whid h = k /\ incl (whborn h) V
  | WBroken => False
  end.

Definition rok hs rd : Prop := forall n o, In (n, o) rd -> o <> None /\ (n < length hs)%nat.

Record uinv sl hs ths rd (n : nat) : Prop := {
  ui_len : length sl = (32 * n)%nat;
  ui_count : ccount sl hs ths;
  ui_use : cuse hs ths;
  ui_hand : forall m h, nth_error hs m = Some h -> hfull sl h;
  ui_pc : forall t th p, nth_error ths t = Some th -> wpos th = Some p -> pc2 sl hs (wview th) p;
  ui_reads : rok hs rd }.

Definition sgrow sl sl' : Prop := forall k s, nth_error sl k = Some s -> exists s', nth_error sl' k = Some s' /\
  (wcont s <> None -> wcont s' <> None) /\ (wmsgs s' = wmsgs s \/ exists m, wmsgs s' = wmsgs s ++ [m]).

Lemma sgrow_refl sl : sgrow sl sl.
Proof. intros k s E. exists s. auto. Qed.
Lemma sgrow_msg sl k s m : nth_error sl k = Some s -> sgrow sl (upd sl k (WSlot (wmsgs s ++ [m]) (wcont s))).
Proof.
  intros Ek k' x Ex. destruct (nth_upd_slot _ _ _ (WSlot (wmsgs s ++ [m]) (wcont s)) _ _ Ek Ex) as (x' & E' & [[-> ->]|[_ ->]]); exists x' || eexists.
  - split; [exact E'|]. rewrite Ek in Ex. injection Ex as <-. cbn. eauto.
  - split; [exact E'|]. auto.
Qed.

Lemma nz_grow s s' V k : nz s V k -> (wmsgs s' = wmsgs s \/ exists m, wmsgs s' = wmsgs s ++ [m]) -> fst (lst s') <> 0 -> nz s' V k.
Proof.
  intros H [E|[m E]] L q x Ex Hq; rewrite E in Ex; [eauto|]. destruct (nth_snoc_cases _ _ _ _ Ex) as [E'|[_ ->]]; [eauto|].
  unfold lst in L. rewrite E, last_last in L. exact L.
Qed.
Lemma nz_last s V k : (length (wmsgs s) <= S (bound V k))%nat -> fst (lst s) <> 0 -> nz s V k.
Proof. intros H L q x Ex Hq. assert (length (wmsgs s) <= S q)%nat as Hl by (eapply Nat.le_trans; [exact H|]; apply le_n_S, Hq). rewrite (nth_last _ _ _ (0, []) Ex Hl). exact L. Qed.
Lemma nz_incl s V V' k : incl V V' -> nz s V k -> nz s V' k.
Proof. intros HI H q x Ex Hq. pose proof (bound_incl V V' k HI). eapply H; eauto. lia. Qed.

Lemma count_live sl hs ths k s m h : ccount sl hs ths -> nth_error sl k = Some s -> nth_error hs m = Some h -> whid h = k -> gone h = false -> fst (lst s) <> 0.
Proof. intros C Ek Em Hk Hg. destruct (C k s Ek) as [_ ->]. pose proof (hw_some _ _ _ _ Em Hk Hg). lia. Qed.
Lemma count_arr sl hs ths k s t th : ccount sl hs ths -> nth_error sl k = Some s -> nth_error ths t = Some th -> arr k th = true -> fst (lst s) <> 0.
Proof. intros C Ek Et A. destruct (C k s Ek) as [_ ->]. pose proof (cnt_pos (arr k) _ _ _ Et A). lia. Qed.

Lemma pc2_incl sl hs V V' p : incl V V' -> pc2 sl hs V p -> pc2 sl hs V' p.
Proof.
  intros HI. destruct p; cbn; auto.
  - intros [H|H]; [auto|right; eapply chunks_incl; eauto].
  - intros [H C]. split; [exact H|eapply chunks_incl; eauto].
  - intros [H C]. split; [exact H|eapply chunks_incl; eauto].
  - intros [H C]. split; [exact H|eapply chunks_incl; eauto].
  - intros [(s & E & H) C]. split; [|eapply chunks_incl; eauto]. exists s. split; [exact E|]. eapply nz_incl; eauto.
  - intros (h & E & H & C). exists h. split; [exact E|]. split; [exact H|]. eapply incl_tran; eauto.
  - intros (h & E & H & C). exists h. split; [exact E|]. split; [exact H|]. eapply incl_tran; eauto.
  - intros (h & E & H & C). exists h. split; [exact E|]. split; [exact H|]. eapply incl_tran; eauto.
  - intros (h & E & H & C). exists h. split; [exact E|]. split; [exact H|]. eapply incl_tran; eauto.
Qed.

Definition from_old hs m h' : Prop := exists h, nth_error hs m = Some h /\ whid h' = whid h /\ whborn h' = whborn h /\ (gone h' = false -> gone h = false).

(** One thread takes a step. *)
Lemma uinv_gen sl hs ths rd n t th sl' hs' th' rd' n' : uinv sl hs ths rd n -> nth_error ths t = Some th ->
  length sl' = (32 * n')%nat -> sgrow sl sl' -> ccount sl' hs' (upd ths t th') -> cuse hs' (upd ths t th') ->
  (forall m h', nth_error hs' m = Some h' -> from_old hs m h' \/ hfull sl' h') -> hkeeps hs hs' ->
  (forall p, wpos th' = Some p -> pc2 sl' hs' (wview th') p) -> rok hs' rd' ->
  uinv sl' hs' (upd ths t th') rd' n'.
Proof.
  intros HU Et L G C U HH HK HP HR. constructor; auto.
  - intros m h' Em. destruct (HH m h' Em) as [(h & Eh & E1 & E2 & Hg)|F]; [|exact F].
    destruct (ui_hand _ _ _ _ _ HU m h Eh) as (s & Es & HC & Hl). destruct (G _ _ Es) as (s' & Es' & G1 & G2).
    exists s'. rewrite E1, E2. split; [exact Es'|]. split; [exact HC|]. intros Hg'. destruct (Hl (Hg Hg')) as [L1 L2]. split; [auto|].
    eapply nz_grow; eauto. eapply count_live; [exact C|exact Es'|exact Em|exact E1|exact Hg'].
  - intros u x p Eu Ep. destruct (nth_upd_cases _ _ _ _ _ Eu) as [[-> ->]|[Hne E']]; [auto|].
    pose proof (ui_pc _ _ _ _ _ HU _ _ _ E' Ep) as P.
    assert (forall k, (exists s, nth_error sl k = Some s) -> exists s, nth_error sl' k = Some s) as GE
      by (intros k [s Es]; destruct (G _ _ Es) as (s' & Es' & _); eauto).
    assert (forall m k, (exists h, nth_error hs m = Some h /\ whid h = k /\ incl (whborn h) (wview x)) ->
       exists h, nth_error hs' m = Some h /\ whid h = k /\ incl (whborn h) (wview x)) as GH.
    { intros m k (h & Eh & H1 & H2). destruct (HK m h Eh) as (h' & E1 & E2 & E3 & _). exists h'. rewrite E2, E3. auto. }
    destruct p; cbn in *; auto.
    + destruct P; auto.
    + destruct P as [(s & Es & H) HC]. split; [|exact HC]. destruct (G _ _ Es) as (s' & Es' & G1 & _). eauto.
    + destruct P; auto.
    + destruct P as [(s & Es & H) HC]. split; [|exact HC]. destruct (G _ _ Es) as (s' & Es' & _ & G2). exists s'. split; [exact Es'|].
      eapply nz_grow; eauto. eapply count_arr; [exact C|exact Es'|exact Eu|]. unfold arr. rewrite Ep. apply Nat.eqb_refl.
Qed.

Lemma old_refl hs m h : nth_error hs m = Some h -> from_old hs m h.
Proof. intros E. exists h. auto. Qed.
Lemma old_upd hs n h h' m x : nth_error hs n = Some h -> whid h' = whid h -> whborn h' = whborn h -> (gone h' = false -> gone h = false) ->
  nth_error (upd hs n h') m = Some x -> from_old hs m x.
Proof. intros En E1 E2 Hg E. destruct (nth_upd_cases _ _ _ _ _ E) as [[-> ->]|[_ E']]; [exists h; auto|apply old_refl, E']. Qed.
Lemma rok_keeps hs hs' rd : (length hs <= length hs')%nat -> rok hs rd -> rok hs' rd.
Proof. intros L H n o Hi. destruct (H n o Hi). split; [auto|lia]. Qed.

(** Counts when only the positions change, with nobody on the way in or out. *)
Lemma ccount_pos sl hs ths hs' t th th' : nth_error ths t = Some th -> (forall k, arr k th' = arr k th) -> (forall k, cnt (hw k) hs' = cnt (hw k) hs) ->
  ccount sl hs ths -> ccount sl hs' (upd ths t th').
Proof.
  intros Et A HC C k s E. destruct (C k s E) as [Hm Hc]. split; [exact Hm|]. rewrite HC, Hc. f_equal. f_equal.
  pose proof (cnt_upd (arr k) _ _ th' _ Et) as CU. rewrite A in CU. lia.
Qed.

(** A message is appended. *)
Lemma ccount_msg sl hs ths hs' t th th' k s c V : nth_error sl k = Some s -> nth_error ths t = Some th ->
  (forall k', k' <> k -> cnt (hw k') hs' + b2n (arr k' th') = cnt (hw k') hs + b2n (arr k' th))%nat ->
  c = fst (lst s) + Z.of_nat (cnt (hw k) hs' + b2n (arr k th')) - Z.of_nat (cnt (hw k) hs + b2n (arr k th)) ->
  ccount sl hs ths -> ccount (upd sl k (WSlot (wmsgs s ++ [(c, V)]) (wcont s))) hs' (upd ths t th').
Proof.
  intros Ek Et HO HC C k' s' E. pose proof (cnt_upd (arr k') _ _ th' _ Et) as CU.
  destruct (nth_upd_cases _ _ _ _ _ E) as [[-> ->]|[Hne E']].
  - split; [cbn; destruct (wmsgs s); discriminate|]. rewrite lst_snoc. cbn [fst]. destruct (C k s Ek) as [_ Hc]. lia.
  - destruct (C k' s' E') as [Hm Hc]. split; [exact Hm|]. specialize (HO k' ltac:(auto)). lia.
Qed.

(** A thread is at [p] or idle and moves without touching slots or handles. *)
Lemma uinv_move sl hs ths rd n t th th' : uinv sl hs ths rd n -> nth_error ths t = Some th ->
  (forall k, arr k th' = arr k th) -> (forall m, bor m th' = bor m th) -> (forall m, lev m th' = lev m th) ->
  (forall p, wpos th' = Some p -> pc2 sl hs (wview th') p) -> uinv sl hs (upd ths t th') rd n.
Proof.
  intros HU Et A B L HP. eapply uinv_gen; eauto using sgrow_refl, old_refl, hkeeps_refl.
  - apply (ui_len _ _ _ _ _ HU).
  - eapply ccount_pos; eauto. apply (ui_count _ _ _ _ _ HU).
  - eapply cuse_plain; eauto. apply (ui_use _ _ _ _ _ HU).
  - apply (ui_reads _ _ _ _ _ HU).
Qed.

Definition binv b n : Prop := uinv (wslots b) (whandles b) (wthreads b) (wreads b) n.

Lemma binv_see b t (p : option (wpc T)) V (W : view) n : binv b n -> nth_error (wthreads b) t = Some (WThread p V) -> binv (put b t p (W ++ V)) n.
Proof.
  intros HU Et. unfold binv, put. cbn. apply (uinv_move _ _ _ _ _ _ _ _ HU Et); try reflexivity.
  cbn. intros q ->. eapply pc2_incl; [apply incl_appr, incl_refl|]. apply (ui_pc _ _ _ _ _ HU _ _ _ Et eq_refl).
Qed.

Lemma gone_held h u : whst h = Held u -> gone h = false.
Proof. unfold gone. intros ->. reflexivity. Qed.

Lemma binv_take b t V n h u (q : wpc T) N : binv b N -> nth_error (wthreads b) t = Some (WThread None V) ->
  nth_error (whandles b) n = Some h -> whst h = Held u -> (q = WIncr n (whid h) \/ q = WGetRefs n (whid h)) ->
  binv (put (put_handles b (upd (whandles b) n (WHandle (whid h) (whval h) (Held (u + 1)) (whborn h) (whused h)))) t (Some q) (whborn h ++ V)) N.
Proof.
  intros HU Et En Hst Hq. set (h' := WHandle (whid h) (whval h) (Held (u + 1)) (whborn h) (whused h)).
  set (th' := WThread (Some q) (whborn h ++ V)). pose proof (gone_held _ _ Hst) as Hg.
  unfold binv, put, put_handles. cbn. fold h' th'. eapply uinv_gen; [exact HU|exact Et|apply (ui_len _ _ _ _ _ HU)|apply sgrow_refl| | | | | |].
  - eapply ccount_pos; [exact Et| |apply hw_same with (h := h); auto|apply (ui_count _ _ _ _ _ HU)]. intros k. destruct Hq as [->| ->]; reflexivity.
  - eapply (cuse_upd _ _ _ _ _ _ h h' false true false false); eauto; try reflexivity; try (intros m; destruct Hq as [->| ->]; reflexivity).
    + rewrite Hst. cbn. split; [lia|reflexivity].
    + apply (ui_use _ _ _ _ _ HU).
  - intros m x E. left. eapply old_upd with (h' := h'); [exact En|reflexivity|reflexivity|intros _; exact Hg|eassumption].
  - eapply hkeeps_upd; [exact En|reflexivity..].
  - cbn. intros p [= <-].
    assert (exists h0, nth_error (upd (whandles b) n h') n = Some h0 /\ whid h0 = whid h /\ incl (whborn h0) (whborn h ++ V)) as HX.
    { exists h'. split; [eapply nth_upd_same; eauto|]. split; [reflexivity|]. apply incl_appl, incl_refl. }
    destruct Hq as [->| ->]; exact HX.
  - eapply rok_keeps; [|apply (ui_reads _ _ _ _ _ HU)]. rewrite length_upd. lia.
Qed.

Lemma binv_leave b t V n h N : binv b N -> nth_error (wthreads b) t = Some (WThread None V) ->
  nth_error (whandles b) n = Some h -> whst h = Held 0 ->
  binv (put (put_handles b (upd (whandles b) n (WHandle (whid h) (whval h) Leaving (whborn h) (whused h)))) t (Some (WDecr n (whid h))) (whborn h ++ whused h ++ V)) N.
Proof.
  intros HU Et En Hst. set (h' := WHandle (whid h) (whval h) Leaving (whborn h) (whused h)).
  set (th' := WThread (T := T) (Some (WDecr n (whid h))) (whborn h ++ whused h ++ V)). pose proof (gone_held _ _ Hst) as Hg.
  unfold binv, put, put_handles. cbn. fold h' th'. eapply uinv_gen; [exact HU|exact Et|apply (ui_len _ _ _ _ _ HU)|apply sgrow_refl| | | | | |].
  - eapply ccount_pos; [exact Et| |apply hw_same with (h := h); auto|apply (ui_count _ _ _ _ _ HU)]. reflexivity.
  - eapply (cuse_upd _ _ _ _ _ _ h h' false false false true); eauto; try reflexivity; [rewrite Hst; cbn; auto|apply (ui_use _ _ _ _ _ HU)].
  - intros m x E. left. eapply old_upd with (h' := h'); [exact En|reflexivity|reflexivity|intros _; exact Hg|eassumption].
  - eapply hkeeps_upd; [exact En|reflexivity..].
  - cbn. intros p [= <-]. exists h'. split; [eapply nth_upd_same; eauto|]. split; [reflexivity|]. apply incl_appl, incl_refl.
  - eapply rok_keeps; [|apply (ui_reads _ _ _ _ _ HU)]. rewrite length_upd. lia.
Qed.

Lemma binv_begin b t V c N : binv b N -> nth_error (wthreads b) t = Some (WThread None V) -> binv (wbegin locked b t V c) N.
Proof.
  intros HU Et. unfold wbegin. destruct c as [v|n|n|n].
  - assert (forall W : view, binv (put b t (Some (WFindRefs v 0)) (W ++ V)) N) as H.
    { intros W. unfold binv, put. cbn. apply (uinv_move _ _ _ _ _ _ _ _ HU Et); try reflexivity. intros p [= <-]. left. reflexivity. }
    destruct locked; [destruct (existsb _ _); [exact HU|apply H]|apply (H [])].
  - destruct (nth_error (whandles b) n) as [[k x [u| |] bn us]|] eqn:En; auto.
    apply (binv_take b t V n (WHandle k x (Held u) bn us) u); auto.
  - destruct (nth_error (whandles b) n) as [[k x [[|u]| |] bn us]|] eqn:En; auto.
    apply (binv_leave b t V n (WHandle k x (Held 0) bn us)); auto.
  - destruct (nth_error (whandles b) n) as [[k x [u| |] bn us]|] eqn:En; auto.
    apply (binv_take b t V n (WHandle k x (Held u) bn us) u); auto.
Qed.

(** ** Steps *)

Lemma next_chunk k V : chunks_to V (S (k / 32)) -> (S k mod 32)%nat = 0%nat \/ chunks_to V (S (S k / 32)).
Proof.
  intros H. destruct (Nat.eq_dec (S k mod 32) 0) as [E|E]; [auto|]. right.
  assert (S k / 32 = k / 32)%nat as ->; [|exact H].
  pose proof (Nat.div_mod k 32 ltac:(lia)). pose proof (Nat.div_mod (S k) 32 ltac:(lia)).
  pose proof (Nat.mod_upper_bound k 32 ltac:(lia)). pose proof (Nat.mod_upper_bound (S k) 32 ltac:(lia)). lia.
Qed.

Lemma binv_step b t pick p V N : binv b N -> nth_error (wthreads b) t = Some (WThread (Some p) V) -> (forall v, p <> WPush v) ->
  (forall i, looks_up p = Some i -> chunks_to V (S i)) ->
  binv (wstep eqb locked b t pick p V) N.
Proof.
  intros HU Et HN HL. pose proof (ui_pc _ _ _ _ _ HU _ _ _ Et eq_refl) as HP. cbn [wview] in HP.
  pose proof (ui_len _ _ _ _ _ HU) as HS. pose proof (ui_count _ _ _ _ _ HU) as HC.
  destruct p as [v k|v k c|v k|v k|v k|v|n k|n k|n k|n k|]; unfold wstep.
  - (* the count is read *)
    destruct (nth_error (wslots b) k) as [s|] eqn:Ek.
    + destruct (HC k s Ek) as [Hm _]. destruct (load_ok s k pick true V Hm) as (q & m & _ & _ & ->).
      unfold binv, put. cbn. apply (uinv_move _ _ _ _ _ _ _ _ HU Et); try reflexivity. cbn. intros p [= <-]. split; [eauto|].
      assert (chunks_to V (S (k / 32))) as HCk.
      { destruct HP as [H|H]; [|exact H]. apply HL. cbn [looks_up]. rewrite H. reflexivity. }
      eapply chunks_incl; [|exact HCk]. apply incl_tl, incl_appr, incl_refl.
    + unfold binv, put. cbn. apply (uinv_move _ _ _ _ _ _ _ _ HU Et); try reflexivity. cbn. intros p [= <-]. exact I.
  - (* the value is read *)
    destruct HP as [[s Ek] HCk]. rewrite Ek. unfold binv, put, put_log. cbn.
    apply (uinv_move _ _ _ _ _ _ _ _ HU Et); try reflexivity;
      try (intros; destruct (match wcont s with Some cur => eqb v cur | None => false end); [|destruct (c =? 0)]; reflexivity).
    cbn. intros p [= <-]. assert (chunks_to (Acc (length (wlog b)) :: V) (S (k / 32))) as HC' by (eapply chunks_incl; [|exact HCk]; apply incl_tl, incl_refl).
    destruct (wcont s) as [cur|] eqn:Ec.
    + destruct (eqb v cur); [|destruct (c =? 0)]; cbn; [split; [exists s; split; [exact Ek|congruence]|exact HC']|split; eauto|apply next_chunk, HC'].
    + destruct (c =? 0); cbn; [split; eauto|apply next_chunk, HC'].
  - (* one more reference to a value found *)
    destruct HP as [(s & Ek & Hv) HCk]. rewrite Ek, upd_refs.
    set (V' := Pos k (length (wmsgs s)) :: snd (lst s) ++ V). set (h := WHandle k v (Held 0) V' []). set (th' := WThread (T := T) None V').
    assert (incl V V') as HV by apply incl_tl, incl_appr, incl_refl.
    unfold wadded, binv, put, put_handles, put_lock, put_slot. destruct locked; cbn; fold h th';
    (eapply uinv_gen; [exact HU|exact Et|rewrite length_upd; exact HS|apply sgrow_msg; exact Ek| | | | | |]);
    try (apply cuse_app; [reflexivity|]; eapply cuse_plain; eauto; apply (ui_use _ _ _ _ _ HU));
    try apply hkeeps_app; try discriminate;
    try (eapply rok_keeps; [|apply (ui_reads _ _ _ _ _ HU)]; rewrite app_length; lia).
    1,3: apply ccount_msg with (hs := whandles b) (th := WThread (Some (WIncrLive v k)) V); auto; [intros k' Hne; rewrite cnt_snoc; unfold hw at 2; cbn; rewrite (proj2 (Nat.eqb_neq k k')) by auto; cbn; lia
           |rewrite cnt_snoc; unfold hw at 2; cbn; rewrite Nat.eqb_refl; cbn; lia].
    1,2: (intros m x E; destruct (nth_snoc_cases _ _ _ _ E) as [E'|[_ ->]]; [left; apply old_refl, E'|right];
      exists (WSlot (wmsgs s ++ [(fst (lst s) + 1, V')]) (wcont s)); cbn [whid whborn h]; split; [eapply nth_upd_same; eauto|];
      split; [eapply chunks_incl; eauto|]; intros _; split; [exact Hv|]; apply nz_last; [cbn [wmsgs]; rewrite app_length; cbn [length]; pose proof (bound_here k (length (wmsgs s)) (snd (lst s) ++ V)) as Hb; fold V' in Hb; lia
        |rewrite lst_snoc; cbn [fst]; destruct (HC k s Ek) as [_ ->]; lia]).
  - (* one more reference to a free slot *)
    destruct HP as [(s & Ek) HCk]. rewrite Ek, upd_refs.
    set (V' := Pos k (length (wmsgs s)) :: snd (lst s) ++ V). set (th' := WThread (Some (WSetVal v k)) V').
    assert (incl V V') as HV by apply incl_tl, incl_appr, incl_refl.
    unfold binv, put, put_slot. cbn. fold th'.
    eapply uinv_gen; [exact HU|exact Et|rewrite length_upd; exact HS|apply sgrow_msg; exact Ek| | | | | |].
    + apply ccount_msg with (hs := whandles b) (th := WThread (Some (WIncrDead v k)) V); auto; [intros k' Hne; cbn; rewrite (proj2 (Nat.eqb_neq k k')) by auto; reflexivity|].
      cbn. rewrite Nat.eqb_refl. cbn. lia.
    + eapply cuse_plain; eauto. apply (ui_use _ _ _ _ _ HU).
    + intros m x E. left. apply old_refl, E.
    + apply hkeeps_refl.
    + cbn. intros p [= <-]. split; [|eapply chunks_incl; eauto]. eexists. split; [eapply nth_upd_same; eauto|].
      apply nz_last; [cbn [wmsgs]; rewrite app_length; cbn [length]; pose proof (bound_here k (length (wmsgs s)) (snd (lst s) ++ V)) as Hb; fold V' in Hb; lia|].
      rewrite lst_snoc. cbn [fst]. destruct (HC k s Ek) as [_ ->]. lia.
    + apply (ui_reads _ _ _ _ _ HU).
  - (* the value is written *)
    destruct HP as [(s & Ek & Hz) HCk]. rewrite Ek.
    set (V' := Acc (length (wlog b)) :: V). set (h := WHandle k v (Held 0) V' []). set (th' := WThread (T := T) None V').
    assert (incl V V') as HV by apply incl_tl, incl_refl.
    assert (sgrow (wslots b) (upd (wslots b) k (WSlot (wmsgs s) (Some v)))) as HG.
    { intros k' x Ex. destruct (nth_upd_slot _ _ _ (WSlot (wmsgs s) (Some v)) _ _ Ek Ex) as (x' & E' & [[-> ->]|[_ ->]]); [|exists x; auto].
      eexists. split; [exact E'|]. rewrite Ek in Ex. injection Ex as <-. cbn. split; [discriminate|auto]. }
    unfold wadded, binv, put, put_handles, put_lock, put_slot, put_log. destruct locked; cbn; fold h th';
    (eapply uinv_gen; [exact HU|exact Et|rewrite length_upd; exact HS|exact HG| | | | | |]);
    try (apply cuse_app; [reflexivity|]; eapply cuse_plain; eauto; apply (ui_use _ _ _ _ _ HU));
    try apply hkeeps_app; try discriminate;
    try (eapply rok_keeps; [|apply (ui_reads _ _ _ _ _ HU)]; rewrite app_length; lia).
    1,3: (intros k' s' E; rewrite cnt_snoc; pose proof (cnt_upd (arr k') _ _ th' _ Et) as C; cbn in C; unfold hw at 2; cbn;
      destruct (nth_upd_cases _ _ _ _ _ E) as [[-> ->]|[Hne E']];
      [destruct (HC k s Ek) as [Hm Hc]; split; [exact Hm|]; change (lst (WSlot (wmsgs s) (Some v))) with (lst s); rewrite Nat.eqb_refl in *; cbn in *; lia
      |destruct (HC k' s' E') as [Hm' Hc']; split; [exact Hm'|]; rewrite (proj2 (Nat.eqb_neq k k')) in * by auto; cbn in *; lia]).
    1,2: (intros m x E; destruct (nth_snoc_cases _ _ _ _ E) as [E'|[_ ->]]; [left; apply old_refl, E'|right];
      exists (WSlot (wmsgs s) (Some v)); cbn [whid whborn h]; split; [eapply nth_upd_same; eauto|];
      split; [eapply chunks_incl; eauto|]; intros _; split; [discriminate|]; eapply nz_incl; [exact HV|exact Hz]).
  - destruct (HN v eq_refl).
  - (* incr *)
    destruct HP as (h & En & Hk & Hb). subst k. destruct (in_use _ _ _ _ _ _ (ui_use _ _ _ _ _ HU) Et (Nat.eqb_refl n) En) as [u Hst].
    destruct (ui_hand _ _ _ _ _ HU _ _ En) as (s & Ek & HCk & Hh). pose proof (gone_held _ _ Hst) as Hg. destruct (Hh Hg) as [H1 H2].
    rewrite Ek, upd_refs, En, (unuse_eq _ _ _ _ _ En Hst). set (k := whid h) in *.
    set (V' := Pos k (length (wmsgs s)) :: snd (lst s) ++ V). set (hn := WHandle k (whval h) (Held 0) V' []).
    set (h' := WHandle k (whval h) (Held u) (whborn h) (V' ++ whused h)). set (th' := WThread (T := T) None V').
    assert (incl V V') as HV by apply incl_tl, incl_appr, incl_refl.
    assert (forall j, cnt (hw j) (upd (whandles b) n h') = cnt (hw j) (whandles b)) as HW by (apply hw_same with (h := h); auto).
    unfold binv, put, put_handles, put_slot. cbn [wslots wlog wthreads whandles wreads wlock]. fold h' hn th'.
    eapply uinv_gen; [exact HU|exact Et|rewrite length_upd; exact HS|apply sgrow_msg; exact Ek| | | | | |].
    + apply ccount_msg with (th := WThread (Some (WIncr n k)) V) (hs := whandles b); auto.
      * intros k' Hne. rewrite cnt_snoc, HW. unfold hw at 2. cbn. rewrite (proj2 (Nat.eqb_neq k k')) by auto. cbn. lia.
      * rewrite cnt_snoc, HW. unfold hw at 2. cbn. rewrite Nat.eqb_refl. cbn. lia.
    + apply cuse_app; [reflexivity|]. eapply (cuse_upd _ _ _ _ _ _ h h' true false false false); eauto; try reflexivity; [rewrite Hst; cbn; split; [lia|reflexivity]|apply (ui_use _ _ _ _ _ HU)].
    + intros m x E. destruct (nth_snoc_cases _ _ _ _ E) as [E'|[_ ->]]; [left; (eapply old_upd with (h' := h'); [exact En|reflexivity|reflexivity|intros _; exact Hg|eassumption])|right].
      exists (WSlot (wmsgs s ++ [(fst (lst s) + 1, V')]) (wcont s)). cbn [whid whborn hn]. split; [eapply nth_upd_same; eauto|].
      split; [eapply chunks_incl; [exact HV|]; eapply chunks_incl; eauto|]. intros _. split; [exact H1|].
      apply nz_last; [cbn [wmsgs]; rewrite app_length; cbn [length]; pose proof (bound_here k (length (wmsgs s)) (snd (lst s) ++ V)) as Hb'; fold V' in Hb'; lia|].
      rewrite lst_snoc. cbn [fst]. destruct (HC k s Ek) as [_ ->]. lia.
    + apply (hkeeps_trans _ (upd (whandles b) n h')); [eapply hkeeps_upd; [exact En|reflexivity..]|apply hkeeps_app].
    + discriminate.
    + eapply rok_keeps; [|apply (ui_reads _ _ _ _ _ HU)]. rewrite app_length, length_upd. lia.
  - (* decr *)
    destruct HP as (h & En & Hk & _). subst k.
    pose proof (in_leave _ _ _ _ _ _ (ui_use _ _ _ _ _ HU) Et (Nat.eqb_refl n) En) as Hst.
    destruct (ui_hand _ _ _ _ _ HU _ _ En) as (s & Ek & HCk & Hh). assert (gone h = false) as Hg by (unfold gone; rewrite Hst; reflexivity).
    rewrite Ek, En, upd_refs. set (k := whid h) in *.
    pose proof (count_live _ _ _ _ _ _ _ HC Ek En eq_refl Hg) as H0. change (last (wmsgs s) (0, [])) with (lst s). rewrite (proj2 (Z.eqb_neq (fst (lst s)) 0)) by exact H0.
    set (V' := Pos k (length (wmsgs s)) :: snd (lst s) ++ V).
    set (h' := WHandle k (whval h) Gone (whborn h) (whused h)). set (th' := WThread (T := T) None V').
    assert (forall k', cnt (hw k') (upd (whandles b) n h') + b2n (Nat.eqb k k') = cnt (hw k') (whandles b))%nat as HW.
    { intros k'. pose proof (cnt_upd (hw k') _ _ h' _ En) as C. unfold hw in C at 2 4. rewrite Hg in C. cbn in C. fold k in C.
      rewrite andb_true_r, andb_false_r in C. cbn in C. lia. }
    unfold binv, put, put_handles, put_slot. cbn [wslots wlog wthreads whandles wreads wlock]. fold th'.
    eapply uinv_gen; [exact HU|exact Et|rewrite length_upd; exact HS|apply sgrow_msg; exact Ek| | | | | |].
    + apply ccount_msg with (th := WThread (Some (WDecr n k)) V) (hs := whandles b); auto.
      * intros k' Hne. specialize (HW k'). rewrite (proj2 (Nat.eqb_neq k k')) in HW by auto. cbn in *. lia.
      * specialize (HW k). rewrite Nat.eqb_refl in HW. cbn in *. lia.
    + eapply (cuse_upd _ _ _ _ _ _ h h' false false true false); eauto; try reflexivity; [rewrite Hst; cbn; auto|apply (ui_use _ _ _ _ _ HU)].
    + intros m x E. left. eapply old_upd with (h' := h'); [exact En|reflexivity|reflexivity|intros _; exact Hg|eassumption].
    + eapply hkeeps_upd; [exact En|reflexivity..].
    + discriminate.
    + eapply rok_keeps; [|apply (ui_reads _ _ _ _ _ HU)]. rewrite length_upd. lia.
  - (* get: the count *)
    destruct HP as (h & En & Hk & Hb). subst k. destruct (in_use _ _ _ _ _ _ (ui_use _ _ _ _ _ HU) Et (Nat.eqb_refl n) En) as [u Hst].
    destruct (ui_hand _ _ _ _ _ HU _ _ En) as (s & Ek & HCk & Hh). pose proof (gone_held _ _ Hst) as Hg. destruct (Hh Hg) as [H1 H2].
    rewrite Ek. destruct (HC _ s Ek) as [Hm _]. destruct (load_ok s (whid h) pick false V Hm) as (q & m & Em & Hq & ->).
    assert (fst m <> 0) as Hm0.
    { destruct Hq as [Hq|Hq]; [|rewrite (nth_last _ _ _ (0, []) Em Hq); eapply count_live; eauto].
      eapply H2; eauto. pose proof (bound_incl _ _ (whid h) Hb). lia. }
    rewrite (proj2 (Z.eqb_neq (fst m) 0)) by exact Hm0. unfold binv, put. cbn.
    apply (uinv_move _ _ _ _ _ _ _ _ HU Et); try reflexivity. cbn. intros p [= <-]. exists h. split; [exact En|]. split; [reflexivity|].
    eapply incl_tran; [exact Hb|]. apply incl_tl, incl_refl.
  - (* get: the value *)
    destruct HP as (h & En & Hk & Hb). subst k. destruct (in_use _ _ _ _ _ _ (ui_use _ _ _ _ _ HU) Et (Nat.eqb_refl n) En) as [u Hst].
    destruct (ui_hand _ _ _ _ _ HU _ _ En) as (s & Ek & HCk & Hh). pose proof (gone_held _ _ Hst) as Hg. destruct (Hh Hg) as [H1 H2].
    rewrite Ek. destruct (wcont s) as [v|] eqn:Ev; [|congruence]. rewrite (unuse_eq _ _ _ _ _ En Hst).
    set (h' := WHandle (whid h) (whval h) (Held u) (whborn h) ((Acc (length (wlog b)) :: V) ++ whused h)).
    set (th' := WThread (T := T) None (Acc (length (wlog b)) :: V)).
    unfold binv, put, put_handles, put_read, put_log. cbn [wslots wlog wthreads whandles wreads wlock]. fold th'.
    eapply uinv_gen; [exact HU|exact Et|exact HS|apply sgrow_refl| | | | | |].
    + eapply ccount_pos; [exact Et| |apply hw_same with (h := h); auto|exact HC]. reflexivity.
    + eapply (cuse_upd _ _ _ _ _ _ h h' true false false false); eauto; try reflexivity; [rewrite Hst; cbn; split; [lia|reflexivity]|apply (ui_use _ _ _ _ _ HU)].
    + intros m x E. left. eapply old_upd with (h' := h'); [exact En|reflexivity|reflexivity|intros _; exact Hg|eassumption].
    + eapply hkeeps_upd; [exact En|reflexivity..].
    + discriminate.
    + intros m o Hi. apply in_app_iff in Hi. rewrite length_upd. destruct Hi as [Hi|[[= <- <-]|[]]]; [apply (ui_reads _ _ _ _ _ HU); exact Hi|].
      split; [discriminate|]. eapply nth_lt; eauto.
  - destruct HP.
Qed.

(** ** With the list of chunks *)
Definition sinv cs : Prop := binv (cbase cs) (length (clinks cs)).

Lemma reach_all links stale V i V' : reach links stale V i = Some V' -> exists W, V' = W ++ V /\ chunks_to V' (S i).
Proof.
  unfold reach. destruct (Nat.ltb i (length links) && _); [|discriminate]. intros E. 
  assert (V' = (map Chunk (seq 0 (S i)) ++ concat (firstn (S i) links)) ++ V) as E' by (rewrite <- app_assoc; congruence).
  exists (map Chunk (seq 0 (S i)) ++ concat (firstn (S i) links)). split; [exact E'|]. rewrite E'.
  intros j Hj. apply in_app_iff. left. apply in_app_iff. left. apply in_map, in_seq. lia.
Qed.

Lemma looks_there b t p V n i : binv b n -> nth_error (wthreads b) t = Some (WThread (Some p) V) -> looks_up p = Some i ->
  (i < n)%nat /\ chunks_to V (S i) \/ (exists v k, p = WFindRefs v k).
Proof.
  intros HU Et HL. pose proof (ui_pc _ _ _ _ _ HU _ _ _ Et eq_refl) as HP. cbn [wview] in HP. pose proof (ui_len _ _ _ _ _ HU) as HS.
  assert (forall k s, nth_error (wslots b) k = Some s -> (k / 32 < n)%nat) as HB by (intros k s E; apply nth_lt in E; apply slot_chunk; lia).
  assert (forall m k, (exists h, nth_error (whandles b) m = Some h /\ whid h = k /\ incl (whborn h) V) -> (k / 32 < n)%nat /\ chunks_to V (S (k / 32))) as HH.
  { intros m k (h & En & <- & Hb). destruct (ui_hand _ _ _ _ _ HU _ _ En) as (s & Ek & HC & _). split; [eauto|]. eapply chunks_incl; eauto. }
  destruct p as [v k|v k c|v k|v k|v k|v|m k|m k|m k|m k|]; cbn [looks_up] in HL; try discriminate; [right; eauto|..]; left; injection HL as <-; eauto.
  - destruct HP as [(s & Ek & _) HC]. eauto.
  - destruct HP as [(s & Ek) HC]. eauto.
  - destruct HP as [(s & Ek & _) HC]. eauto.
Qed.

Lemma sinv_look cs t pick stale p V : sinv cs -> nth_error (wthreads (cbase cs)) t = Some (WThread (Some p) V) ->
  (forall v, p <> WPush v) ->
  sinv (match looks_up p with
    | None => CConf (wstep eqb locked (cbase cs) t pick p V) (clinks cs)
    | Some i =>
      match reach (clinks cs) stale V i with
      | Some V' => CConf (wstep eqb locked (put (cbase cs) t (Some p) V') t pick p V') (clinks cs)
      | None => CConf (put (cbase cs) t (Some (match p with WFindRefs v _ => WPush v | _ => WBroken end)) V) (clinks cs)
      end
    end).
Proof.
  intros HU Et HN. unfold sinv. destruct (looks_up p) as [i|] eqn:EL; [|cbn; apply binv_step; auto; congruence].
  destruct (reach (clinks cs) stale V i) as [V'|] eqn:ER; cbn [cbase clinks].
  - destruct (reach_all _ _ _ _ _ ER) as (W & -> & HC). apply binv_step; auto; [apply binv_see; auto|cbn; eapply nth_upd_same; eauto|intros j Ej; assert (j = i) as -> by congruence; exact HC].
  - destruct (looks_there _ _ _ _ _ _ HU Et EL) as [[Hi HC]|(v & k & ->)].
    + destruct (reach_known (clinks cs) stale V i Hi) as [W E]; [intros j Hj; apply HC; lia|]. congruence.
    + unfold binv, put. cbn. apply (uinv_move _ _ _ _ _ _ _ _ HU Et); try reflexivity. intros p [= <-]. exact I.
Qed.

Lemma nth_new (k : nat) (s : wslot T) : nth_error new_slots k = Some s -> s = WSlot [(0, [])] None.
Proof. unfold new_slots. intros E. apply nth_error_In in E. apply repeat_spec in E. exact E. Qed.

Lemma known_from_le V : forall n i, (known_from V i n <= n)%nat.
Proof. induction n as [|n IH]; intros i; cbn; [lia|]. destruct (knows_chunk V i); [specialize (IH (S i)); lia|lia]. Qed.

Lemma arr_idle hs (ths : list (wthread T)) sl k rd N : uinv sl hs ths rd N -> nth_error sl k = None -> cnt (arr k) ths = 0%nat /\ cnt (hw k) hs = 0%nat.
Proof.
  intros HU Ek. split; apply cnt_zero; intros y Hy; apply In_nth_error in Hy; destruct Hy as [j Ej].
  - destruct (arr k y) eqn:A; [|reflexivity]. exfalso. unfold arr in A. destruct (wpos y) as [p|] eqn:Ep; [|discriminate].
    pose proof (ui_pc _ _ _ _ _ HU _ _ _ Ej Ep) as HP. destruct p; try discriminate. apply Nat.eqb_eq in A. subst. destruct HP as [(s & E & _) _]. congruence.
  - destruct (hw k y) eqn:A; [|reflexivity]. exfalso. unfold hw in A. apply andb_prop in A. destruct A as [A _]. apply Nat.eqb_eq in A. subst.
    destruct (ui_hand _ _ _ _ _ HU _ _ Ej) as (s & E & _). congruence.
Qed.

Lemma sinv_push cs t pick stale v V : sinv cs -> nth_error (wthreads (cbase cs)) t = Some (WThread (Some (WPush v)) V) ->
  sinv (cstep eqb locked cs t pick stale (WPush v) V).
Proof.
  intros HU Et. cbn [cstep]. unfold sinv in *. set (n := length (clinks cs)) in *. set (V' := Chunk n :: map Chunk (seq 0 n) ++ concat (clinks cs) ++ V).
  set (len := Nat.max (known_chunks V n) (Nat.min pick n)).
  assert (len <= n)%nat as HL by (pose proof (known_from_le V n 0); unfold len, known_chunks in *; lia).
  unfold wstep, put. cbn [cbase clinks]. rewrite app_length. cbn [length]. unfold binv. cbn [wslots wlog wthreads whandles wreads wlock]. rewrite !upd_upd.
  pose proof (ui_len _ _ _ _ _ HU) as HS. fold n. 
  assert (chunks_to V' (S n)) as HC.
  { intros j Hj. destruct (Nat.eq_dec j n) as [->|Hne]; [left; reflexivity|]. right. apply in_app_iff. left. apply in_map, in_seq. lia. }
  assert (length (wslots (cbase cs) ++ new_slots) = (32 * (n + 1))%nat) as HS' by (rewrite app_length; unfold new_slots; rewrite repeat_length; lia).
  eapply uinv_gen; [exact HU|exact Et|exact HS'| | | | | | |].
  - intros k s E. exists s. split; [apply nth_app_l, E|auto].
  - intros k s E. pose proof (cnt_upd (arr k) _ _ (WThread (Some (WIncrDead v (32 * len)%nat)) V') _ Et) as CU. unfold arr in CU at 2 4. cbn [wpos b2n] in CU.
    destruct (nth_app_cases _ _ _ _ E) as [E'|[Hk E']].
    + destruct (ui_count _ _ _ _ _ HU k s E') as [Hm Hc]. split; [exact Hm|]. lia.
    + apply nth_new in E'. subst s. split; [discriminate|]. destruct (arr_idle _ _ _ k _ _ HU) as [A1 A2]; [apply nth_error_None; lia|]. change (fst (lst (WSlot (T := T) [(0, [])] None))) with 0. lia.
  - eapply cuse_plain; eauto; try reflexivity. apply (ui_use _ _ _ _ _ HU).
  - intros m h E. left. apply old_refl, E.
  - apply hkeeps_refl.
  - cbn [wpos wview]. intros p Ep. assert (p = WIncrDead v (32 * len)%nat) as -> by congruence. cbn [pc2]. split.
    + destruct (nth_error (wslots (cbase cs) ++ new_slots) (32 * len)) as [s|] eqn:E; [eauto|]. apply nth_error_None in E. lia.
    + rewrite (Nat.mul_comm 32 len), Nat.div_mul by lia. eapply chunks_le; [|exact HC]. lia.
  - apply (ui_reads _ _ _ _ _ HU).
Qed.

Lemma sinv_step cs a : sinv cs -> sinv (cconf_step eqb locked cs a).
Proof.
  intros HU. destruct a as [[t c|t pick|t u] stale]; cbn [cconf_step].
  - unfold sinv. cbn [cbase clinks wconf_step]. destruct (nth_error (wthreads (cbase cs)) t) as [[[p|] V]|] eqn:Et; auto. apply binv_begin; auto.
  - destruct (nth_error (wthreads (cbase cs)) t) as [[[p|] V]|] eqn:Et; auto.
    assert ((exists v, p = WPush v) \/ (forall v, p <> WPush v)) as [[v ->]|HN]
      by (destruct p; try (right; intros v'; discriminate); left; eauto).
    + apply sinv_push; auto.
    + pose proof (sinv_look cs t pick stale p V HU Et HN) as H. destruct p; try exact H. destruct (HN v eq_refl).
  - unfold sinv. cbn [cbase clinks wconf_step]. destruct (nth_error (wthreads (cbase cs)) t) as [[[p|] V]|] eqn:Et; auto.
    destruct (nth_error (wthreads (cbase cs)) u) as [[[p|] U]|] eqn:Eu; auto. apply binv_see; auto.
Qed.

Lemma sinv_initial n capacity : sinv (cinitial n capacity).
Proof.
  unfold sinv, cinitial, winitial. cbn [cbase clinks]. rewrite repeat_length. set (c := ((capacity + 32 - 1) / 32)%nat).
  assert (length (concat (repeat (@new_slots T) c)) = (32 * c)%nat) as HL.
  { induction c as [|x IH]; [reflexivity|]. cbn [repeat concat]. rewrite app_length, IH. unfold new_slots. rewrite repeat_length. lia. }
  assert (forall k s, nth_error (concat (repeat (@new_slots T) c)) k = Some s -> s = WSlot [(0, [])] None) as HS.
  { intros k s E. apply nth_error_In, in_concat in E. destruct E as (l & Hl & Hs). apply repeat_spec in Hl. subst l.
    apply In_nth_error in Hs. destruct Hs as [j Ej]. eapply nth_new; eauto. }
  assert (forall t th, nth_error (repeat (WThread (T := T) None (map Chunk (seq 0 c))) n) t = Some th -> wpos th = None) as HT.
  { intros t th E. apply nth_error_In, repeat_spec in E. subst th. reflexivity. }
  constructor; cbn [wslots whandles wthreads wreads].
  - exact HL.
  - intros k s E. apply HS in E. subst s. split; [discriminate|]. rewrite (cnt_zero (arr k)); [reflexivity|].
    intros y Hy. apply In_nth_error in Hy. destruct Hy as [j Ej]. unfold arr. rewrite (HT _ _ Ej). reflexivity.
  - intros m. assert (nth_error (@nil (whandle T)) m = None) as -> by (destruct m; reflexivity). cbn [option_map]. split; apply cnt_zero; intros y Hy; apply In_nth_error in Hy; destruct Hy as [j Ej]; [unfold bor|unfold lev]; rewrite (HT _ _ Ej); reflexivity.
  - intros [|m] h; discriminate.
  - intros t th p E Ep. rewrite (HT _ _ E) in Ep. discriminate.
  - intros m o [].
Qed.

Lemma sinv_exec acts cs : sinv cs -> sinv (cexec eqb locked acts cs).
Proof. revert cs. induction acts as [|a acts IH]; intros cs HI; [exact HI|]. cbn. apply IH, sinv_step, HI. Qed.

(** ** How long a call takes *)

(** Steps left of a call when the list never has more than [N] chunks. *)
Definition left_of (N : nat) (p : option (wpc T)) : nat :=
  match p with
  | None => 0
  | Some (WFindRefs _ k) => 2 * (32 * N - k) + 5
  | Some (WFindVal _ k _) => 2 * (32 * N - k) + 4
  | Some (WPush _) => 3
  | Some (WIncrDead _ _) | Some (WGetRefs _ _) => 2
  | Some WBroken => 0
  | Some _ => 1
  end.

Lemma step_left b t pick p V n N : binv b n -> nth_error (wthreads b) t = Some (WThread (Some p) V) -> (forall v, p <> WPush v) -> (n <= N)%nat ->
  exists (p' : option (wpc T)) V', wthreads (wstep eqb locked b t pick p V) = upd (wthreads b) t (WThread p' V') /\ (left_of N p' < left_of N (Some p))%nat.
Proof.
  intros HU Et HN HL. pose proof (ui_pc _ _ _ _ _ HU _ _ _ Et eq_refl) as HP. cbn [wview] in HP.
  pose proof (ui_len _ _ _ _ _ HU) as HS.
  assert (forall m k, (exists h, nth_error (whandles b) m = Some h /\ whid h = k /\ incl (whborn h) V) ->
    exists h s, nth_error (whandles b) m = Some h /\ nth_error (wslots b) k = Some s /\ (gone h = false -> wcont s <> None)) as HH.
  { intros m k (h & En & <- & Hb). destruct (ui_hand _ _ _ _ _ HU _ _ En) as (s & Ek & _ & H). exists h, s. split; [exact En|]. split; [exact Ek|].
    intros Hg. apply (H Hg). }
  destruct p as [v k|v k c|v k|v k|v k|v|n' k|n' k|n' k|n' k|]; unfold wstep.
  - destruct (nth_error (wslots b) k) as [s|] eqn:Ek.
    + destruct (load_view s k pick true V) as (c & V' & -> & _). eexists _, _. split; [reflexivity|]. cbn [left_of]. lia.
    + eexists _, _. split; [reflexivity|]. cbn [left_of]. lia.
  - destruct HP as [[s Ek] _]. rewrite Ek. eexists _, _. split; [reflexivity|]. apply nth_lt in Ek.
    destruct (match wcont s with Some cur => eqb v cur | None => false end); [|destruct (c =? 0)]; cbn [left_of]; lia.
  - destruct HP as [(s & Ek & _) _]. rewrite Ek. destruct (update_view s k 1 V) as (s' & V' & -> & _). unfold wadded, put_lock.
    destruct locked; eexists _, _; (split; [reflexivity|]); cbn [left_of]; lia.
  - destruct HP as [(s & Ek) _]. rewrite Ek. destruct (update_view s k 1 V) as (s' & V' & -> & _).
    eexists _, _; (split; [reflexivity|]); cbn [left_of]; lia.
  - destruct HP as [(s & Ek & _) _]. rewrite Ek. unfold wadded, put_lock.
    destruct locked; eexists _, _; (split; [reflexivity|]); cbn [left_of]; lia.
  - destruct (HN v eq_refl).
  - destruct (HH _ _ HP) as (h & s & En & Ek & _). rewrite Ek, En. destruct (update_view s k 1 V) as (s' & V' & -> & _).
    eexists _, _; (split; [reflexivity|]); cbn [left_of]; lia.
  - destruct (HH _ _ HP) as (h & s & En & Ek & _). rewrite Ek, En. destruct (fst _ =? 0).
    + destruct (load_view s k (length (wmsgs s) - 1) true V) as (c & V' & -> & _). eexists _, _; (split; [reflexivity|]); cbn [left_of]; lia.
    + destruct (update_view s k (-1) V) as (s' & V' & -> & _). eexists _, _; (split; [reflexivity|]); cbn [left_of]; lia.
  - destruct (HH _ _ HP) as (h & s & En & Ek & _). rewrite Ek. destruct (load_view s k pick false V) as (c & V' & -> & _).
    destruct (c =? 0); eexists _, _; (split; [reflexivity|]); cbn [left_of]; lia.
  - pose proof HP as HP'. destruct (HH _ _ HP) as (h & s & En & Ek & Hc). rewrite Ek.
    destruct (in_use _ _ _ _ _ _ (ui_use _ _ _ _ _ HU) Et (Nat.eqb_refl n') En) as [u Hst].
    destruct (wcont s) as [x|]; [|destruct (Hc (gone_held _ _ Hst) eq_refl)].
    eexists _, _; (split; [reflexivity|]); cbn [left_of]; lia.
  - destruct HP.
Qed.

Lemma cstep_left cs t pick stale p V N : sinv cs -> nth_error (wthreads (cbase cs)) t = Some (WThread (Some p) V) ->
  (length (clinks cs) <= N)%nat ->
  exists (p' : option (wpc T)) V', wthreads (cbase (cstep eqb locked cs t pick stale p V)) = upd (wthreads (cbase cs)) t (WThread p' V') /\ (left_of N p' < left_of N (Some p))%nat.
Proof.
  intros HU Et HL.
  assert ((exists v, p = WPush v) \/ (forall v, p <> WPush v)) as [[v ->]|HN]
      by (destruct p; try (right; intros v'; discriminate); left; eauto).
  - cbn [cstep]. unfold wstep, put. cbn [cbase wthreads]. rewrite !upd_upd. eexists _, _. split; [reflexivity|]. cbn [left_of]. lia.
  - assert (exists (p' : option (wpc T)) V', wthreads (cbase (match looks_up p with
    | None => CConf (wstep eqb locked (cbase cs) t pick p V) (clinks cs)
    | Some i =>
      match reach (clinks cs) stale V i with
      | Some V' => CConf (wstep eqb locked (put (cbase cs) t (Some p) V') t pick p V') (clinks cs)
      | None => CConf (put (cbase cs) t (Some (match p with WFindRefs v _ => WPush v | _ => WBroken end)) V) (clinks cs)
      end
    end)) = upd (wthreads (cbase cs)) t (WThread p' V') /\ (left_of N p' < left_of N (Some p))%nat) as G; [|destruct p; try exact G; destruct (HN v eq_refl)].
    destruct (looks_up p) as [i|] eqn:EL; [|cbn [cbase]; eapply step_left; eauto].
    destruct (reach (clinks cs) stale V i) as [V'|] eqn:ER; cbn [cbase].
    + destruct (reach_all _ _ _ _ _ ER) as (W & -> & HC).
      destruct (step_left (put (cbase cs) t (Some p) (W ++ V)) t pick p (W ++ V) _ N (binv_see _ _ _ _ W _ HU Et)) as (p' & V' & E & L); auto.
      * cbn. eapply nth_upd_same; eauto.
      * exists p', V'. rewrite E. split; [|exact L]. unfold put. cbn [wthreads]. apply upd_upd.
    + destruct (looks_there _ _ _ _ _ _ HU Et EL) as [[Hi HC]|(v & k & ->)].
      * destruct (reach_known (clinks cs) stale V i Hi) as [W E]; [intros j Hj; apply HC; lia|]. congruence.
      * eexists _, _. split; [reflexivity|]. cbn [left_of]. lia.
Qed.

Lemma begin_threads b t V c : nth_error (wthreads b) t = Some (WThread None V) ->
  wthreads (wbegin locked b t V c) = wthreads b \/ exists th', wthreads (wbegin locked b t V c) = upd (wthreads b) t th'.
Proof.
  intros Et. unfold wbegin. destruct c as [v|n|n|n].
  - destruct locked; [destruct (existsb _ _)|]; cbn; eauto.
  - destruct (nth_error (whandles b) n) as [[k x [u| |] bn us]|]; cbn; eauto.
  - destruct (nth_error (whandles b) n) as [[k x [[|u]| |] bn us]|]; cbn; eauto.
  - destruct (nth_error (whandles b) n) as [[k x [u| |] bn us]|]; cbn; eauto.
Qed.

Definition actor (a : waction T) : nat := match a with WBegin t _ | WGo t _ | WSync t _ => t end.

Lemma other_step cs a u th : sinv cs -> actor (fst a) <> u -> nth_error (wthreads (cbase cs)) u = Some th ->
  nth_error (wthreads (cbase (cconf_step eqb locked cs a))) u = Some th.
Proof.
  intros HU Ha Eu. destruct a as [[t c|t pick|t w] stale]; cbn [cconf_step actor fst] in *.
  - cbn [cbase wconf_step]. destruct (nth_error (wthreads (cbase cs)) t) as [[[p|] V]|] eqn:Et; auto.
    destruct (begin_threads _ _ _ c Et) as [-> |[th' ->]]; [exact Eu|]. rewrite nth_upd_other by auto. exact Eu.
  - destruct (nth_error (wthreads (cbase cs)) t) as [[[p|] V]|] eqn:Et; auto.
    destruct (cstep_left cs t pick stale p V _ HU Et (le_n _)) as (p' & V' & -> & _). rewrite nth_upd_other by auto. exact Eu.
  - cbn [cbase wconf_step]. destruct (nth_error (wthreads (cbase cs)) t) as [[[p|] V]|] eqn:Et; auto.
    destruct (nth_error (wthreads (cbase cs)) w) as [[[p|] U]|]; auto. unfold put. cbn [wthreads]. rewrite nth_upd_other by auto. exact Eu.
Qed.

Lemma links_step cs a : (length (clinks cs) <= length (clinks (cconf_step eqb locked cs a)))%nat.
Proof.
  destruct a as [[t c|t pick|t w] stale]; cbn [cconf_step]; [cbn; lia| |cbn; lia].
  destruct (nth_error (wthreads (cbase cs)) t) as [[[p|] V]|]; auto.
  assert (forall q : option nat, (length (clinks cs) <= length (clinks (match q with
    | None => CConf (wstep eqb locked (cbase cs) t pick p V) (clinks cs)
    | Some i =>
      match reach (clinks cs) stale V i with
      | Some V' => CConf (wstep eqb locked (put (cbase cs) t (Some p) V') t pick p V') (clinks cs)
      | None => CConf (put (cbase cs) t (Some (match p with WFindRefs v _ => WPush v | _ => WBroken end)) V) (clinks cs)
      end
    end)))%nat) as G by (intros [i|]; [destruct (reach _ _ _ _)|]; cbn; lia).
  destruct p; try apply G. cbn. rewrite app_length. lia.
Qed.
Lemma links_exec acts : forall cs, (length (clinks cs) <= length (clinks (cexec eqb locked acts cs)))%nat.
Proof.
  induction acts as [|a acts IH]; intros cs; [cbn; lia|]. cbn [cexec fold_left]. pose proof (links_step cs a) as H.
  specialize (IH (cconf_step eqb locked cs a)). unfold cexec in IH. lia.
Qed.

(** The steps that thread [t] takes. *)
Definition own (t : nat) (a : waction T * bool) : bool := match fst a with WGo u _ => Nat.eqb u t | _ => false end.

Lemma call_returns acts : forall cs t th p, sinv cs -> nth_error (wthreads (cbase cs)) t = Some th -> wpos th = Some p ->
  (left_of (length (clinks (cexec eqb locked acts cs))) (Some p) <= length (filter (own t) acts))%nat ->
  exists before after th', acts = before ++ after /\ nth_error (wthreads (cbase (cexec eqb locked before cs))) t = Some th' /\ wpos th' = None.
Proof.
  induction acts as [|a acts IH]; intros cs t th p HU Et Ep HL.
  - exfalso. cbn [filter length] in HL. pose proof (ui_pc _ _ _ _ _ HU _ _ _ Et Ep) as HP. destruct p; cbn [left_of] in HL; try lia. exact HP.
  - set (cs' := cconf_step eqb locked cs a) in *. change (cexec eqb locked (a :: acts) cs) with (cexec eqb locked acts cs') in HL.
    assert (sinv cs') as HU' by (apply sinv_step, HU).
    assert (forall before after th', acts = before ++ after -> nth_error (wthreads (cbase (cexec eqb locked before cs'))) t = Some th' -> wpos th' = None ->
      exists before after th', a :: acts = before ++ after /\ nth_error (wthreads (cbase (cexec eqb locked before cs))) t = Some th' /\ wpos th' = None) as G.
    { intros be af th' -> E E'. exists (a :: be), af, th'. split; [reflexivity|]. auto. }
    pose proof (links_exec acts cs') as L1. pose proof (links_step cs a) as L0. fold cs' in L0.
    destruct (Nat.eq_dec (actor (fst a)) t) as [Ha|Ha].
    + destruct a as [[u c|u pick|u w] stale]; cbn [fst actor] in Ha; subst u.
      * assert (cs' = CConf (cbase cs) (clinks cs)) as E.
        { unfold cs'. cbn [cconf_step wconf_step]. rewrite Et. destruct th as [q V]. cbn in Ep. subst q. reflexivity. }
        destruct (IH cs' t th p HU') as (be & af & th' & E1 & E2 & E3); [rewrite E; exact Et|exact Ep|exact HL|]. eapply G; eauto.
      * cbn [filter own fst] in HL. rewrite Nat.eqb_refl in HL. cbn [length] in HL. destruct th as [q V]. cbn in Ep. subst q.
        destruct (cstep_left cs t pick stale p V (length (clinks (cexec eqb locked acts cs'))) HU Et) as (p' & V' & E & L); [lia|].
        assert (nth_error (wthreads (cbase cs')) t = Some (WThread p' V')) as Et'.
        { unfold cs'. cbn [cconf_step]. rewrite Et, E. eapply nth_upd_same; eauto. }
        destruct p' as [p'|].
        -- destruct (IH cs' t _ p' HU' Et' eq_refl) as (be & af & th' & E1 & E2 & E3); [lia|]. eapply G; eauto.
        -- eapply (G [] acts); [reflexivity|exact Et'|reflexivity].
      * assert (cs' = CConf (cbase cs) (clinks cs)) as E.
        { unfold cs'. cbn [cconf_step wconf_step]. rewrite Et. destruct th as [q V]. cbn in Ep. subst q. reflexivity. }
        destruct (IH cs' t th p HU') as (be & af & th' & E1 & E2 & E3); [rewrite E; exact Et|exact Ep|exact HL|]. eapply G; eauto.
    + assert (own t a = false) as Ho.
      { destruct a as [[u c|u pick|u w] stale]; cbn in *; try reflexivity. apply Nat.eqb_neq. exact Ha. }
      cbn [filter] in HL. rewrite Ho in HL.
      destruct (IH cs' t th p HU') as (be & af & th' & E1 & E2 & E3); [apply other_step; auto|exact Ep|exact HL|]. eapply G; eauto.
Qed.
End Inv.
