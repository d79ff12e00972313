(** C62 for calls of [add] that overlap, as long as those that take or append a slot overlap no other. *)
From Coq Require Import ZArith List Bool Lia.
From Verif Require Import Base Arith InternModel InternProofs ConcInternModel ConcInternSpec ConcInternProofs ConcInternMore PropInternProgress.
Import ListNotations.
Local Open Scope Z_scope.

(** ** The condition *)

(** A call of [add] that did not find its value and takes a free slot, or appends a chunk. *)
Definition writing {T} (p : option (ipc T)) : bool :=
  match p with
  | Some (IncrDead _ _ _) | Some (SetVal _ _ _) | Some (PushHead _) | Some (PushTail _) | Some (PushLink _ _) => true
  | _ => false
  end.

(** Where thread [t] is. *)
Definition place {T} (cf : iconf T) (t : nat) : option (ipc T) := match nth_error (ithreads cf) t with Some p => p | None => None end.

(** After [acts] thread [t] is inside a call of [add] which at some moment overlapped a call of [add] of another thread. *)
Definition overlapped {T} (run : list (action T) -> iconf T) (acts : list (action T)) (t : nat) : Prop :=
  exists a1 a2 u, acts = a1 ++ a2 /\ t <> u /\ adding (place (run a1) u) = true /\
    forall b1 b2, a2 = b1 ++ b2 -> adding (place (run (a1 ++ b1)) t) = true.

(** No call of [add] that overlaps another takes or appends a slot. *)
Definition writers_alone {T} (eqb : T -> T -> bool) (dbg : bool) (cf : iconf T) (acts : list (action T)) : Prop :=
  forall a1 a2 t, acts = a1 ++ a2 -> overlapped (fun a => iexec eqb dbg a cf) a1 t ->
  writing (place (iexec eqb dbg a1 cf) t) = false.

(** ** Proof *)
Section Overlap.
Context {T : Type} (eqb : T -> T -> bool) (dbg : bool).
Implicit Types (st : store T) (cf : iconf T).

Definition ypc (o : Prop) st (hs : list (handle T)) (q : ipc T) : Prop :=
  match q with FindVal _ _ _ _ => o \/ xpc st hs q | _ => xpc st hs q end.

Record yinv (O : nat -> Prop) cf : Prop := {
  yi_handles : forall n h, nth_error (handles cf) n = Some h -> holds (istore cf) h;
  yi_pc : forall t q, nth_error (ithreads cf) t = Some (Some q) -> ypc (O t) (istore cf) (handles cf) q;
  yi_reads : forall n o, In (n, o) (reads cf) -> exists h, nth_error (handles cf) n = Some h /\ o = Some (hval h) }.

Lemma yinv_step (O O' : nat -> Prop) cf cf' t p' : yinv O cf -> ithreads cf' = upd (ithreads cf) t p' ->
  (forall u q, u <> t -> nth_error (ithreads cf) u = Some (Some q) -> ypc (O u) (istore cf) (handles cf) q ->
     ypc (O' u) (istore cf') (handles cf') q) ->
  (forall q, p' = Some q -> ypc (O' t) (istore cf') (handles cf') q) ->
  (forall n h, nth_error (handles cf') n = Some h -> holds (istore cf') h) ->
  (forall n o, In (n, o) (reads cf') -> exists h, nth_error (handles cf') n = Some h /\ o = Some (hval h)) ->
  yinv O' cf'.
Proof.
  intros [Y1 Y2 Y3] ET Hu Ht HH HR. constructor; auto. intros u q E. rewrite ET in E. apply nth_upd_cases in E.
  destruct E as [[-> E]|[Hn E]]; [apply Ht; auto|]. apply Hu; auto.
Qed.

Lemma ypc_same (o o' : Prop) st st' (hs hs' : list (handle T)) q : same_vals st st' ->
  (forall k, cnt (hw k) hs = 0%nat -> cnt (hw k) hs' = 0%nat) -> (o -> o') -> ypc o st hs q -> ypc o' st' hs' q.
Proof.
  intros HV HC Ho. destruct q; cbn [ypc]; try (apply xpc_same; assumption). intros [H|H]; [auto|right]. eapply xpc_same; eauto.
Qed.

Ltac simp := cbn [istore ithreads handles reads set_thread set_store add_handle add_read finish hid hval hst].

(** A step outside [add]. *)
Lemma yinv_other (O O' : nat -> Prop) cf cf' t p' : yinv O cf -> (forall u, u <> t -> O u -> O' u) ->
  ithreads cf' = upd (ithreads cf) t p' ->
  same_vals (istore cf) (istore cf') ->
  (forall k, cnt (hw k) (handles cf) = 0%nat -> cnt (hw k) (handles cf') = 0%nat) ->
  (forall q, p' = Some q -> adding (Some q) = false \/ ypc (O' t) (istore cf') (handles cf') q) ->
  (forall n h, nth_error (handles cf') n = Some h -> holds (istore cf') h) ->
  (forall n o, In (n, o) (reads cf') -> exists h, nth_error (handles cf') n = Some h /\ o = Some (hval h)) ->
  yinv O' cf'.
Proof.
  intros HY HO ET HV HC Hq HH HR. eapply yinv_step; eauto.
  - intros u q Hn E. apply ypc_same; auto.
  - intros q E. destruct (Hq q E) as [Ha|Hx]; [|exact Hx]. destruct q; try discriminate; exact I.
Qed.

Lemma yinv_begin (O O' : nat -> Prop) cf t c : yinv O cf -> (forall u, u <> t -> O u -> O' u) ->
  nth_error (ithreads cf) t = Some None -> yinv O' (begin_call cf t c).
Proof.
  intros HY HO Et. pose proof HY as [X1 X2 X3].
  assert (yinv O' cf) as HY'.
  { constructor; auto. intros u q E. destruct (Nat.eq_dec u t) as [->|Hn]; [congruence|].
    exact (ypc_same (O u) (O' u) _ _ _ _ q (same_vals_refl _) (fun k H => H) (HO u Hn) (X2 u q E)). }
  destruct c as [v|n|n|n]; cbn [begin_call].
  - eapply yinv_other with (p' := Some (FindChunk v 0)); simp; eauto using same_vals_refl.
    intros q [= <-]. right. exact I.
  - destruct (nth_error (handles cf) n) as [[k v [b| |]]|] eqn:En; try exact HY'.
    unfold set_handle. rewrite En. simp.
    eapply yinv_other with (p' := Some (Incr n k)); simp; [exact HY|exact HO|reflexivity|apply same_vals_refl| | | |].
    + eapply hw_upd_live; [exact En|discriminate]. + intros q [= <-]. auto.
    + eapply holds_upd; eauto. discriminate. + eapply reads_same; [eapply hsame_upd; exact En|exact X3].
  - destruct (nth_error (handles cf) n) as [[k v [[|b]| |]]|] eqn:En; try exact HY'.
    unfold set_handle. rewrite En. simp.
    eapply yinv_other with (p' := Some (Decr n k)); simp; [exact HY|exact HO|reflexivity|apply same_vals_refl| | | |].
    + eapply hw_upd_live; [exact En|discriminate]. + intros q [= <-]. auto.
    + eapply holds_upd; eauto. discriminate. + eapply reads_same; [eapply hsame_upd; exact En|exact X3].
  - destruct (nth_error (handles cf) n) as [[k v [b| |]]|] eqn:En; try exact HY'.
    unfold set_handle. rewrite En. simp.
    eapply yinv_other with (p' := Some (GetRefs n k)); simp; [exact HY|exact HO|reflexivity|apply same_vals_refl| | | |].
    + eapply hw_upd_live; [exact En|discriminate]. + intros q [= <-]. auto.
    + eapply holds_upd; eauto. discriminate. + eapply reads_same; [eapply hsame_upd; exact En|exact X3].
Qed.

(** A step inside [add]: the other calls of [add] count as overlapped from now on, and do not write. *)
Lemma yinv_add (O O' : nat -> Prop) cf cf' t p' : yinv O cf ->
  (forall u q, u <> t -> nth_error (ithreads cf) u = Some (Some q) -> adding (Some q) = true -> O' u /\ writing (Some q) = false) ->
  ithreads cf' = upd (ithreads cf) t p' ->
  same_vals (istore cf) (istore cf') ->
  (forall q', p' = Some q' -> ypc (O' t) (istore cf') (handles cf') q') ->
  (forall n h, nth_error (handles cf') n = Some h -> holds (istore cf') h) ->
  (forall n o, In (n, o) (reads cf') -> exists h, nth_error (handles cf') n = Some h /\ o = Some (hval h)) ->
  yinv O' cf'.
Proof.
  intros HY HU ET HV Hq HH HR. eapply yinv_step; eauto. intros u q Hn E HP.
  destruct (adding (Some q)) eqn:A; [|destruct q; try discriminate; exact I].
  destruct (HU u q Hn E A) as [Ho Hw]. destruct q; try discriminate; try exact I.
  - left. exact Ho.
  - cbn [ypc xpc] in *. destruct HP as (s & Es & Ec). destruct (proj2 HV _ _ (offset_nonneg _ _) Es) as (s' & Es' & Ec').
    exists s'. split; congruence.
Qed.

(** A step that writes: there is no other call of [add]. *)
Lemma yinv_write (O O' : nat -> Prop) cf cf' t p' : yinv O cf ->
  (forall u q, u <> t -> nth_error (ithreads cf) u = Some (Some q) -> adding (Some q) = false) ->
  ithreads cf' = upd (ithreads cf) t p' ->
  (forall q', p' = Some q' -> ypc (O' t) (istore cf') (handles cf') q') ->
  (forall n h, nth_error (handles cf') n = Some h -> holds (istore cf') h) ->
  (forall n o, In (n, o) (reads cf') -> exists h, nth_error (handles cf') n = Some h /\ o = Some (hval h)) ->
  yinv O' cf'.
Proof.
  intros HY HU ET Hq HH HR. eapply yinv_step; eauto. intros u q Hn E HP. specialize (HU u q Hn E).
  destruct q; try discriminate; exact I.
Qed.

Hypothesis eqb_eq : forall a b, eqb a b = true -> a = b.

Lemma yholds_push N O cf : iinv N cf -> yinv O cf ->
  forall n h, nth_error (handles cf) n = Some h -> holds (istore cf ++ [new_chunk]) h.
Proof.
  intros HI HX n h E Hg. destruct (yi_handles _ _ HX _ _ E Hg) as (s & Es & Ec).
  destruct (ij_handles _ _ HI _ _ E) as (Hk & _). exists s. split; [|exact Ec].
  rewrite slot_of_push by (apply (ij_shape _ _ HI) || exact Hk).
  rewrite (proj2 (Z.ltb_lt _ _)); [exact Es|]. apply slot_of_range; [apply (ij_shape _ _ HI)|exact Hk|congruence].
Qed.

Lemma yinv_istep N (O O' : nat -> Prop) cf t q : iinv N cf -> yinv O cf -> Z.of_nat N < 2 ^ 64 - 1 ->
  nth_error (ithreads cf) t = Some (Some q) ->
  (forall u, u <> t -> O u -> O' u) ->
  (forall u q', u <> t -> adding (Some q) = true -> nth_error (ithreads cf) u = Some (Some q') -> adding (Some q') = true ->
     O' u /\ writing (Some q) = false /\ writing (Some q') = false) ->
  (adding (place (istep eqb dbg cf t q) t) = true -> O t -> O' t) ->
  (writing (place (istep eqb dbg cf t q) t) = true -> ~ O' t) ->
  yinv O' (istep eqb dbg cf t q).
Proof.
  intros HI HX HN Et HO HU HT HW. pose proof HI as [J1 J2 J3 J4 J5 J6 J7]. pose proof (J2 _ _ Et) as Hq.
  pose proof HX as [X1 X2 X3]. pose proof (X2 _ _ Et) as Hx.
  assert (Hlow : forall k s, 0 <= k -> slot_of (istore cf) k = Some s -> 0 <= refs s < 2 ^ 64 - 1).
  { intros k s Hk E. specialize (J6 k s Hk E). rewrite (J4 k s Hk E) in *. lia. }
  assert (HA : adding (Some q) = true -> forall u q', u <> t -> nth_error (ithreads cf) u = Some (Some q') -> adding (Some q') = true ->
     O' u /\ writing (Some q') = false).
  { intros A u q' Hn E A'. destruct (HU u q' Hn A E A') as (? & _ & ?). auto. }
  assert (HB : writing (Some q) = true -> forall u q', u <> t -> nth_error (ithreads cf) u = Some (Some q') -> adding (Some q') = false).
  { intros A u q' Hn E. destruct (adding (Some q')) eqn:A'; [|reflexivity].
    destruct (HU u q' Hn) as (_ & W & _); auto; [destruct q; try discriminate; reflexivity|congruence]. }
  clear HU. revert HT HW.
  destruct q as [v i|v i j|v i j c|v i j|v i j|v i j|v|v|v len|n k|n k|n k|n k|]; cbn [istep]; intros HT HW.
  - specialize (HA eq_refl). destruct (Nat.ltb_spec i (length (istore cf))) as [Hi|Hi];
      (eapply yinv_add; [exact HX|exact HA|reflexivity|apply same_vals_refl| | |]; simp; auto); intros q' [= <-]; exact I.
  - specialize (HA eq_refl). destruct (in_range_slot _ _ _ J1 Hq) as [s Es]. rewrite slot_at_of by (auto; apply Hq). rewrite Es. cbn [unwrap].
    eapply yinv_add; [exact HX|exact HA|reflexivity|apply same_vals_refl| | |]; simp; auto.
    intros q' [= <-]. right. cbn [xpc]. intros E. rewrite (J4 _ _ (offset_nonneg i j) Es) in E. lia.
  - specialize (HA eq_refl). destruct (in_range_slot _ _ _ J1 Hq) as [s Es]. rewrite slot_at_of in HT, HW |- * by (auto; apply Hq).
    rewrite Es in HT, HW |- *. cbn [unwrap] in HT, HW |- *.
    destruct (match cont s with Some cur => eqb v cur | None => false end) eqn:Ec.
    { eapply yinv_add; [exact HX|exact HA|reflexivity|apply same_vals_refl| | |]; simp; auto.
      intros q' [= <-]. exists s. split; [exact Es|]. destruct (cont s); [|discriminate]. apply eqb_eq in Ec. congruence. }
    destruct (Z.eqb_spec c 0) as [Hc|_].
    { eapply yinv_add; [exact HX|exact HA|reflexivity|apply same_vals_refl| | |]; simp; auto.
      intros q' [= <-]. cbn [ypc xpc] in *. destruct Hx as [Ho|Hx]; [|auto]. exfalso.
      unfold place in HT, HW. cbn [set_thread ithreads] in HT, HW. rewrite (nth_upd_same _ _ _ _ Et) in HT, HW.
      apply HW; [reflexivity|]. apply HT; [reflexivity|exact Ho]. }
    destruct (S j <? chunk_size)%nat;
      (eapply yinv_add; [exact HX|exact HA|reflexivity|apply same_vals_refl| | |]; simp; auto); intros q' [= <-]; exact I.
  - specialize (HA eq_refl). destruct Hq as [Hr Hf]. destruct (in_range_slot _ _ _ J1 Hr) as [s Es].
    destruct (incr_inner_spec dbg (istore cf) i j s J1 (proj2 Hr) Es (Hlow _ _ (offset_nonneg i j) Es))
      as (st' & E1 & S1 & L1 & F1). rewrite E1. cbn [with_store].
    pose proof (same_vals_put _ _ _ _ _ Es L1 F1) as HV.
    eapply yinv_add; [exact HX|exact HA|reflexivity|exact HV| | |]; simp.
    + discriminate.
    + apply holds_app.
      * intros n h E. eapply holds_same; [exact HV|apply (J3 _ _ E)|eauto].
      * destruct Hx as (s' & Es' & Ec'). destruct (proj2 HV _ _ (offset_nonneg i j) Es') as (s2 & E2 & Ec2).
        exists s2. split; congruence.
    + eapply reads_same; [apply hsame_app|exact X3].
  - specialize (HB eq_refl). destruct (in_range_slot _ _ _ J1 Hq) as [s Es].
    destruct (incr_inner_spec dbg (istore cf) i j s J1 (proj2 Hq) Es (Hlow _ _ (offset_nonneg i j) Es))
      as (st' & E1 & S1 & L1 & F1). rewrite E1. cbn [with_store].
    pose proof (same_vals_put _ _ _ _ _ Es L1 F1) as HV.
    eapply yinv_write; [exact HX|exact HB|reflexivity| | |]; simp; auto.
    + intros q' [= <-]. exact Hx.
    + intros n h E. eapply holds_same; [exact HV|apply (J3 _ _ E)|eauto].
  - specialize (HB eq_refl). destruct (in_range_slot _ _ _ J1 Hq) as [s Es].
    destruct (set_val_spec (istore cf) i j v s J1 (proj2 Hq) Es) as (st' & E1 & S1 & L1 & F1). rewrite E1. cbn [with_store].
    eapply yinv_write; [exact HX|exact HB|reflexivity| | |]; simp.
    + discriminate.
    + apply holds_app.
      * intros n h E Hg. destruct (X1 _ _ E Hg) as (s1 & Es1 & Ec1). exists s1. split; [|exact Ec1].
        rewrite F1 by apply (J3 _ _ E). destruct (Z.eqb_spec (idx_to_offset i j) (hid h)) as [Eh|_]; [|exact Es1].
        exfalso. cbn in Hx. pose proof (cnt_zero_inv _ _ _ _ Hx E) as Hw. unfold hw in Hw. rewrite <- Eh, Z.eqb_refl in Hw.
        destruct (hst h); try discriminate. now elim Hg.
      * eexists. rewrite F1, Z.eqb_refl by apply offset_nonneg. split; reflexivity.
    + eapply reads_same; [apply hsame_app|exact X3].
  - specialize (HB eq_refl). clear HT HW. destruct (istore cf) as [|c0 st0] eqn:Est in |- *.
    + replace [new_chunk] with (istore cf ++ [new_chunk] : store T) by (rewrite Est; reflexivity).
      eapply yinv_write; [exact HX|exact HB|reflexivity| | |]; simp; auto.
      * intros q' [= <-]. cbn [ypc xpc]. pose proof (new_chunk_free _ _ HI) as H. rewrite Est in H. exact H.
      * eapply yholds_push; eauto.
    + eapply yinv_write; [exact HX|exact HB|reflexivity| | |]; simp; auto. intros q' [= <-]; exact I.
  - specialize (HB eq_refl). eapply yinv_write; [exact HX|exact HB|reflexivity| | |]; simp; auto. intros q' [= <-]. reflexivity.
  - specialize (HB eq_refl). eapply yinv_write; [exact HX|exact HB|reflexivity| | |]; simp; auto.
    + intros q' [= <-]. cbn [ypc xpc] in *. subst len. pose proof (new_chunk_free _ _ HI) as H.
      replace (idx_to_offset _ 0) with (32 * Z.of_nat (length (istore cf))) by (unfold idx_to_offset; lia). exact H.
    + eapply yholds_push; eauto.
  - destruct (in_use _ _ _ _ _ _ HI Et (or_introl eq_refl)) as (v & b & En & Cb & Cl).
    destruct (J3 _ _ En) as (Hk & s & Es & Hc). cbn [hid] in Hk, Es. clear HT HW.
    destruct (intern_incr_spec dbg (istore cf) k s J1 Hk Es (Hlow _ _ Hk Es)) as (st' & E1 & S1 & L1 & F1).
    rewrite E1. cbn [with_store]. simp. rewrite En. unfold unborrow, set_handle. simp. rewrite ?En. simp. rewrite ?En. simp.
    replace (S b - 1)%nat with b by lia.
    pose proof (same_vals_put _ _ _ _ _ Es L1 F1) as HV.
    eapply yinv_other with (p' := None); simp; [exact HX|exact HO|reflexivity|exact HV| |discriminate| |].
    + intros k' H0. rewrite cnt_app, cnt_new, (hw_upd_live _ _ _ _ _ _ En ltac:(discriminate) _ H0).
      pose proof (cnt_zero_inv _ _ _ _ H0 En) as Hw. unfold hw in Hw. cbn in Hw. rewrite andb_true_r in Hw. rewrite Hw. reflexivity.
    + assert (HH : forall n' h, nth_error (handles cf) n' = Some h -> holds st' h)
        by (intros n' h E; eapply holds_same; [exact HV|apply (J3 _ _ E)|eauto]).
      apply holds_app; [eapply holds_upd; [exact HH| |exact En]; discriminate|].
      apply (HH _ _ En). discriminate.
    + eapply reads_same; [eapply hsame_trans; [eapply hsame_upd; exact En|apply hsame_app]|exact X3].
  - destruct (leaving _ _ _ _ _ HI Et) as (v & En & Cb & Cl). clear HT HW.
    destruct (J3 _ _ En) as (Hk & s & Es & Hc). cbn [hid] in Hk, Es.
    destruct (intern_decr_spec (istore cf) k s J1 Hk Es) as (st' & E1 & S1 & L1 & F1).
    rewrite E1. cbn [with_store]. unfold set_handle. simp. rewrite En. simp.
    pose proof (same_vals_put _ _ _ _ _ Es L1 F1) as HV.
    eapply yinv_other with (p' := None); simp; [exact HX|exact HO|reflexivity|exact HV| |discriminate| |].
    + eapply hw_upd_live; [exact En|discriminate].
    + eapply holds_upd; [| |exact En]; [|discriminate].
      intros n' h E; eapply holds_same; [exact HV|apply (J3 _ _ E)|eauto].
    + eapply reads_same; [eapply hsame_upd; exact En|exact X3].
  - destruct (in_use _ _ _ _ _ _ HI Et (or_intror (or_introl eq_refl))) as (v & b & En & Cb & Cl). clear HT HW.
    destruct (J3 _ _ En) as (Hk & s & Es & Hc). cbn [hid] in Hk, Es.
    pose proof (held_pos _ _ _ _ _ En ltac:(discriminate)) as Hpos.
    assert (Hr : 1 <= refs s) by (rewrite (J4 _ _ Hk Es); lia).
    unfold refcount. pose proof (slot_at_offset (istore cf) k J1 Hk) as Hs. destruct (offset_to_idx k) as [i j].
    rewrite Hs, Es. cbn [unwrap bind]. rewrite (proj2 (Z.eqb_neq (refs s) 0)) by lia.
    eapply yinv_other with (p' := Some (GetVal n k)); simp; eauto using same_vals_refl. intros q [= <-]. auto.
  - destruct (in_use _ _ _ _ _ _ HI Et (or_intror (or_intror eq_refl))) as (v & b & En & Cb & Cl). clear HT HW.
    destruct (J3 _ _ En) as (Hk & s & Es & Hc). cbn [hid] in Hk, Es.
    pose proof (slot_at_offset (istore cf) k J1 Hk) as Hs. destruct (offset_to_idx k) as [i j].
    rewrite Hs, Es. cbn [unwrap].
    destruct (X1 _ _ En) as (s' & Es' & Ec'); [discriminate|]. cbn in Es', Ec'.
    assert (s' = s) by congruence. subst s'. rewrite Ec'.
    unfold unborrow, set_handle. simp. rewrite ?En. simp. rewrite ?En. simp. replace (S b - 1)%nat with b by lia.
    eapply yinv_other with (p' := None); simp; [exact HX|exact HO|reflexivity|apply same_vals_refl| |discriminate| |].
    + eapply hw_upd_live; [exact En|discriminate].
    + eapply holds_upd; [exact X1| |exact En]. discriminate.
    + intros m o Hin. apply in_app_iff in Hin. destruct Hin as [Hin|[Hin|[]]].
      * eapply reads_same; [eapply hsame_upd; exact En|exact X3|exact Hin].
      * injection Hin as <- <-. eexists. split; [eapply nth_upd_same; exact En|]. reflexivity.
  - contradiction.
Qed.

Lemma place_at cf t q : nth_error (ithreads cf) t = Some (Some q) -> place cf t = Some q.
Proof. unfold place. intros ->. reflexivity. Qed.

Lemma overlapped_adding (run : list (action T) -> iconf T) acts t : overlapped run acts t -> adding (place (run acts) t) = true.
Proof. intros (a1 & a2 & u & -> & _ & _ & H). apply (H a2 []). rewrite app_nil_r. reflexivity. Qed.

Lemma overlapped_snoc (run : list (action T) -> iconf T) acts a t : overlapped run acts t -> adding (place (run (acts ++ [a])) t) = true ->
  overlapped run (acts ++ [a]) t.
Proof.
  intros (a1 & a2 & u & -> & Hn & Hu & H) Ha. exists a1, (a2 ++ [a]), u. split; [rewrite app_assoc; reflexivity|]. split; [exact Hn|].
  split; [exact Hu|]. intros b1 b2 E. destruct b2 as [|b b2 _] using rev_ind.
  - rewrite app_nil_r in E. subst b1. rewrite app_assoc. exact Ha.
  - rewrite app_assoc in E. apply app_inj_tail in E. destruct E as [E _]. apply (H b1 b2). exact E.
Qed.

Lemma overlapped_now (run : list (action T) -> iconf T) acts t u : t <> u -> adding (place (run acts) t) = true ->
  adding (place (run acts) u) = true -> overlapped run acts t.
Proof.
  intros Hn Ht Hu. exists acts, [], u. split; [rewrite app_nil_r; reflexivity|]. split; [exact Hn|]. split; [exact Hu|].
  intros b1 b2 E. destruct b1; [|discriminate]. rewrite app_nil_r. exact Ht.
Qed.

Lemma overlap_run n capacity (run := fun acts => iexec eqb dbg acts (iinitial n capacity)) acts :
  counts_fit eqb dbg (iinitial n capacity) acts -> writers_alone eqb dbg (iinitial n capacity) acts ->
  yinv (overlapped run acts) (run acts).
Proof.
  induction acts as [|a acts IH] using rev_ind; intros HF HW.
  - constructor; cbn.
    + intros [|m] h E; discriminate.
    + intros t q E. apply nth_error_In, repeat_spec in E. discriminate.
    + intros m o [].
  - assert (counts_fit eqb dbg (iinitial n capacity) acts) as HF1.
    { intros a1 a2 k E. apply (HF a1 (a2 ++ [a])). rewrite E, app_assoc. reflexivity. }
    assert (writers_alone eqb dbg (iinitial n capacity) acts) as HW1.
    { intros a1 a2 t E. apply (HW a1 (a2 ++ [a])). rewrite E, app_assoc. reflexivity. }
    specialize (IH HF1 HW1).
    destruct (run_inv eqb dbg n capacity acts HF1) as [N0 HI0]. change (iexec eqb dbg acts (iinitial n capacity)) with (run acts) in HI0.
    assert (HI : iinv full (run acts)) by (apply (iinv_full N0); [exact HI0|]; intros k; apply (HF1 acts []); rewrite app_nil_r; reflexivity).
    assert (HN : Z.of_nat full < 2 ^ 64 - 1) by (rewrite full_val; lia).
    assert (run (acts ++ [a]) = iconf_step eqb dbg (run acts) a) as Er by (unfold run, iexec; rewrite fold_left_app; reflexivity).
    (* the other threads stay where they are *)
    assert (forall u t, u <> t -> (a = Go t \/ exists c, a = Begin t c) -> place (run (acts ++ [a])) u = place (run acts) u) as Hst.
    { intros u t Hn Ha. rewrite Er. unfold place. destruct Ha as [->|[c ->]]; cbn [iconf_step];
        destruct (nth_error (ithreads (run acts)) t) as [[q|]|]; auto.
      - destruct (step_threads eqb dbg (run acts) t q) as [X|[q2 X]]; rewrite X; [reflexivity|]. rewrite nth_upd_other by auto. reflexivity.
      - destruct (begin_threads (run acts) t c) as [X|[q2 X]]; rewrite X; [reflexivity|]. rewrite nth_upd_other by auto. reflexivity. }
    assert (forall u t, u <> t -> (a = Go t \/ exists c, a = Begin t c) -> overlapped run acts u -> overlapped run (acts ++ [a]) u) as HO.
    { intros u t Hn Ha Ho. apply overlapped_snoc; [exact Ho|]. rewrite (Hst u t Hn Ha). apply overlapped_adding, Ho. }
    assert (forall t, overlapped run (acts ++ [a]) t -> writing (place (run (acts ++ [a])) t) = false) as HWn.
    { intros t. apply (HW (acts ++ [a]) []). rewrite app_nil_r. reflexivity. }
    assert (forall t, overlapped run acts t -> writing (place (run acts) t) = false) as HWo.
    { intros t. apply (HW1 acts []). rewrite app_nil_r. reflexivity. }
    assert (forall t, (a = Go t \/ exists c, a = Begin t c) -> run (acts ++ [a]) = run acts -> nth_error (ithreads (run acts)) t <> Some None -> yinv (overlapped run (acts ++ [a])) (run (acts ++ [a]))) as Hid.
    { intros t Ha E _. rewrite E. destruct IH as [Y1 Y2 Y3]. constructor; auto. intros u q Eu. refine (ypc_same (overlapped run acts u) _ _ _ _ _ q (same_vals_refl _) (fun k H => H) _ (Y2 u q Eu)).
      intros Ho. apply overlapped_snoc; [exact Ho|]. rewrite E. apply overlapped_adding, Ho. }
    destruct a as [t c|t].
    + destruct (nth_error (ithreads (run acts)) t) as [[q|]|] eqn:Et.
      * apply (Hid t); [eauto|rewrite Er; cbn [iconf_step]; rewrite Et; reflexivity|congruence].
      * rewrite Er. cbn [iconf_step]. rewrite Et. eapply yinv_begin; [exact IH| |exact Et]. intros u Hn. apply (HO u t Hn). eauto.
      * apply (Hid t); [eauto|rewrite Er; cbn [iconf_step]; rewrite Et; reflexivity|congruence].
    + destruct (nth_error (ithreads (run acts)) t) as [[q|]|] eqn:Et.
      * assert (run (acts ++ [Go t]) = istep eqb dbg (run acts) t q) as Es by (rewrite Er; cbn [iconf_step]; rewrite Et; reflexivity).
        rewrite Es. eapply (yinv_istep full); [exact HI|exact IH|exact HN|exact Et| | | |].
        -- intros u Hn. apply (HO u t Hn). auto.
        -- intros u q' Hn A E A'.
           assert (adding (place (run acts) t) = true) as At by (rewrite (place_at _ _ _ Et); exact A).
           assert (adding (place (run acts) u) = true) as Au by (rewrite (place_at _ _ _ E); exact A').
           split; [|split].
           ++ apply (HO u t Hn); [auto|]. apply (overlapped_now _ _ u t); auto.
           ++ rewrite <- (place_at _ _ _ Et). apply HWo. apply (overlapped_now _ _ t u); auto.
           ++ rewrite <- (place_at _ _ _ E). apply HWo. apply (overlapped_now _ _ u t); auto.
        -- intros A Ho. apply overlapped_snoc; [exact Ho|]. rewrite Es. exact A.
        -- intros A Ho. specialize (HWn t Ho). rewrite Es in HWn. congruence.
      * (* nothing happens *)
        rewrite Er. cbn [iconf_step]. rewrite Et.
        destruct IH as [Y1 Y2 Y3]. constructor; auto. intros u q Eu. refine (ypc_same (overlapped run acts u) _ _ _ _ _ q (same_vals_refl _) (fun k H => H) _ (Y2 u q Eu)).
        intros Ho. apply overlapped_snoc; [exact Ho|]. rewrite Er. cbn [iconf_step]. rewrite Et. apply overlapped_adding, Ho.
      * apply (Hid t); [eauto|rewrite Er; cbn [iconf_step]; rewrite Et; reflexivity|congruence].
Qed.
End Overlap.

(** C62 with overlapping calls of [add]: as long as those that overlap another find their value in the interner (and so neither take
    a free slot nor append a chunk), every handle that has not been given back holds the value it was added for, and that value
    is what [get] through it returns.  This includes C62_one_adder_partial.  Missing: overlapping calls of which one writes. *)
Theorem C62_overlapping_partial : forall (T : Type) (eqb : T -> T -> bool) dbg n capacity (acts : list (action T)),
  (forall a b, eqb a b = true -> a = b) ->
  counts_fit eqb dbg (iinitial n capacity) acts ->
  writers_alone eqb dbg (iinitial n capacity) acts ->
  let cf := iexec eqb dbg acts (iinitial n capacity) in
  (forall m h, nth_error (handles cf) m = Some h -> hst h <> Gone ->
     try_get (istore cf) (hid h) = Ok (Some (hval h))) /\
  (forall m o, In (m, o) (reads cf) -> exists h, nth_error (handles cf) m = Some h /\ o = Some (hval h)).
Proof.
  intros T eqb dbg n capacity acts Heq HN H1 cf. destruct (run_inv eqb dbg n capacity acts HN) as [N HI]. fold cf in HI.
  pose proof (overlap_run eqb dbg Heq n capacity acts HN H1) as HX.
  split; [|apply (yi_reads _ _ HX)]. intros m [k v s] E Hg. cbn [hid hst hval] in *.
  destruct (yi_handles _ _ HX _ _ E Hg) as (x & Ex & Hc). destruct (ij_handles _ _ HI _ _ E) as (Hk & _). cbn [hid hval] in *.
  change (iexec eqb dbg acts (iinitial n capacity)) with cf in Ex.
  rewrite (try_get_spec _ _ _ (ij_shape _ _ HI) Hk Ex).
  pose proof (held_pos _ _ _ _ _ E Hg) as Hp. pose proof (ij_refs _ _ HI _ _ Hk Ex) as Hr.
  rewrite (proj2 (Z.eqb_neq _ 0)) by lia. rewrite Hc. reflexivity.
Qed.
Print Assumptions C62_overlapping_partial.

(** It is the weaker condition. *)
Theorem C62_condition : forall (T : Type) (eqb : T -> T -> bool) dbg cf (acts : list (action T)),
  one_adder eqb dbg cf acts -> writers_alone eqb dbg cf acts.
Proof.
  intros T eqb dbg cf acts H a1 a2 t E (b1 & b2 & u & Eb & Hn & Hu & Ht). exfalso.
  specialize (H b1 (b2 ++ a2)). rewrite app_assoc, <- Eb in H. specialize (H E).
  specialize (Ht [] b2 eq_refl). rewrite app_nil_r in Ht. revert Ht Hu. unfold place.
  destruct (nth_error (ithreads (iexec eqb dbg b1 cf)) t) as [p|] eqn:Et; [|discriminate].
  destruct (nth_error (ithreads (iexec eqb dbg b1 cf)) u) as [p'|] eqn:Eu; [|discriminate].
  intros A A'. pose proof (cnt_two adding _ _ _ _ _ Hn Et Eu A A') as C. unfold cnt in C. lia.
Qed.
Print Assumptions C62_condition.

(** Two threads add a value that is there already, at the same time, while a third gives the first handle back. *)
Definition alone : list (action Z) := Begin 0 (CAdd 5) :: repeat (Go 0) 5.
Definition together : list (action Z) := [Begin 0 (CAdd 5); Begin 1 (CAdd 5); Begin 2 (CDecr 0)] ++ concat (repeat [Go 0; Go 1; Go 2] 6) ++ [Begin 2 (CGet 1); Go 2; Go 2].
Example C62_overlapping_case :
  writers_alone Z.eqb true (iinitial 3 1) (alone ++ together) /\ counts_fit Z.eqb true (iinitial 3 1) (alone ++ together) /\
  ~ one_adder Z.eqb true (iinitial 3 1) (alone ++ together) /\
  let cf := iexec Z.eqb true (alone ++ together) (iinitial 3 1) in
  map (fun h => (hid h, hval h, hst h)) (handles cf) = [(0, 5, Gone); (0, 5, Held 0); (0, 5, Held 0)] /\ reads cf = [(1%nat, Some 5)].
Proof.
  split; [|split; [apply counts_fit_short; vm_compute; reflexivity|split; [|vm_compute; auto]]].
  - assert (H : forallb (fun k => let cf := iexec Z.eqb true (firstn k (alone ++ together)) (iinitial 3 1) in
                  if Nat.ltb k 8 then Nat.leb (length (filter adding (ithreads cf))) 1 else negb (existsb writing (ithreads cf)))
                (seq 0 (S (length (alone ++ together)))) = true) by (vm_compute; reflexivity).
    rewrite forallb_forall in H.
    assert (K : forall a1 a2, alone ++ together = a1 ++ a2 -> let cf := iexec Z.eqb true a1 (iinitial 3 1) in
       if Nat.ltb (length a1) 8 then Nat.leb (length (filter adding (ithreads cf))) 1 = true else negb (existsb writing (ithreads cf)) = true).
    { intros a1 a2 E. specialize (H (length a1)). rewrite E, firstn_app, Nat.sub_diag, firstn_all, app_nil_r in H.
      destruct (Nat.ltb (length a1) 8); apply H, in_seq; rewrite app_length; lia. }
    intros a1 a2 t E O. pose proof (K a1 a2 E) as K1. cbv zeta in K1. destruct (Nat.ltb_spec (length a1) 8) as [L|L].
    + exfalso. destruct O as (b1 & b2 & u & Eb & Hn & Hu & Ht). specialize (K b1 (b2 ++ a2)). rewrite app_assoc, <- Eb in K. specialize (K E).
      cbv zeta in K. destruct (Nat.ltb_spec (length b1) 8) as [L2|L2].
      * apply Nat.leb_le in K. specialize (Ht [] b2 eq_refl). rewrite app_nil_r in Ht. revert Ht Hu. unfold place.
        destruct (nth_error (ithreads (iexec Z.eqb true b1 (iinitial 3 1))) t) as [p|] eqn:Et; [|discriminate].
        destruct (nth_error (ithreads (iexec Z.eqb true b1 (iinitial 3 1))) u) as [p'|] eqn:Eu; [|discriminate].
        intros A A'. pose proof (cnt_two adding _ _ _ _ _ Hn Et Eu A A') as C. unfold cnt in C. lia.
      * rewrite Eb, app_length in L. lia.
    + apply negb_true_iff in K1. unfold place.
      destruct (nth_error (ithreads (iexec Z.eqb true a1 (iinitial 3 1))) t) as [p|] eqn:Et; [|reflexivity].
      destruct (writing p) eqn:W; [|reflexivity]. rewrite <- K1. symmetry. apply existsb_exists. exists p. split; [eapply nth_error_In; exact Et|exact W].
  - intros H. specialize (H (alone ++ firstn 2 together) (skipn 2 together) eq_refl). vm_compute in H. lia.
Qed.
