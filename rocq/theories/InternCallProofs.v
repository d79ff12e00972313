(** Programs that use an interner from inside the code of its elements: invariants. *)
From Coq Require Import ZArith List Bool Lia.
From Verif Require Import Base Arith InternModel InternProofs InternSpec InternHist InternCallModel InternCallSpec.
Import ListNotations.
Local Open Scope Z_scope.

Section Proofs.
Context {T : Type}.
Variable eqb : T -> T -> bool.
Hypothesis eqb_ok : forall a b, eqb a b = true <-> a = b.
Variable dbg : bool.
Implicit Types (w : world T) (st : store T) (tr : list (event T)).

Notation run_calls := (run_calls eqb dbg).
Notation run_code := (run_code eqb dbg).
Notation run_find := (run_find eqb dbg).
Notation run_fill := (run_fill eqb dbg).
Notation run_call := (run_call eqb dbg).

(** One step of each function of the model. *)
Lemma run_calls_S f (cs : list (call T)) (w : world T) : run_calls (S f) cs w =

    match cs with
    | [] => (Returns, w)
    | c :: cs' =>
      match run_call f c w with
      | (Returns, w) => run_calls f cs' w
      | other => other
      end
    end.
Proof. reflexivity. Qed.

Lemma run_code_S f (cd : code T) (w : world T) : run_code (S f) cd w =

    let '(Code cs p) := cd in
    match run_calls f cs w with
    | (Returns, w) => (if p then Unwinds else Returns, w)
    | other => other
    end.
Proof. reflexivity. Qed.

Lemma run_find_S f (v : T) (cmps : list (code T)) (i : nat) (j : nat) (w : world T) : run_find (S f) v cmps i j w =

    match nth_error (ws w) i with
    | None => (Some Nothing, Returns, w)
    | Some c =>
      match nth_error c j with
      | None => run_find f v cmps (S i) 0 w
      | Some s =>
        let count := refs s in
        match cont s with
        | None => if count =? 0 then (Some (Dead i j), Returns, w) else run_find f v cmps i (S j) w
        | Some cur =>
          match run_code f (hd (Code [] false) cmps) w with
          | (Returns, w) =>
            if eqb v cur then (Some (Exists i j), Returns, w)
            else if count =? 0 then (Some (Dead i j), Returns, w)
            else run_find f v (tl cmps) i (S j) w
          | (e, w) => (None, e, w)
          end
        end
      end
    end.
Proof. reflexivity. Qed.

Lemma run_fill_S f (v : T) (conv : code T) (drp : code T) (i : nat) (j : nat) (w : world T) : run_fill (S f) v conv drp i j w =

    match bump dbg (ws w) i j with
    | (Returns, st) =>
      match run_code f conv (with_store w st) with
      | (Returns, w) =>
        match slot_at (ws w) i j with
        | Ok s =>
          let '(e, w) := match cont s with Some _ => run_code f drp w | None => (Returns, w) end in
          match e with
          | Spent => (Spent, w)
          | _ => (e, with_store w (write (ws w) i j v))
          end
        | _ => (Unwinds, w)
        end
      | other => other
      end
    | (e, st) => (e, with_store w st)
    end.
Proof. reflexivity. Qed.

Lemma run_call_S f (c : call T) (w : world T) : run_call (S f) c w =

    match c with
    | CAdd v cmps conv drp =>
      match run_find f v cmps 0 0 w with
      | (Some (Exists i j), _, w) =>
        match bump dbg (ws w) i j with
        | (Returns, st) => (Returns, log (with_store w st) (EAdd v (idx_to_offset i j)))
        | (e, st) => (e, broken (with_store w st))
        end
      | (Some (Dead i j), _, w) =>
        match run_fill f v conv drp i j w with
        | (Returns, w) => (Returns, log w (EAdd v (idx_to_offset i j)))
        | (Unwinds, w) => (Unwinds, broken w)
        | other => other
        end
      | (Some Nothing, _, w) =>
        let st := ws w ++ [new_chunk] in
        let len := length st in
        match run_fill f v conv drp (len - 1) 0 (with_store w st) with
        | (Returns, w) => (Returns, log w (EAdd v (Z.of_nat (len - 1) * 32)))
        | (Unwinds, w) => (Unwinds, broken w)
        | other => other
        end
      | (None, Unwinds, w) => (Unwinds, broken w)
      | (None, e, w) => (e, w)
      end
    | CIncr k =>
      let '(i, j) := offset_to_idx k in
      match bump dbg (ws w) i j with
      | (Returns, st) => (Returns, log (with_store w st) (EIncr k))
      | (e, st) => (e, with_store w st)
      end
    | CDecr k =>
      match intern_decr k (ws w) with
      | Ok st => (Returns, log (with_store w st) (EDecr k))
      | _ => (Unwinds, w)
      end
    | CGet k =>
      let s := look (ws w) k in
      (match s with Refused => Unwinds | _ => Returns end,
       World (ws w) (wt w) (wr w ++ [(wt w, k, s)]) (wb w))
    | CCatch cs =>
      match run_calls f cs w with
      | (Unwinds, w) => (Returns, w)
      | other => other
      end
    end.
Proof. reflexivity. Qed.

(** ** The trace only grows *)

Definition grows w w' : Prop := exists tr, wt w' = wt w ++ tr.
Lemma grows_refl w : grows w w.
Proof. exists []. rewrite app_nil_r. reflexivity. Qed.
Lemma grows_trans w1 w2 w3 : grows w1 w2 -> grows w2 w3 -> grows w1 w3.
Proof. intros [a A] [b B]. exists (a ++ b). rewrite B, A, app_assoc. reflexivity. Qed.
Lemma grows_log w e : grows w (log w e).
Proof. exists [e]. reflexivity. Qed.

Lemma owned_prefix tr1 tr2 : owned (tr1 ++ tr2) -> owned tr1.
Proof.
  intros H a e b ->. apply (H a e (b ++ tr2)). rewrite <- app_assoc. reflexivity.
Qed.
Lemma owned_grows w w' : grows w w' -> owned (wt w') -> owned (wt w).
Proof. intros [tr ->]. apply owned_prefix. Qed.

Lemma all_grow f :
  (forall cs w, grows w (snd (run_calls f cs w))) /\
  (forall cd w, grows w (snd (run_code f cd w))) /\
  (forall v cmps i j w, grows w (snd (run_find f v cmps i j w))) /\
  (forall v conv drp i j w, grows w (snd (run_fill f v conv drp i j w))) /\
  (forall c w, grows w (snd (run_call f c w))).
Proof.
  induction f as [|f (I1 & I2 & I3 & I4 & I5)].
  { repeat split; intros; apply grows_refl. }
  split; [|split; [|split; [|split]]].
  - intros [|c cs] w; [apply grows_refl|]. rewrite run_calls_S.
    specialize (I5 c w). destruct (run_call f c w) as [[] w1]; cbn [snd] in *; auto.
    eapply grows_trans; [exact I5|apply I1].
  - intros [cs p] w. rewrite run_code_S. specialize (I1 cs w).
    destruct (run_calls f cs w) as [[] w1]; auto.
  - intros v cmps i j w. rewrite run_find_S.
    destruct (nth_error (ws w) i) as [c|]; [|apply grows_refl].
    destruct (nth_error c j) as [s|]; [|apply I3]. cbv zeta.
    destruct (cont s) as [cur|].
    + specialize (I2 (hd (Code [] false) cmps) w).
      destruct (run_code f (hd (Code [] false) cmps) w) as [[] w1]; cbn [snd] in *; auto.
      destruct (eqb v cur); auto. destruct (refs s =? 0); auto. eapply grows_trans; [exact I2|apply I3].
    + destruct (refs s =? 0); [apply grows_refl|apply I3].
  - intros v conv drp i j w. rewrite run_fill_S.
    destruct (bump dbg (ws w) i j) as [[] st]; [|exists []; rewrite app_nil_r; reflexivity..].
    specialize (I2 conv (with_store w st)) as G.
    destruct (run_code f conv (with_store w st)) as [[] w1]; cbn [snd] in *; auto.
    destruct (slot_at (ws w1) i j) as [s| |]; auto.
    destruct (cont s) as [o|].
    + specialize (I2 drp w1). destruct (run_code f drp w1) as [[] w2]; cbn [snd] in *;
        exact (grows_trans w w1 w2 G I2).
    + exact G.
  - intros c w. rewrite run_call_S. destruct c as [v cmps conv drp|k|k|k|cs].
    + specialize (I3 v cmps 0%nat 0%nat w).
      destruct (run_find f v cmps 0 0 w) as [[[[i j|i j|]|] e] w1]; cbn [snd] in *.
      * destruct (bump dbg (ws w1) i j) as [[] st]; auto.
        eapply grows_trans; [exact I3|]. exists [EAdd v (idx_to_offset i j)]. reflexivity.
      * specialize (I4 v conv drp i j w1). destruct (run_fill f v conv drp i j w1) as [[] w2]; cbn [snd] in *;
          pose proof (grows_trans _ _ _ I3 I4) as G; auto.
        eapply grows_trans; [exact G|apply grows_log].
      * cbv zeta. match goal with |- context [run_fill f v conv drp ?i ?j ?w0] =>
          specialize (I4 v conv drp i j w0); destruct (run_fill f v conv drp i j w0) as [[] w2] end;
        cbn [snd] in *; pose proof (grows_trans w w1 w2 I3 I4) as G; auto.
        eapply grows_trans; [exact G|apply grows_log].
      * destruct e; auto.
    + destruct (offset_to_idx k) as [i j]. destruct (bump dbg (ws w) i j) as [[] st].
      * exists [EIncr k]. reflexivity.
      * exists []. rewrite app_nil_r. reflexivity.
      * exists []. rewrite app_nil_r. reflexivity.
    + destruct (intern_decr k (ws w)); [exists [EDecr k]; reflexivity|apply grows_refl|apply grows_refl].
    + exists []. rewrite app_nil_r. reflexivity.
    + specialize (I1 cs w). destruct (run_calls f cs w) as [[] w1]; auto.
Qed.

(** ** Sums of counts *)

Definition sum_refs (l : list (slot T)) : Z := fold_right (fun s n => refs s + n) 0 l.
Definition total st : Z := sum_refs (flat st).

Lemma sum_refs_app a b : sum_refs (a ++ b) = sum_refs a + sum_refs b.
Proof. unfold sum_refs. induction a; cbn [app fold_right]; [reflexivity|]. rewrite IHa. lia. Qed.

Lemma sum_refs_upd l : forall k s x, nth_error l k = Some s ->
  sum_refs (upd l k x) = sum_refs l + refs x - refs s.
Proof.
  unfold sum_refs. induction l as [|a l IH]; intros [|k] s x E; try discriminate; cbn [nth_error upd fold_right] in *.
  - assert (a = s) as -> by congruence. lia.
  - rewrite (IH _ _ _ E). lia.
Qed.

Lemma total_put st k s x : shape st -> 0 <= k -> slot_of st k = Some s ->
  total (let '(i, j) := offset_to_idx k in slot_put st i j x) = total st + refs x - refs s.
Proof.
  intros Hs Hk E. pose proof (offset_idx k Hk) as H. destruct (offset_to_idx k) as [i j].
  destruct H as [H1 H2]. unfold total. rewrite flat_put by auto. rewrite H2.
  unfold slot_of in E. rewrite (proj2 (Z.ltb_ge k 0)) in E by lia. apply sum_refs_upd; auto.
Qed.

Lemma total_push st : total (st ++ [new_chunk]) = total st.
Proof.
  unfold total. rewrite flat_push, sum_refs_app. change (sum_refs new_chunk) with 0. lia.
Qed.

Lemma outstanding_snoc tr e : outstanding (tr ++ [e]) =
  outstanding tr + match e with EAdd _ _ | EIncr _ => 1 | EDecr _ => -1 end.
Proof.
  unfold outstanding. induction tr as [|a tr IH]; cbn [app fold_right].
  - destruct e; lia.
  - rewrite IH. destruct a, e; lia.
Qed.

(** ** Values held *)

Lemma held_count k tr : fst (fold_left (held_step k) tr (0, [])) = count k tr.
Proof.
  induction tr as [|e tr IH] using rev_ind; [reflexivity|].
  rewrite fold_left_app, count_snoc. cbn [fold_left]. pose proof (count_bound k tr).
  destruct (fold_left (held_step k) tr (0, [])) as [a l]. cbn [fst] in IH. subst a.
  destruct e as [v k'|k'|k']; cbn [held_step count_step fst snd]; destruct (k' =? k); try reflexivity.
  destruct (Z.leb_spec (count k tr) 1); cbn [fst]; lia.
Qed.

Lemma held_snoc k tr e : held k (tr ++ [e]) =
  match e with
  | EAdd v k' => if k' =? k then v :: held k tr else held k tr
  | EIncr k' => held k tr
  | EDecr k' => if k' =? k then (if count k tr <=? 1 then [] else held k tr) else held k tr
  end.
Proof.
  unfold held. rewrite fold_left_app. cbn [fold_left]. rewrite <- held_count.
  destruct (fold_left (held_step k) tr (0, [])) as [a l]. cbn [fst snd].
  destruct e as [v k'|k'|k']; cbn [held_step fst snd]; destruct (k' =? k); try reflexivity.
  destruct (a <=? 1); reflexivity.
Qed.

Lemma held_nil k tr : owned tr -> count k tr = 0 -> held k tr = [].
Proof.
  induction tr as [|e tr IH] using rev_ind; [reflexivity|]. intros Ho. rewrite count_snoc, held_snoc.
  pose proof (count_bound k tr) as B. specialize (IH (fun a x b E => Ho a x (b ++ [e]) ltac:(rewrite E, <- app_assoc; reflexivity))).
  destruct e as [v k'|k'|k']; cbn [count_step]; destruct (Z.eqb_spec k' k) as [->|Hne]; intros Hc; auto; try lia.
  rewrite (proj2 (Z.leb_le _ _)) by lia. reflexivity.
Qed.

(** ** The invariant *)

Definition good (r : list (event T) * Z * seen T) : Prop :=
  let '(tr, k, x) := r in 0 < count k tr -> exists v, x = Seen v /\ In v (held k tr) /\ forall u, In u (held k tr) -> u = v.

Record inv (m : style) (n d : Z) w : Prop := {
  i_shape : shape (ws w);
  i_n : 0 <= n;
  i_slot : forall k s, 0 <= k -> slot_of (ws w) k = Some s ->
    0 <= refs s <= n /\ count k (wt w) <= refs s /\
    (0 < count k (wt w) -> exists v, cont s = Some v /\ In v (held k (wt w)) /\ forall u, In u (held k (wt w)) -> u = v) /\
    (m = Keep -> refs s = 0 -> cont s = None);
  i_out : forall k, k < 0 \/ 32 * Z.of_nat (length (ws w)) <= k -> count k (wt w) = 0;
  i_reads : Forall good (wr w);
  i_total : total (ws w) <= outstanding (wt w) + wb w + d
}.

Lemma inv_mono m n n' d d' w : n <= n' -> d <= d' -> inv m n d w -> inv m n' d' w.
Proof.
  intros Hn Hd [A0 A1 A2 A3 A4 A5]. constructor; auto; try lia.
  intros k s Hk E. destruct (A2 k s Hk E) as (B1 & B2 & B3 & B4). split; [lia|auto].
Qed.

(** What the callbacks leave alone. *)
Definition frame (m : style) w w' : Prop := forall k s, 0 <= k -> slot_of (ws w) k = Some s ->
  (m = Keep -> 1 <= refs s) ->
  exists s', slot_of (ws w') k = Some s' /\ cont s' = cont s /\ (m = Keep -> 1 <= refs s') /\
    ((m = Keep -> cont s = None) -> count k (wt w) = 0 -> count k (wt w') = 0 /\ refs s <= refs s').

Lemma frame_refl m w : frame m w w.
Proof. intros k s Hk E Hr. exists s. repeat split; auto; lia. Qed.
Lemma frame_trans m w1 w2 w3 : frame m w1 w2 -> frame m w2 w3 -> frame m w1 w3.
Proof.
  intros A B k s Hk E Hr. destruct (A k s Hk E Hr) as (s2 & E2 & C2 & R2 & D2).
  destruct (B k s2 Hk E2 R2) as (s3 & E3 & C3 & R3 & D3). exists s3.
  split; auto. split; [congruence|]. split; auto. intros X Y. destruct (D2 X Y) as [D2a D2b].
  rewrite C2 in D3. destruct (D3 X D2a). split; auto. lia.
Qed.

(** Same trace, store changed at one slot. *)
Lemma idx_pos i j : 0 <= idx_to_offset i j.
Proof. unfold idx_to_offset. lia. Qed.

Lemma slot_at_idx st i j : shape st -> (j < 32)%nat -> slot_at st i j = unwrap (slot_of st (idx_to_offset i j)).
Proof.
  intros Hs Hj. rewrite <- slot_at_offset by (auto; apply idx_pos). rewrite idx_of_offset; auto.
Qed.

Lemma put_idx st i j s k' : shape st -> (j < 32)%nat -> 0 <= k' ->
  slot_of (slot_put st i j s) k' =
    if idx_to_offset i j =? k' then option_map (fun _ => s) (slot_of st (idx_to_offset i j)) else slot_of st k'.
Proof.
  intros Hs Hj Hk. pose proof (slot_of_put st (idx_to_offset i j) s k' Hs (idx_pos i j) Hk) as H.
  rewrite idx_of_offset in H by auto. exact H.
Qed.
Lemma total_idx st i j s x : shape st -> (j < 32)%nat -> slot_of st (idx_to_offset i j) = Some s ->
  total (slot_put st i j x) = total st + refs x - refs s.
Proof.
  intros Hs Hj E. pose proof (total_put st (idx_to_offset i j) s x Hs (idx_pos i j) E) as H.
  rewrite idx_of_offset in H by auto. exact H.
Qed.

Lemma bump_ok m n d w i j s : inv m n d w -> (j < 32)%nat -> slot_of (ws w) (idx_to_offset i j) = Some s ->
  n < 2 ^ 64 - 1 ->
  exists st', bump dbg (ws w) i j = (Returns, st') /\
    inv m (n + 1) (d + 1) (with_store w st') /\
    forall k', 0 <= k' -> slot_of st' k' =
      if idx_to_offset i j =? k' then Some (Slot (refs s + 1) (cont s)) else slot_of (ws w) k'.
Proof.
  intros [A0 A1 A2 A3 A4 A5] Hj E Hn. unfold bump. rewrite slot_at_idx, E by auto. cbn [unwrap].
  destruct (A2 _ _ (idx_pos i j) E) as (B1 & B2 & B3 & B4).
  rewrite (proj2 (Z.eqb_neq (refs s) (2 ^ 64 - 1))) by lia. rewrite andb_false_r.
  rewrite Z.mod_small by lia.
  assert (forall k', 0 <= k' -> slot_of (slot_put (ws w) i j (Slot (refs s + 1) (cont s))) k' =
      if idx_to_offset i j =? k' then Some (Slot (refs s + 1) (cont s)) else slot_of (ws w) k') as G.
  { intros k' Hk'. rewrite put_idx by auto. rewrite E. reflexivity. }
  eexists. split; [reflexivity|]. split; [|exact G].
  constructor; cbn [ws wt wr wb with_store]; auto.
  - apply shape_put; auto.
  - lia.
  - intros k s' Hk E'. rewrite G in E' by auto. destruct (Z.eqb_spec (idx_to_offset i j) k) as [<-|Hne].
    + injection E' as <-. cbn [refs cont]. split; [lia|]. split; [lia|]. split; [exact B3|lia].
    + destruct (A2 _ _ Hk E') as (C1 & C2 & C3 & C4). split; [lia|]. auto.
  - rewrite length_slot_put. auto.
  - rewrite (total_idx _ _ _ s) by auto. cbn [refs]. lia.
Qed.

Lemma count_log k tr e : count k (tr ++ [e]) = count_step k (count k tr) e.
Proof. apply count_snoc. Qed.

Lemma slot_bound st k s : shape st -> 0 <= k -> slot_of st k = Some s -> k < 32 * Z.of_nat (length st).
Proof. intros. apply slot_of_range; auto. congruence. Qed.

Lemma inv_log_add m n d w k s v : owned (wt w) -> inv m n (d + 1) w -> 0 <= k -> slot_of (ws w) k = Some s ->
  cont s = Some v -> count k (wt w) + 1 <= refs s -> inv m n d (log w (EAdd v k)).
Proof.
  intros Ho [A0 A1 A2 A3 A4 A5] Hk E Ec Hr. constructor; cbn [ws wt wr wb log]; auto.
  - intros k' s' Hk' E'. destruct (A2 _ _ Hk' E') as (B1 & B2 & B3 & B4).
    rewrite count_log, held_snoc. cbn [count_step].
    destruct (Z.eqb_spec k k') as [<-|Hne].
    + assert (s' = s) as -> by congruence. split; [exact B1|]. split; [lia|]. split; [|auto]. intros _. exists v. split; auto. split; [left; auto|]. intros u [U|U]; auto.
      pose proof (count_bound k (wt w)). destruct (Z.eq_dec (count k (wt w)) 0) as [Q|Q].
      * rewrite (held_nil _ _ Ho Q) in U. destruct U.
      * destruct (B3 ltac:(lia)) as (x & X1 & X2 & X3). rewrite (X3 u U). congruence.
    + auto.
  - intros k' Hk'. rewrite count_log. cbn [count_step]. pose proof (slot_bound _ _ _ A0 Hk E).
    rewrite (proj2 (Z.eqb_neq k k')) by lia. auto.
  - rewrite outstanding_snoc. lia.
Qed.

Lemma inv_log_incr m n d w k s : inv m n (d + 1) w -> 0 <= k -> slot_of (ws w) k = Some s ->
  0 < count k (wt w) -> count k (wt w) + 1 <= refs s -> inv m n d (log w (EIncr k)).
Proof.
  intros [A0 A1 A2 A3 A4 A5] Hk E Hc Hr. constructor; cbn [ws wt wr wb log]; auto.
  - intros k' s' Hk' E'. destruct (A2 _ _ Hk' E') as (B1 & B2 & B3 & B4).
    rewrite count_log, held_snoc. cbn [count_step].
    destruct (Z.eqb_spec k k') as [<-|Hne].
    + assert (s' = s) as -> by congruence. split; [exact B1|]. split; [lia|]. split; [intros _; apply B3; auto|auto].
    + auto.
  - intros k' Hk'. rewrite count_log. cbn [count_step]. pose proof (slot_bound _ _ _ A0 Hk E).
    rewrite (proj2 (Z.eqb_neq k k')) by lia. auto.
  - rewrite outstanding_snoc. lia.
Qed.

Lemma inv_broken m n d w : inv m n (d + 1) w -> inv m n d (broken w).
Proof. intros [A0 A1 A2 A3 A4 A5]. constructor; cbn [ws wt wr wb broken]; auto. lia. Qed.

(** The value is written. *)
Lemma inv_write m n d w i j s v : inv m n d w -> (j < 32)%nat -> slot_of (ws w) (idx_to_offset i j) = Some s ->
  count (idx_to_offset i j) (wt w) = 0 -> (m = Keep -> 1 <= refs s) ->
  inv m n d (with_store w (write (ws w) i j v)) /\
  forall k', 0 <= k' -> slot_of (write (ws w) i j v) k' =
    if idx_to_offset i j =? k' then Some (Slot (refs s) (Some v)) else slot_of (ws w) k'.
Proof.
  intros [A0 A1 A2 A3 A4 A5] Hj E Hc Hm. unfold write. rewrite slot_at_idx, E by auto. cbn [unwrap].
  assert (forall k', 0 <= k' -> slot_of (slot_put (ws w) i j (Slot (refs s) (Some v))) k' =
      if idx_to_offset i j =? k' then Some (Slot (refs s) (Some v)) else slot_of (ws w) k') as G.
  { intros k' Hk'. rewrite put_idx by auto. rewrite E. reflexivity. }
  split; [|exact G]. constructor; cbn [ws wt wr wb with_store]; auto.
  - apply shape_put; auto.
  - intros k s' Hk E'. rewrite G in E' by auto. destruct (Z.eqb_spec (idx_to_offset i j) k) as [<-|Hne].
    + injection E' as <-. destruct (A2 _ _ Hk E) as (B1 & B2 & B3 & B4). cbn [refs cont].
      split; [lia|]. split; [lia|]. split; [lia|]. intros Hk0 Hr0. specialize (Hm Hk0). lia.
    + exact (A2 _ _ Hk E').
  - rewrite length_slot_put. auto.
  - rewrite (total_idx _ _ _ s) by auto. cbn [refs]. lia.
Qed.

Lemma inv_push m n d w : inv m n d w -> inv m n d (with_store w (ws w ++ [new_chunk])).
Proof.
  intros [A0 A1 A2 A3 A4 A5]. constructor; cbn [ws wt wr wb with_store]; auto.
  - apply shape_push; auto.
  - intros k s Hk E. rewrite slot_of_push in E by auto.
    destruct (Z.ltb_spec k (32 * Z.of_nat (length (ws w)))) as [L|L]; [exact (A2 _ _ Hk E)|].
    destruct (k <? _); [|discriminate]. injection E as <-. rewrite (A3 k) by lia.
    cbn [refs cont new_uninit]. split; [lia|]. split; [lia|]. split; [lia|auto].
  - intros k Hk. apply A3. rewrite app_length in Hk. cbn [length] in Hk. lia.
  - rewrite total_push. lia.
Qed.
Lemma frame_push m w : shape (ws w) -> frame m w (with_store w (ws w ++ [new_chunk])).
Proof.
  intros Hs k s Hk E Hr. exists s. cbn [ws wt with_store]. rewrite slot_of_push by auto.
  pose proof (slot_bound _ _ _ Hs Hk E). rewrite (proj2 (Z.ltb_lt _ _)) by lia. repeat split; auto; lia.
Qed.

(** ** Every call keeps the invariant *)

Definition tight (m : style) (inner : bool) : Prop := m = Keep \/ inner = true.

Definition code_takes_all (cds : list (code T)) : Z := fold_right (fun cd n => code_takes cd + n) 0 cds.

(** What every piece of a run achieves, from invariant [inv m n d] and [t] more references taken. *)
Definition after (m : style) (fr : Prop) (n t d : Z) w (e : ends) w' : Prop :=
  Forall good (wr w') /\ (e <> Spent -> inv m (n + t) d w' /\ (fr -> frame m w w')).

Fixpoint takes_pos (c : call T) : 0 <= takes c
with code_takes_pos (cd : code T) : 0 <= code_takes cd.
Proof.
  - destruct c as [v cmps conv drp|k|k|k|cs]; cbn [takes]; try lia.
    + assert (0 <= fold_right (fun cd n => code_takes cd + n) 0 cmps) as H.
      { induction cmps as [|a l IH]; cbn [fold_right]; [lia|]. specialize (code_takes_pos a). lia. }
      pose proof (code_takes_pos conv). pose proof (code_takes_pos drp). lia.
    + induction cs as [|a l IH]; cbn [fold_right]; [lia|]. specialize (takes_pos a). lia.
  - destruct cd as [cs p]. cbn [code_takes].
    induction cs as [|a l IH]; cbn [fold_right]; [lia|]. specialize (takes_pos a). lia.
Qed.
Lemma all_takes_pos (cs : list (call T)) : 0 <= all_takes cs.
Proof. induction cs as [|a l IH]; cbn [all_takes fold_right]; [lia|]. pose proof (takes_pos a). unfold all_takes in IH. lia. Qed.
Lemma codes_takes_pos (cs : list (code T)) : 0 <= code_takes_all cs.
Proof. induction cs as [|a l IH]; cbn [code_takes_all fold_right]; [lia|]. pose proof (code_takes_pos a). unfold code_takes_all in IH. lia. Qed.

Lemma nth_slot st i j c s : shape st -> nth_error st i = Some c -> nth_error c j = Some s ->
  (j < 32)%nat /\ slot_of st (idx_to_offset i j) = Some s.
Proof.
  intros Hs Ei Ej. assert (j < 32)%nat as Hj.
  { assert (length c = chunk_size) as L.
    { unfold shape in Hs. rewrite Forall_forall in Hs. apply Hs. eapply nth_error_In; eauto. }
    unfold chunk_size in L. rewrite <- L. apply nth_error_Some. congruence. }
  split; auto. assert (slot_at st i j = Ok s) as H by (unfold slot_at; rewrite Ei; cbn [unwrap bind]; rewrite Ej; reflexivity).
  rewrite slot_at_idx in H by auto. destruct (slot_of st (idx_to_offset i j)); cbn [unwrap] in H; congruence.
Qed.

Lemma push_new st : shape st ->
  slot_of (st ++ [new_chunk]) (idx_to_offset (length st) 0) = Some new_uninit.
Proof.
  intros Hs. rewrite slot_of_push by (auto; apply idx_pos). unfold idx_to_offset.
  rewrite (proj2 (Z.ltb_ge _ _)) by lia. rewrite (proj2 (Z.ltb_lt _ _)) by lia. reflexivity.
Qed.

Lemma all_keep m f :
  (forall inner cs w n d, inv m n d w -> forallb (follows m inner) cs = true -> n + all_takes cs < 2 ^ 64 - 1 ->
    let '(e, w') := run_calls f cs w in owned (wt w') -> after m (tight m inner) n (all_takes cs) d w e w') /\
  (forall cd w n d, inv m n d w -> code_follows m cd = true -> n + code_takes cd < 2 ^ 64 - 1 ->
    let '(e, w') := run_code f cd w in owned (wt w') -> after m True n (code_takes cd) d w e w') /\
  (forall v cmps i j w n d, inv m n d w -> forallb (code_follows m) cmps = true -> n + code_takes_all cmps < 2 ^ 64 - 1 ->
    let '(r, e, w') := run_find f v cmps i j w in owned (wt w') ->
    after m True n (code_takes_all cmps) d w e w' /\
    match r with
    | Some (Exists i' j') => e = Returns /\ (j' < 32)%nat /\
        exists s, slot_of (ws w') (idx_to_offset i' j') = Some s /\ cont s = Some v
    | Some (Dead i' j') => e = Returns /\ (j' < 32)%nat /\
        exists s, slot_of (ws w') (idx_to_offset i' j') = Some s /\ count (idx_to_offset i' j') (wt w') = 0 /\
          (m = Keep -> refs s = 0 /\ cont s = None)
    | Some Nothing => e = Returns
    | None => e <> Returns
    end) /\
  (forall v conv drp i j w n d s, inv m n d w -> (j < 32)%nat -> slot_of (ws w) (idx_to_offset i j) = Some s ->
    count (idx_to_offset i j) (wt w) = 0 -> (m = Keep -> refs s = 0 /\ cont s = None) ->
    code_follows m conv = true -> code_follows m drp = true ->
    n + (1 + (code_takes conv + code_takes drp)) < 2 ^ 64 - 1 ->
    let '(e, w') := run_fill f v conv drp i j w in owned (wt w') ->
    after m (m = Keep) n (1 + (code_takes conv + code_takes drp)) (d + 1) w e w' /\
    (e = Returns -> count (idx_to_offset i j) (wt w') = 0 /\
       exists s', slot_of (ws w') (idx_to_offset i j) = Some s' /\ cont s' = Some v /\ 1 <= refs s')) /\
  (forall inner c w n d, inv m n d w -> follows m inner c = true -> n + takes c < 2 ^ 64 - 1 ->
    let '(e, w') := run_call f c w in owned (wt w') -> after m (tight m inner) n (takes c) d w e w').
Proof.
  induction f as [|f (I1 & I2 & I3 & I4 & I5)].
  { split; [|split; [|split; [|split]]]; intros until d; try (intros s; match type of s with slot _ => idtac end); intros Hi; intros; cbn; intros _.
    - split; [apply Hi|congruence].
    - split; [apply Hi|congruence].
    - split; [split; [apply Hi|congruence]|congruence].
    - split; [split; [apply Hi|congruence]|congruence].
    - split; [apply Hi|congruence]. }
  destruct (all_grow f) as (G1 & G2 & G3 & G4 & G5).
  split; [|split; [|split; [|split]]].
  - intros inner [|c cs] w n d Hi Hf Ht; rewrite run_calls_S.
    { intros _. split; [apply Hi|]. intros _. split; [|intros _; apply frame_refl].
      replace (n + all_takes []) with n by (cbn; lia). auto. }
    cbn [forallb] in Hf. apply andb_prop in Hf. destruct Hf as [Hf1 Hf2].
    change (all_takes (c :: cs)) with (takes c + all_takes cs) in *.
    pose proof (all_takes_pos cs) as P1. pose proof (takes_pos c) as P2.
    specialize (I5 inner c w n d Hi Hf1 ltac:(lia)).
    destruct (run_call f c w) as [e w1]. destruct e.
    + pose proof (G1 cs w1) as G.
      assert (owned (wt w1) -> inv m (n + takes c) d w1) as Hi1.
      { intros Ho. apply I5; auto. congruence. }
      destruct (run_calls f cs w1) as [e w2] eqn:E2. intros Ho. cbn [snd] in G.
      pose proof (owned_grows _ _ G Ho) as Ho1. specialize (I1 inner cs w1 (n + takes c) d (Hi1 Ho1) Hf2 ltac:(lia)).
      rewrite E2 in I1. destruct (I1 Ho) as [R1 R2]. split; auto. intros He. destruct (R2 He) as [R3 R4].
      destruct (I5 Ho1) as [_ R5]. destruct (R5 ltac:(congruence)) as [_ R6].
      split; [rewrite Z.add_assoc; auto|]. intros Htt. eapply frame_trans; [apply R6; auto|apply R4; auto].
    + intros Ho. destruct (I5 Ho) as [R1 R2]. split; auto. intros He. destruct (R2 He) as [R3 R4].
      split; auto. eapply inv_mono; [|apply Z.le_refl|exact R3]. lia.
    + intros Ho. destruct (I5 Ho) as [R1 R2]. split; auto. congruence.
  - intros [cs p] w n d Hi Hf Ht. rewrite run_code_S. cbn [code_follows] in Hf.
    change (code_takes (Code cs p)) with (all_takes cs) in *.
    specialize (I1 true cs w n d Hi Hf Ht). destruct (run_calls f cs w) as [e w1]. destruct e.
    + intros Ho. destruct (I1 Ho) as [R1 R2]. split; auto. intros _. destruct (R2 ltac:(congruence)) as [R3 R4].
      split; auto. intros _. apply R4. right. auto.
    + intros Ho. destruct (I1 Ho) as [R1 R2]. split; auto. intros _. destruct (R2 ltac:(congruence)) as [R3 R4].
      split; auto. intros _. apply R4. right. auto.
    + intros Ho. destruct (I1 Ho) as [R1 R2]. split; auto. congruence.
  - intros v cmps i j w n d Hi Hf Ht. rewrite run_find_S. pose proof (codes_takes_pos cmps) as P0.
    assert (after m True n (code_takes_all cmps) d w Returns w) as Self.
    { split; [apply Hi|]. intros _. split; [|intros _; apply frame_refl].
      eapply inv_mono; [|apply Z.le_refl|exact Hi]. lia. }
    destruct (nth_error (ws w) i) as [c|] eqn:Ei; [|intros _; split; auto].
    destruct (nth_error c j) as [s|] eqn:Ej; [|apply I3; auto].
    destruct (nth_slot _ _ _ _ _ (i_shape _ _ _ _ Hi) Ei Ej) as [Hj Es].
    destruct (i_slot _ _ _ _ Hi _ _ (idx_pos i j) Es) as (B1 & B2 & B3 & B4). cbv zeta.
    destruct (cont s) as [cur|] eqn:Ec.
    + assert (code_follows m (hd (Code [] false) cmps) = true /\ forallb (code_follows m) (tl cmps) = true) as [F1 F2].
      { destruct cmps as [|a l]; [auto|]. cbn [forallb hd tl] in *. apply andb_prop in Hf. auto. }
      assert (code_takes_all cmps = code_takes (hd (Code [] false) cmps) + code_takes_all (tl cmps)) as Et
        by (destruct cmps; reflexivity).
      pose proof (codes_takes_pos (tl cmps)) as P1. pose proof (code_takes_pos (hd (Code [] false) cmps)) as P2.
      rewrite Et in *.
      specialize (I2 (hd (Code [] false) cmps) w n d Hi F1 ltac:(lia)).
      destruct (run_code f (hd (Code [] false) cmps) w) as [e w1]. destruct e.
      * assert (owned (wt w1) -> after m True n (code_takes (hd (Code [] false) cmps) + code_takes_all (tl cmps)) d w Returns w1
          /\ exists s', slot_of (ws w1) (idx_to_offset i j) = Some s' /\ cont s' = cont s /\
            (refs s = 0 -> m <> Keep /\ count (idx_to_offset i j) (wt w1) = 0)) as J.
        { intros Ho. destruct (I2 Ho) as [R1 R2]. destruct (R2 ltac:(congruence)) as [R3 R4]. specialize (R4 I).
          assert (refs s = 0 -> m <> Keep) as NK by (intros Q ->; specialize (B4 eq_refl Q); congruence).
          split.
          - split; auto. intros _. split; auto. eapply inv_mono; [|apply Z.le_refl|exact R3]. lia.
          - destruct (R4 _ _ (idx_pos i j) Es) as (s' & Es' & Ec' & Er' & Ek').
            { intros ->. destruct (Z.eq_dec (refs s) 0) as [Q|Q]; [|lia]. destruct (NK Q eq_refl). }
            exists s'. split; auto. split; auto. intros Q. split; auto. apply Ek'.
            + intros K. destruct (NK Q K).
            + pose proof (count_bound (idx_to_offset i j) (wt w)). lia. }
        destruct (eqb v cur) eqn:Eq; [|destruct (Z.eqb_spec (refs s) 0) as [Er|Er]].
        -- intros Ho. destruct (J Ho) as (J1 & s' & J2 & J3 & J4). split; auto. split; auto. split; auto.
           exists s'. split; auto. rewrite J3. apply eqb_ok in Eq. congruence.
        -- intros Ho. destruct (J Ho) as (J1 & s' & J2 & J3 & J4). destruct (J4 Er) as [J5 J6].
           split; auto. split; auto. split; auto. exists s'. split; auto. split; auto. intros K; destruct (J5 K).
        -- pose proof (G3 v (tl cmps) i (S j) w1) as G.
           destruct (run_find f v (tl cmps) i (S j) w1) as [[r e] w2] eqn:E2. cbn [snd] in G. intros Ho.
           pose proof (owned_grows _ _ G Ho) as Ho1. destruct (I2 Ho1) as [_ R2].
           destruct (R2 ltac:(congruence)) as [R3 R4].
           specialize (I3 v (tl cmps) i (S j) w1 _ d R3 F2 ltac:(lia)). rewrite E2 in I3.
           destruct (I3 Ho) as [[K1 K2] K3]. split; auto. split; auto. intros He. destruct (K2 He) as [K4 K5].
           split; [rewrite Z.add_assoc; auto|]. intros _. eapply frame_trans; eauto.
      * intros Ho. destruct (I2 Ho) as [R1 R2]. destruct (R2 ltac:(congruence)) as [R3 R4].
        split; [|congruence]. split; auto. intros _. split; auto. eapply inv_mono; [|apply Z.le_refl|exact R3]. lia.
      * intros Ho. destruct (I2 Ho) as [R1 R2]. split; [|congruence]. split; auto. congruence.
    + destruct (Z.eqb_spec (refs s) 0) as [Er|Er]; [|apply I3; auto].
      intros _. split; auto. split; auto. split; auto. exists s. split; auto. split; auto.
      pose proof (count_bound (idx_to_offset i j) (wt w)). lia.
  - intros v conv drp i j w n d s Hi Hj Es Hc Hm F1 F2 Ht. rewrite run_fill_S.
    pose proof (code_takes_pos conv) as P1. pose proof (code_takes_pos drp) as P2.
    destruct (bump_ok m n d w i j s Hi Hj Es ltac:(lia)) as (st & -> & Hi1 & Hg).
    specialize (Hg : forall k', 0 <= k' -> slot_of (ws (with_store w st)) k' = _).
    set (w0 := with_store w st) in *.
    assert (count (idx_to_offset i j) (wt w0) = 0) as Hc0 by exact Hc.
    assert (m = Keep -> frame m w w0) as Fr0.
    { intros Hk k s' Hk' E' Hr. exists s'. unfold w0. cbn [wt with_store].
      assert (idx_to_offset i j <> k) as Hne.
      { intros <-. assert (s' = s) as -> by congruence. specialize (Hr Hk). destruct (Hm Hk). lia. }
      fold w0. rewrite Hg by auto. rewrite (proj2 (Z.eqb_neq _ _)) by auto. repeat split; auto; lia. }
    assert (slot_of (ws w0) (idx_to_offset i j) = Some (Slot (refs s + 1) (cont s))) as Es0.
    { rewrite Hg by apply idx_pos. rewrite Z.eqb_refl. reflexivity. }
    destruct (i_slot _ _ _ _ Hi _ _ (idx_pos i j) Es) as (B1 & _).
    specialize (I2 conv w0 (n + 1) (d + 1) Hi1 F1 ltac:(lia)) as I2c.
    destruct (run_code f conv w0) as [e w1] eqn:Ew1. destruct e.
    + (* the conversion returned *)
      assert (owned (wt w1) -> exists s1, slot_of (ws w1) (idx_to_offset i j) = Some s1 /\ cont s1 = cont s /\
        1 <= refs s1 /\ count (idx_to_offset i j) (wt w1) = 0) as J.
      { intros Ho. destruct (I2c Ho) as [_ R2]. destruct (R2 ltac:(congruence)) as [R3 R4]. specialize (R4 I).
        destruct (R4 _ _ (idx_pos i j) Es0) as (s1 & E1 & C1 & K1 & D1).
        { intros _. cbn [refs]. lia. }
        cbn [cont refs] in *. destruct D1 as [D1 D2]; auto. { intros K. apply Hm; auto. }
        exists s1. repeat split; auto. lia. }
      destruct (slot_at (ws w1) i j) as [s1| |] eqn:Ea.
      * destruct (cont s1) as [o|] eqn:Eo.
        -- pose proof (G2 drp w1) as G. destruct (run_code f drp w1) as [e w2] eqn:Ew2. cbn [snd] in G.
           assert (owned (wt w2) -> e <> Spent ->
             inv m (n + (1 + (code_takes conv + code_takes drp))) (d + 1) (with_store w2 (write (ws w2) i j v)) /\
             (m = Keep -> frame m w (with_store w2 (write (ws w2) i j v))) /\
             count (idx_to_offset i j) (wt w2) = 0 /\
             exists s', slot_of (write (ws w2) i j v) (idx_to_offset i j) = Some s' /\ cont s' = Some v /\ 1 <= refs s') as K.
           { intros Ho He. pose proof (owned_grows _ _ G Ho) as Ho1.
             destruct (J Ho1) as (s1' & J1 & J2 & J3 & J4). destruct (I2c Ho1) as [_ R2].
             destruct (R2 ltac:(congruence)) as [R3 R4]. specialize (R4 I).
             assert (s1' = s1) as ->.
             { rewrite slot_at_idx in Ea by (auto; apply R3). rewrite J1 in Ea. cbn [unwrap] in Ea. congruence. }
             assert (m <> Keep) as NK. { intros K. destruct (Hm K) as [_ Q]. congruence. }
             specialize (I2 drp w1 _ (d + 1) R3 F2 ltac:(lia)). rewrite Ew2 in I2. destruct (I2 Ho) as [_ L2].
             destruct (L2 He) as [L3 L4]. specialize (L4 I).
             destruct (L4 _ _ (idx_pos i j) J1) as (s2 & E2 & C2 & _ & D2); [intros K; destruct (NK K)|].
             destruct D2 as [D2a D2b]; auto. { intros K; destruct (NK K). }
             destruct (inv_write m _ _ w2 i j s2 v L3 Hj E2 D2a ltac:(intros K; destruct (NK K))) as [M1 M2].
             split. { eapply inv_mono; [|apply Z.le_refl|exact M1]. lia. }
             split. { intros K; destruct (NK K). }
             split; auto. exists (Slot (refs s2) (Some v)). rewrite M2 by apply idx_pos. rewrite Z.eqb_refl.
             repeat split; auto. cbn [refs]. lia. }
           destruct e.
           ++ intros Ho. destruct (K Ho ltac:(congruence)) as (K1 & K2 & K3 & K4). split; auto. split; auto. apply K1.
           ++ intros Ho. destruct (K Ho ltac:(congruence)) as (K1 & K2 & K3 & K4). split; [|congruence]. split; auto. apply K1.
           ++ intros Ho. split; [|congruence]. split; [|congruence]. pose proof (owned_grows _ _ G Ho) as Ho1.
              destruct (I2c Ho1) as [_ R2]. destruct (R2 ltac:(congruence)) as [R3 R4].
              specialize (I2 drp w1 _ (d + 1) R3 F2 ltac:(lia)). rewrite Ew2 in I2. exact (proj1 (I2 Ho)).
        -- intros Ho. cbn [wt with_store] in Ho. destruct (J Ho) as (s1' & J1 & J2 & J3 & J4). destruct (I2c Ho) as [_ R2].
           destruct (R2 ltac:(congruence)) as [R3 R4]. specialize (R4 I).
           destruct (inv_write m _ _ w1 i j s1' v R3 Hj J1 J4 (fun _ => J3)) as [M1 M2]. cbn [ws wt with_store].
           split; [split; [apply M1|intros _; split]|].
           ++ eapply inv_mono; [|apply Z.le_refl|exact M1]. lia.
           ++ intros K k s2 Hk E2 Hr.
              assert (idx_to_offset i j <> k) as Hne.
              { intros <-. assert (s2 = s) as -> by congruence. specialize (Hr K). destruct (Hm K). lia. }
              destruct (frame_trans _ _ _ _ (Fr0 K) R4 k s2 Hk E2 Hr) as (s3 & E3 & C3).
              exists s3. cbn [ws wt with_store]. rewrite M2 by auto. rewrite (proj2 (Z.eqb_neq _ _)) by auto. auto.
           ++ intros _. split; auto. exists (Slot (refs s1') (Some v)). rewrite M2 by apply idx_pos.
              rewrite Z.eqb_refl. repeat split; auto.
      * intros Ho. exfalso. destruct (J Ho) as (s1' & J1 & _). destruct (I2c Ho) as [_ R2].
        destruct (R2 ltac:(congruence)) as [R3 _].
        rewrite slot_at_idx in Ea by (auto; apply R3). rewrite J1 in Ea. discriminate.
      * intros Ho. exfalso. destruct (J Ho) as (s1' & J1 & _). destruct (I2c Ho) as [_ R2].
        destruct (R2 ltac:(congruence)) as [R3 _].
        rewrite slot_at_idx in Ea by (auto; apply R3). rewrite J1 in Ea. discriminate.
    + intros Ho. destruct (I2c Ho) as [R1 R2]. destruct (R2 ltac:(congruence)) as [R3 R4].
      split; [|congruence]. split; auto. intros _. split.
      * eapply inv_mono; [|apply Z.le_refl|exact R3]. lia.
      * intros K. eapply frame_trans; [exact (Fr0 K)|apply R4; exact I].
    + intros Ho. destruct (I2c Ho) as [R1 R2]. split; [|congruence]. split; auto. congruence.
  - intros inner c w n d Hi Hf Ht. rewrite run_call_S. destruct c as [v cmps conv drp|k|k|k|cs].
    + cbn [follows] in Hf. apply andb_prop in Hf. destruct Hf as [Hf F3].
      apply andb_prop in Hf. destruct Hf as [Hf F2]. apply andb_prop in Hf. destruct Hf as [F0 F1].
      cbn [takes] in *. fold (code_takes_all cmps) in *.
      pose proof (codes_takes_pos cmps) as P0. pose proof (code_takes_pos conv) as P1. pose proof (code_takes_pos drp) as P2.
      assert (tight m inner -> m = Keep) as TK.
      { intros [K|K]; auto. subst inner. cbn in F0. destruct m; auto; discriminate. }
      specialize (I3 v cmps 0%nat 0%nat w n d Hi F1 ltac:(lia)).
      destruct (run_find f v cmps 0 0 w) as [[[[i j|i j|]|] e] w1].
      * assert (owned (wt w1) -> exists s, e = Returns /\ (j < 32)%nat /\ slot_of (ws w1) (idx_to_offset i j) = Some s /\
          cont s = Some v /\ inv m (n + code_takes_all cmps) d w1 /\ frame m w w1) as J.
        { intros Ho. destruct (I3 Ho) as ([R1 R2] & -> & Hj & s & Es & Ec). destruct (R2 ltac:(congruence)) as [R3 R4].
          exists s. split; [reflexivity|]. split; [exact Hj|]. split; [exact Es|]. split; [exact Ec|].
          split; [exact R3|exact (R4 I)]. }
        destruct (bump dbg (ws w1) i j) as [eb st] eqn:Eb. destruct eb.
        -- intros Ho. cbn [wt log with_store] in Ho. destruct (J (owned_prefix _ _ Ho)) as (s & -> & Hj & Es & Ec & R3 & R4).
           destruct (bump_ok m _ _ w1 i j s R3 Hj Es ltac:(lia)) as (st' & Eb' & Hi2 & Hg).
           rewrite Eb in Eb'. injection Eb' as <-.
           destruct (i_slot _ _ _ _ R3 _ _ (idx_pos i j) Es) as (B1 & B2 & _).
           assert (inv m (n + code_takes_all cmps + 1) d (log (with_store w1 st) (EAdd v (idx_to_offset i j)))) as Hi3.
           { eapply (inv_log_add m _ d (with_store w1 st) _ (Slot (refs s + 1) (cont s)) v (owned_prefix _ _ Ho) Hi2 (idx_pos i j)).
             - cbn [ws with_store]. rewrite Hg by apply idx_pos. rewrite Z.eqb_refl. reflexivity.
             - exact Ec.
             - cbn [wt with_store refs]. lia. }
           split; [apply Hi3|]. intros _. split.
           ++ eapply inv_mono; [|apply Z.le_refl|exact Hi3]. lia.
           ++ intros TT. specialize (TK TT). eapply frame_trans; [exact R4|]. intros k s2 Hk E2 Hr.
              exists (if idx_to_offset i j =? k then Slot (refs s + 1) (cont s) else s2).
              cbn [ws wt log with_store]. rewrite Hg by auto. destruct (Z.eqb_spec (idx_to_offset i j) k) as [<-|Hne].
              ** assert (s2 = s) as -> by congruence. cbn [refs cont]. repeat split; auto; try lia.
                 all: intros; exfalso; rewrite Ec in *; specialize (H TK); discriminate.
              ** repeat split; auto; try lia. rewrite count_log. cbn [count_step].
                 rewrite (proj2 (Z.eqb_neq _ _)) by auto. auto.
        -- intros Ho. exfalso. cbn [wt broken with_store] in Ho. destruct (J Ho) as (s & -> & Hj & Es & Ec & R3 & R4).
           destruct (bump_ok m _ _ w1 i j s R3 Hj Es ltac:(lia)) as (st' & Eb' & _). congruence.
        -- intros Ho. exfalso. cbn [wt broken with_store] in Ho. destruct (J Ho) as (s & -> & Hj & Es & Ec & R3 & R4).
           destruct (bump_ok m _ _ w1 i j s R3 Hj Es ltac:(lia)) as (st' & Eb' & _). congruence.
      * pose proof (G4 v conv drp i j w1) as G.
        assert (owned (wt w1) -> forall e2 w2, run_fill f v conv drp i j w1 = (e2, w2) -> owned (wt w2) ->
          Forall good (wr w2) /\
          (e2 <> Spent -> inv m (n + (1 + (code_takes_all cmps + (code_takes conv + code_takes drp)))) (d + 1) w2 /\
             (m = Keep -> frame m w w2 /\ forall k s, 0 <= k -> slot_of (ws w) k = Some s -> 1 <= refs s -> idx_to_offset i j <> k)) /\
          (e2 = Returns -> count (idx_to_offset i j) (wt w2) = 0 /\
            exists s', slot_of (ws w2) (idx_to_offset i j) = Some s' /\ cont s' = Some v /\ 1 <= refs s')) as J.
        { intros Ho e2 w2 E2 Ho2. destruct (I3 Ho) as ([R1 R2] & -> & Hj & s & Es & Ec & Em).
          destruct (R2 ltac:(congruence)) as [R3 R4]. specialize (R4 I).
          specialize (I4 v conv drp i j w1 _ d s R3 Hj Es Ec Em F2 F3 ltac:(lia)). rewrite E2 in I4.
          destruct (I4 Ho2) as [[K1 K2] K3]. split; auto. split; auto.
          intros He. destruct (K2 He) as [K4 K5]. split; [eapply inv_mono; [|apply Z.le_refl|exact K4]; lia|].
          intros K. split; [eapply frame_trans; eauto|]. intros k sk Hk Ek Hr <-.
          destruct (R4 _ _ Hk Ek (fun _ => Hr)) as (s' & Es' & _ & Hr' & _). specialize (Hr' K).
          assert (s' = s) as -> by congruence. destruct (Em K). lia. }
        destruct (run_fill f v conv drp i j w1) as [e2 w2] eqn:E2. cbn [snd] in G. destruct e2.
        -- intros Ho. cbn [wt log] in Ho. pose proof (owned_prefix _ _ Ho) as Ho2. pose proof (owned_grows _ _ G Ho2) as Ho1.
           destruct (J Ho1 _ _ eq_refl Ho2) as (J1 & J2 & J3). destruct (J2 ltac:(congruence)) as [J4 J5].
           destruct (J3 eq_refl) as (J6 & s' & J7 & J8 & J9).
           assert (inv m (n + (1 + (code_takes_all cmps + (code_takes conv + code_takes drp)))) d
             (log w2 (EAdd v (idx_to_offset i j)))) as Hi3.
           { eapply inv_log_add; eauto; [apply idx_pos|lia]. }
           split; [apply Hi3|]. intros _. split; auto. intros TT. specialize (TK TT). destruct (J5 TK) as [J10 J11].
           intros k s2 Hk Ek Hr. pose proof (J11 k s2 Hk Ek (Hr TK)) as Hne.
           destruct (J10 k s2 Hk Ek Hr) as (s3 & Q1 & Q2 & Q3 & Q4). exists s3. cbn [ws wt log].
           rewrite count_log. cbn [count_step]. rewrite (proj2 (Z.eqb_neq _ _)) by auto. auto.
        -- intros Ho. cbn [wt broken] in Ho. pose proof (owned_grows _ _ G Ho) as Ho1.
           destruct (J Ho1 _ _ eq_refl Ho) as (J1 & J2 & J3). destruct (J2 ltac:(congruence)) as [J4 J5].
           split; auto. intros _. split; [apply inv_broken; auto|]. intros TT. specialize (TK TT).
           destruct (J5 TK) as [J10 _]. exact J10.
        -- intros Ho. pose proof (owned_grows _ _ G Ho) as Ho1. destruct (J Ho1 _ _ eq_refl Ho) as (J1 & _).
           split; auto. congruence.
      * cbv zeta. rewrite app_length. cbn [length]. replace (length (ws w1) + 1 - 1)%nat with (length (ws w1)) by lia.
        set (w1' := with_store w1 (ws w1 ++ [new_chunk])). set (i := length (ws w1)).
        replace (Z.of_nat i * 32) with (idx_to_offset i 0) by (unfold idx_to_offset; lia).
        pose proof (G4 v conv drp i 0%nat w1') as G.
        assert (owned (wt w1) -> forall e2 w2, run_fill f v conv drp i 0 w1' = (e2, w2) -> owned (wt w2) ->
          Forall good (wr w2) /\
          (e2 <> Spent -> inv m (n + (1 + (code_takes_all cmps + (code_takes conv + code_takes drp)))) (d + 1) w2 /\
             (m = Keep -> frame m w w2 /\ forall k s, 0 <= k -> slot_of (ws w) k = Some s -> 1 <= refs s -> idx_to_offset i 0 <> k)) /\
          (e2 = Returns -> count (idx_to_offset i 0) (wt w2) = 0 /\
            exists s', slot_of (ws w2) (idx_to_offset i 0) = Some s' /\ cont s' = Some v /\ 1 <= refs s')) as J.
        { intros Ho e2 w2 E2 Ho2. destruct (I3 Ho) as ([R1 R2] & ->).
          destruct (R2 ltac:(congruence)) as [R3 R4]. specialize (R4 I).
          pose proof (inv_push _ _ _ _ R3) as R3'. fold w1' in R3'.
          pose proof (frame_push m w1 (i_shape _ _ _ _ R3)) as FP. fold w1' in FP.
          pose proof (frame_trans _ _ _ _ R4 FP) as R4'.
          pose proof (push_new (ws w1) (i_shape _ _ _ _ R3)) as Es.
          assert (count (idx_to_offset i 0) (wt w1') = 0) as Ec.
          { unfold w1'. cbn [wt with_store]. apply (i_out _ _ _ _ R3). right. unfold idx_to_offset, i. lia. }
          specialize (I4 v conv drp i 0%nat w1' _ d new_uninit R3' ltac:(lia) Es Ec ltac:(auto) F2 F3 ltac:(lia)).
          rewrite E2 in I4.
          destruct (I4 Ho2) as [[K1 K2] K3]. split; auto. split; auto.
          intros He. destruct (K2 He) as [K4 K5]. split; [eapply inv_mono; [|apply Z.le_refl|exact K4]; lia|].
          intros K. split; [eapply frame_trans; eauto|]. intros k sk Hk Ek Hr <-.
          destruct (R4 _ _ Hk Ek (fun _ => Hr)) as (s' & Es' & _).
          pose proof (slot_bound _ _ _ (i_shape _ _ _ _ R3) Hk Es') as Q. unfold idx_to_offset, i in Q. lia. }
        destruct (run_fill f v conv drp i 0 w1') as [e2 w2] eqn:E2. cbn [snd] in G.
        assert (grows w1 w2) as G' by exact G. clear G. destruct e2.
        -- intros Ho. cbn [wt log] in Ho. pose proof (owned_prefix _ _ Ho) as Ho2. pose proof (owned_grows _ _ G' Ho2) as Ho1.
           destruct (J Ho1 _ _ eq_refl Ho2) as (J1 & J2 & J3). destruct (J2 ltac:(congruence)) as [J4 J5].
           destruct (J3 eq_refl) as (J6 & s' & J7 & J8 & J9).
           assert (inv m (n + (1 + (code_takes_all cmps + (code_takes conv + code_takes drp)))) d
             (log w2 (EAdd v (idx_to_offset i 0)))) as Hi3.
           { eapply inv_log_add; eauto; [apply idx_pos|lia]. }
           split; [apply Hi3|]. intros _. split; auto. intros TT. specialize (TK TT). destruct (J5 TK) as [J10 J11].
           intros k s2 Hk Ek Hr. pose proof (J11 k s2 Hk Ek (Hr TK)) as Hne.
           destruct (J10 k s2 Hk Ek Hr) as (s3 & Q1 & Q2 & Q3 & Q4). exists s3. cbn [ws wt log].
           rewrite count_log. cbn [count_step]. rewrite (proj2 (Z.eqb_neq _ _)) by auto. auto.
        -- intros Ho. cbn [wt broken] in Ho. pose proof (owned_grows _ _ G' Ho) as Ho1.
           destruct (J Ho1 _ _ eq_refl Ho) as (J1 & J2 & J3). destruct (J2 ltac:(congruence)) as [J4 J5].
           split; auto. intros _. split; [apply inv_broken; auto|]. intros TT. specialize (TK TT).
           destruct (J5 TK) as [J10 _]. exact J10.
        -- intros Ho. pose proof (owned_grows _ _ G' Ho) as Ho1. destruct (J Ho1 _ _ eq_refl Ho) as (J1 & _).
           split; auto. congruence.
      * destruct e.
        -- intros Ho. destruct (I3 Ho) as [_ R]. destruct (R eq_refl).
        -- intros Ho. cbn [wt broken] in Ho. destruct (I3 Ho) as [[R1 R2] _]. destruct (R2 ltac:(congruence)) as [R3 R4].
           split; auto. intros _. split.
           ++ apply inv_broken. eapply inv_mono; [| |exact R3]; lia.
           ++ intros _. exact (R4 I).
        -- intros Ho. destruct (I3 Ho) as [[R1 R2] _]. split; auto. congruence.
    + (* incr *)
      destruct (offset_to_idx k) as [i j] eqn:Eo. cbn [takes] in *.
      assert (forall s, 0 <= k -> slot_of (ws w) k = Some s -> (j < 32)%nat /\ idx_to_offset i j = k) as Hij.
      { intros s Hk _. pose proof (offset_idx k Hk) as H. rewrite Eo in H. destruct H as [H1 H2]. split; auto.
        unfold idx_to_offset. lia. }
      destruct (bump dbg (ws w) i j) as [eb st] eqn:Eb.
      assert (eb <> Returns -> st = ws w \/ False) as Un.
      { intros Q. left. unfold bump in Eb. destruct (slot_at (ws w) i j) as [s| |] eqn:Ea; [|congruence|congruence].
        destruct (dbg && (refs s =? 2 ^ 64 - 1)) eqn:Ed; [|congruence]. exfalso.
        apply andb_prop in Ed. destruct Ed as [_ Ed]. apply Z.eqb_eq in Ed.
        assert (j < 32)%nat as Hj.
        { unfold offset_to_idx in Eo. injection Eo as _ <-. pose proof (Z.mod_pos_bound k 32 ltac:(lia)). lia. }
        rewrite slot_at_idx in Ea by (auto; apply Hi).
        destruct (slot_of (ws w) (idx_to_offset i j)) as [s'|] eqn:Es; [|discriminate]. injection Ea as ->.
        destruct (i_slot _ _ _ _ Hi _ _ (idx_pos i j) Es) as (B1 & _). lia. }
      assert (eb <> Returns -> after m (tight m inner) n 1 d w eb (with_store w st)) as Un2.
      { intros Q. destruct (Un Q) as [->|[]]. split; [apply Hi|]. intros _. split.
        - eapply inv_mono; [|apply Z.le_refl|]; [|destruct w; exact Hi]. lia.
        - intros _. destruct w; apply frame_refl. }
      destruct eb; [|intros _; apply Un2; congruence..].
      intros Ho. cbn [wt log with_store] in Ho. pose proof (Ho (wt w) (EIncr k) [] eq_refl) as Hc. cbn in Hc.
      assert (0 <= k < 32 * Z.of_nat (length (ws w))) as Hk.
      { destruct (Z_lt_ge_dec k 0) as [L|L]; [pose proof (i_out _ _ _ _ Hi k ltac:(lia)); lia|].
        destruct (Z_lt_ge_dec k (32 * Z.of_nat (length (ws w)))) as [L'|L']; [lia|].
        pose proof (i_out _ _ _ _ Hi k ltac:(lia)). lia. }
      destruct (in_range_slot (ws w) k (i_shape _ _ _ _ Hi) Hk) as [s Es].
      destruct (Hij s ltac:(lia) Es) as [Hj Ek]. rewrite <- Ek in Es.
      destruct (bump_ok m n d w i j s Hi Hj Es ltac:(lia)) as (st' & Eb' & Hi2 & Hg).
      rewrite Eb in Eb'. injection Eb' as <-. rewrite Ek in *.
      destruct (i_slot _ _ _ _ Hi _ _ (proj1 Hk) Es) as (B1 & B2 & B3 & B4).
      assert (inv m (n + 1) d (log (with_store w st) (EIncr k))) as Hi3.
      { eapply (inv_log_incr m _ d (with_store w st) k (Slot (refs s + 1) (cont s)) Hi2 (proj1 Hk)).
        - cbn [ws with_store]. rewrite Hg by lia. rewrite Z.eqb_refl. reflexivity.
        - exact Hc.
        - cbn [wt with_store refs]. lia. }
      split; [apply Hi3|]. intros _. split; auto. intros _ k' s2 Hk' E2 Hr.
      exists (if k =? k' then Slot (refs s + 1) (cont s) else s2).
      cbn [ws wt log with_store]. rewrite Hg by auto. rewrite count_log. cbn [count_step].
      destruct (Z.eqb_spec k k') as [<-|Hne].
      * assert (s2 = s) as -> by congruence. cbn [refs cont]. repeat split; auto; lia.
      * repeat split; auto; lia.
    + (* decr *)
      cbn [takes follows] in *. assert (m = Calm) as Hm by (destruct m; auto; discriminate).
      assert (after m (tight m inner) n 0 d w Unwinds w) as Self.
      { split; [apply Hi|]. intros _. split; [rewrite Z.add_0_r; auto|intros _; apply frame_refl]. }
      destruct (intern_decr k (ws w)) as [st| |] eqn:Ed; [|intros _; exact Self..].
      intros Ho. cbn [wt log with_store] in Ho. pose proof (Ho (wt w) (EDecr k) [] eq_refl) as Hc. cbn in Hc.
      assert (0 <= k < 32 * Z.of_nat (length (ws w))) as Hk.
      { destruct (Z_lt_ge_dec k 0) as [L|L]; [pose proof (i_out _ _ _ _ Hi k ltac:(lia)); lia|].
        destruct (Z_lt_ge_dec k (32 * Z.of_nat (length (ws w)))) as [L'|L']; [lia|].
        pose proof (i_out _ _ _ _ Hi k ltac:(lia)). lia. }
      destruct Hi as [A0 A1 A2 A3 A4 A5].
      destruct (in_range_slot (ws w) k A0 Hk) as [s Es]. destruct (A2 _ _ (proj1 Hk) Es) as (B1 & B2 & B3 & B4).
      destruct (intern_decr_spec (ws w) k s A0 ltac:(lia) Es) as (st' & Ed' & Hs' & Hl & Hg).
      rewrite Ed in Ed'. injection Ed' as <-. rewrite (proj2 (Z.eqb_neq (refs s) 0)) in Hg by lia.
      assert (total st = total (ws w) - 1) as Ht1.
      { unfold intern_decr, decr_inner in Ed. pose proof (slot_at_offset (ws w) k A0 (proj1 Hk)) as Q.
        pose proof (fun x => total_put (ws w) k s x A0 (proj1 Hk) Es) as Q2.
        destruct (offset_to_idx k) as [i j]. rewrite Q, Es in Ed. cbn [unwrap bind] in Ed. injection Ed as <-.
        rewrite Q2. cbn [refs]. rewrite (proj2 (Z.eqb_neq (refs s) 0)) by lia. lia. }
      split; [exact A4|]. intros _. split.
      * constructor; cbn [ws wt wr wb log with_store]; auto; try lia.
        -- intros k' s' Hk' E'. rewrite Hg in E' by auto. rewrite count_log, held_snoc. cbn [count_step].
           destruct (Z.eqb_spec k k') as [<-|Hne].
           ++ injection E' as <-. cbn [refs cont].
              split; [lia|]. split; [lia|]. split; [|intros ->; discriminate]. intros Q.
              rewrite (proj2 (Z.leb_gt _ _)) by lia. apply B3. lia.
           ++ destruct (A2 _ _ Hk' E') as (C1 & C2 & C3 & C4). split; [lia|]. auto.
        -- intros k' Hk'. rewrite count_log. cbn [count_step]. rewrite Hl in Hk'.
           rewrite (proj2 (Z.eqb_neq k k')) by lia. auto.
        -- rewrite outstanding_snoc. lia.
      * intros _ k' s2 Hk' E2 Hr. cbn [ws wt log with_store].
        exists (if k =? k' then Slot (refs s - 1) (cont s) else s2). rewrite Hg by auto.
        rewrite count_log. cbn [count_step]. destruct (Z.eqb_spec k k') as [<-|Hne].
        -- assert (s2 = s) as -> by congruence. cbn [refs cont]. repeat split; auto; try (intros; subst m; discriminate); lia.
        -- repeat split; auto; lia.
    + (* get *)
      intros Ho. cbn [wt] in Ho. cbn [takes] in *. rewrite Z.add_0_r in *.
      assert (Forall good (wr w ++ [(wt w, k, look (ws w) k)])) as Hr.
      { apply Forall_app. split; [apply Hi|]. constructor; [|constructor]. intros Hc.
        assert (0 <= k < 32 * Z.of_nat (length (ws w))) as Hk.
        { destruct (Z_lt_ge_dec k 0) as [L|L]; [pose proof (i_out _ _ _ _ Hi k ltac:(lia)); lia|].
          destruct (Z_lt_ge_dec k (32 * Z.of_nat (length (ws w)))) as [L'|L']; [lia|].
          pose proof (i_out _ _ _ _ Hi k ltac:(lia)). lia. }
        destruct (in_range_slot (ws w) k (i_shape _ _ _ _ Hi) Hk) as [s Es].
        destruct (i_slot _ _ _ _ Hi _ _ (proj1 Hk) Es) as (B1 & B2 & B3 & B4). destruct (B3 Hc) as (x & B5 & B6).
        unfold look. pose proof (slot_at_offset (ws w) k (i_shape _ _ _ _ Hi) (proj1 Hk)) as Q.
        destruct (offset_to_idx k) as [i j]. rewrite Q, Es. cbn [unwrap].
        rewrite (proj2 (Z.eqb_neq (refs s) 0)) by lia. rewrite B5. exists x. auto. }
      split; [exact Hr|]. intros _. split.
      * rewrite Z.add_0_r. destruct Hi as [A0 A1 A2 A3 A4 A5]. constructor; cbn [ws wt wr wb]; auto.
      * intros _ k' s' Hk' E' Hrr. exists s'. cbn [ws wt]. repeat split; auto; lia.
    + cbn [follows] in Hf. change (takes (CCatch cs)) with (all_takes cs) in *.
      specialize (I1 inner cs w n d Hi Hf Ht). destruct (run_calls f cs w) as [e w1]. destruct e.
      * exact I1.
      * intros Ho. destruct (I1 Ho) as [R1 R2]. split; auto. intros _. apply R2. congruence.
      * exact I1.
Qed.

(** ** Element code that makes no calls *)

Definition silent (cd : code T) : Prop := exists p, cd = Code [] p.

Lemma quiet_code f p w : run_code f (Code [] p) w = (Spent, w) \/
  run_code f (Code [] p) w = (if p then Unwinds else Returns, w).
Proof. destruct f as [|[|f]]; auto. Qed.

Definition found_from v st i j : found :=
  match nth_error st i with
  | None => Nothing
  | Some c => match find_slot eqb v i j (skipn j c) with
              | Some fd => fd
              | None => find_chunk eqb v (S i) (skipn (S i) st)
              end
  end.

Lemma skipn_cons {A} (l : list A) : forall i x, nth_error l i = Some x -> skipn i l = x :: skipn (S i) l.
Proof.
  induction l as [|a l IH]; intros [|i] x E; try discriminate.
  - cbn in *. congruence.
  - cbn [nth_error] in E. cbn [skipn]. rewrite (IH _ _ E). reflexivity.
Qed.

Lemma found_start v st : found_from v st 0 0 = find eqb st v.
Proof. destruct st; reflexivity. Qed.

Lemma found_next v st i : match nth_error st (S i) with
  | None => Nothing
  | Some c => match find_slot eqb v (S i) 0 c with Some fd => fd | None => find_chunk eqb v (S (S i)) (skipn (S (S i)) st) end
  end = find_chunk eqb v (S i) (skipn (S i) st).
Proof.
  destruct (nth_error st (S i)) as [c|] eqn:E.
  - rewrite (skipn_cons _ _ _ E). reflexivity.
  - rewrite skipn_all2; [reflexivity|]. apply nth_error_None. auto.
Qed.

Lemma quiet_find f v : forall cmps i j w, Forall silent cmps ->
  let '(r, e, w') := run_find f v cmps i j w in
  w' = w /\ (r = None -> e <> Returns) /\ (forall fd, r = Some fd -> e = Returns /\ fd = found_from v (ws w) i j) /\
  (Forall (fun cd => cd = Code [] false) cmps -> e <> Unwinds).
Proof.
  induction f as [|f IH]; intros cmps i j w Hs.
  { cbn. repeat split; congruence. }
  rewrite run_find_S. unfold found_from. destruct (nth_error (ws w) i) as [c|] eqn:Ei.
  2: { repeat split; congruence. }
  destruct (nth_error c j) as [s|] eqn:Ej.
  - cbv zeta. rewrite (skipn_cons _ _ _ Ej). cbn [find_slot]. destruct (cont s) as [cur|].
    + assert (silent (hd (Code [] false) cmps)) as [p Hp].
      { destruct cmps; [exists false; reflexivity|]. inversion Hs; auto. }
      assert (Forall silent (tl cmps)) as Ht by (destruct cmps; [constructor|inversion Hs; auto]).
      assert (Forall (fun cd => cd = Code [] false) cmps -> p = false /\ Forall (fun cd : code T => cd = Code [] false) (tl cmps)) as Hq.
      { destruct cmps as [|a l]; cbn [hd tl] in *; intros Q; [split; [congruence|constructor]|].
        apply Forall_cons_iff in Q. destruct Q as [Q1 Q2]. rewrite Q1 in Hp. split; [congruence|auto]. }
      rewrite Hp. destruct (quiet_code f p w) as [->| ->]; [repeat split; congruence|].
      destruct p.
      * repeat split; try congruence. intros Q. destruct (Hq Q). discriminate.
      * destruct (eqb v cur); [repeat split; congruence|]. destruct (refs s =? 0); [repeat split; congruence|].
        specialize (IH (tl cmps) i (S j) w Ht). unfold found_from in IH. rewrite Ei in IH.
        destruct (run_find f v (tl cmps) i (S j) w) as [[r e] w2]. destruct IH as (I1 & I2 & I3 & I4).
        split; [exact I1|]. split; [exact I2|]. split; [exact I3|]. intros Q. apply I4. apply Hq; auto.
    + destruct (refs s =? 0); [repeat split; congruence|].
      specialize (IH cmps i (S j) w Hs). unfold found_from in IH. rewrite Ei in IH. exact IH.
  - rewrite (skipn_all2 c) by (apply nth_error_None; auto). cbn [find_slot].
    specialize (IH cmps (S i) 0%nat w Hs). unfold found_from in IH. cbn [skipn] in IH.
    destruct (run_find f v cmps (S i) 0 w) as [[r e] w2]. destruct IH as (I1 & I2 & I3 & I4).
    split; [exact I1|]. split; [exact I2|]. split; [|exact I4]. intros fd Q. destruct (I3 fd Q) as [-> ->].
    split; [reflexivity|]. exact (found_next v (ws w) i).
Qed.

Lemma bump_incr st i j : match bump dbg st i j with
  | (Returns, st') => incr_inner dbg st i j = Ok st'
  | (e, _) => incr_inner dbg st i j = Panic /\ e = Unwinds
  end.
Proof.
  unfold bump, incr_inner, slot_at. destruct (nth_error st i) as [c|]; cbn [unwrap bind]; auto.
  destruct (nth_error c j) as [s|]; cbn [unwrap bind]; auto.
  destruct (dbg && (refs s =? 2 ^ 64 - 1)); auto.
Qed.

Lemma slot_at_cases st i j : (exists s, slot_at st i j = Ok s) \/ slot_at st i j = Panic.
Proof.
  unfold slot_at. destruct (nth_error st i) as [c|]; cbn [unwrap bind]; auto.
  destruct (nth_error c j) as [s|]; cbn [unwrap bind]; eauto.
Qed.

(** Silent conversion and destructor: the fill is [incr_inner] and [set_val]. *)
Lemma quiet_fill f v i j w : let '(e, w') := run_fill f v (Code [] false) (Code [] false) i j w in
  e = Spent \/ match (do st <- incr_inner dbg (ws w) i j ;; set_val st i j v) with
               | Ok st' => e = Returns /\ w' = with_store w st'
               | _ => e = Unwinds /\ wt w' = wt w
               end.
Proof.
  destruct f as [|f]; [left; reflexivity|]. rewrite run_fill_S. pose proof (bump_incr (ws w) i j) as B.
  destruct (bump dbg (ws w) i j) as [[] st]; [|destruct B as [-> B]; right; cbn [bind]; auto|destruct B; discriminate].
  rewrite B. cbn [bind]. destruct (quiet_code f false (with_store w st)) as [->| ->]; [left; reflexivity|].
  cbn [ws with_store]. unfold set_val, write.
  destruct (slot_at_cases st i j) as [[s E]|E]; rewrite E; cbn [bind]; [|right; auto].
  destruct (cont s) as [o|]; [|right; cbn [ws with_store]; rewrite E; auto].
  destruct (quiet_code f false (with_store w st)) as [->| ->]; [left; reflexivity|].
  right. cbn [ws with_store]. rewrite E. auto.
Qed.

Lemma plain_add f v cmps w : Forall (fun cd => cd = Code [] false) cmps ->
  let '(e, w') := run_call f (CAdd v cmps (Code [] false) (Code [] false)) w in
  e = Spent \/ match intern_add eqb dbg v (ws w) with
               | Ok (k, st') => e = Returns /\ w' = log (with_store w st') (EAdd v k)
               | _ => e = Unwinds /\ wt w' = wt w
               end.
Proof.
  intros Hs. destruct f as [|f]; [left; reflexivity|]. rewrite run_call_S.
  assert (Forall silent cmps) as Hq.
  { eapply Forall_impl; [|exact Hs]. intros a ->. exists false. reflexivity. }
  pose proof (quiet_find f v cmps 0 0 w Hq) as F.
  destruct (run_find f v cmps 0 0 w) as [[r e] w1]. destruct F as (-> & F1 & F2 & F3). specialize (F3 Hs).
  unfold intern_add. destruct r as [fd|].
  2: { destruct e; [destruct (F1 eq_refl eq_refl)|congruence|left; reflexivity]. }
  destruct (F2 _ eq_refl) as [-> Ef]. rewrite found_start in Ef. rewrite <- Ef. destruct fd as [i j|i j|].
  - pose proof (bump_incr (ws w) i j) as B. destruct (bump dbg (ws w) i j) as [[] st].
    + rewrite B. cbn [bind]. right. auto.
    + destruct B as [-> _]. right. cbn [bind]. auto.
    + destruct B; discriminate.
  - pose proof (quiet_fill f v i j w) as Q. destruct (run_fill f v (Code [] false) (Code [] false) i j w) as [e w1].
    destruct Q as [->|Q]; [left; reflexivity|].
    destruct (incr_inner dbg (ws w) i j) as [st| |]; cbn [bind] in *.
    + destruct (set_val st i j v) as [st2| |]; cbn [bind] in *; destruct Q as [-> Q]; right; subst; auto.
    + destruct Q as [-> Q]; right; auto.
    + destruct Q as [-> Q]; right; auto.
  - cbv zeta. set (st0 := ws w ++ [new_chunk]).
    pose proof (quiet_fill f v (length st0 - 1) 0 (with_store w st0)) as Q.
    destruct (run_fill f v (Code [] false) (Code [] false) (length st0 - 1) 0 (with_store w st0)) as [e w1].
    destruct Q as [->|Q]; [left; reflexivity|]. cbn [ws with_store] in Q.
    destruct (incr_inner dbg st0 (length st0 - 1) 0) as [st| |]; cbn [bind] in *.
    + destruct (set_val st (length st0 - 1) 0 v) as [st2| |]; cbn [bind] in *; destruct Q as [-> Q]; right; subst; auto.
    + destruct Q as [-> Q]; right; auto.
    + destruct Q as [-> Q]; right; auto.
Qed.

(** Counts not full, chunks complete. *)
Definition sound st : Prop := shape st /\ forall k s, 0 <= k -> slot_of st k = Some s -> 0 <= refs s < 2 ^ 64 - 1.

Lemma bump_sound st i j s : sound st -> (j < 32)%nat -> slot_of st (idx_to_offset i j) = Some s ->
  exists st', bump dbg st i j = (Returns, st') /\ shape st' /\
    forall k', 0 <= k' -> slot_of st' k' =
      if idx_to_offset i j =? k' then Some (Slot (refs s + 1) (cont s)) else slot_of st k'.
Proof.
  intros [Hs Hr] Hj E. destruct (incr_inner_spec dbg st i j s Hs Hj E (Hr _ _ (idx_pos i j) E)) as (st' & E1 & H1 & _ & H2).
  pose proof (bump_incr st i j) as B. destruct (bump dbg st i j) as [[] st2].
  - exists st'. assert (st2 = st') as -> by congruence. auto.
  - destruct B; congruence.
  - destruct B; congruence.
Qed.

Lemma sound_push st : sound st -> sound (st ++ [new_chunk]).
Proof.
  intros [Hs Hr]. split; [apply shape_push; auto|]. intros k s Hk E. rewrite slot_of_push in E by auto.
  destruct (k <? _); eauto. destruct (k <? _); [|discriminate]. injection E as <-. cbn. lia.
Qed.

(** A comparison that panics leaves everything as it was. *)
Lemma comparison_panic f v cmps w e w' : sound (ws w) -> Forall silent cmps ->
  run_call f (CAdd v cmps (Code [] false) (Code [] false)) w = (e, w') -> e = Unwinds ->
  ws w' = ws w /\ wt w' = wt w /\ wr w' = wr w.
Proof.
  intros Hw Hs. destruct f as [|f]; [cbn; congruence|]. rewrite run_call_S.
  pose proof (quiet_find f v cmps 0 0 w Hs) as F.
  destruct (run_find f v cmps 0 0 w) as [[r e0] w1]. destruct F as (-> & F1 & F2 & F3).
  destruct r as [fd|].
  2: { destruct e0; [destruct (F1 eq_refl eq_refl)| |]; intros Q; injection Q as <- <-; intros; try congruence; auto. }
  destruct (F2 _ eq_refl) as [-> Ef]. rewrite found_start in Ef. unfold find in Ef.
  pose proof (find_chunk_spec eqb eqb_ok v (ws w) (proj1 Hw) 0) as FC. rewrite <- Ef in FC.
  destruct fd as [i j|i j|].
  - destruct FC as (_ & Hj & (s & Es & Ec) & _). rewrite Nat.sub_0_r in Es.
    assert (slot_of (ws w) (idx_to_offset i j) = Some s) as Es'.
    { rewrite <- Es, <- slot_of_nat. f_equal. unfold idx_to_offset. lia. }
    destruct (bump_sound _ _ _ _ Hw Hj Es') as (st' & -> & _). intros Q; injection Q as <- <-. congruence.
  - destruct FC as (_ & Hj & (s & Es & _ & Ec) & _). rewrite Nat.sub_0_r in Es.
    assert (slot_of (ws w) (idx_to_offset i j) = Some s) as Es'.
    { rewrite <- Es, <- slot_of_nat. f_equal. unfold idx_to_offset. lia. }
    pose proof (quiet_fill f v i j w) as QF.
    destruct (run_fill f v (Code [] false) (Code [] false) i j w) as [e1 w2].
    destruct (incr_inner_spec dbg (ws w) i j s (proj1 Hw) Hj Es' (proj2 Hw _ _ (idx_pos i j) Es')) as (st' & E1 & H1 & _ & H2).
    rewrite E1 in QF. cbn [bind] in QF.
    destruct (set_val_spec st' i j v (Slot (refs s + 1) (cont s)) H1 Hj) as (st2 & E2 & _).
    { rewrite H2 by apply idx_pos. rewrite Z.eqb_refl. reflexivity. }
    rewrite E2 in QF. destruct QF as [->|[-> _]]; intros Q; injection Q as <- <-; congruence.
  - cbv zeta. set (st0 := ws w ++ [new_chunk]).
    assert (length st0 - 1 = length (ws w))%nat as -> by (unfold st0; rewrite app_length; cbn; lia).
    pose proof (quiet_fill f v (length (ws w)) 0 (with_store w st0)) as QF.
    destruct (run_fill f v (Code [] false) (Code [] false) (length (ws w)) 0 (with_store w st0)) as [e1 w2].
    cbn [ws with_store] in QF. pose proof (sound_push _ Hw) as Hw0. fold st0 in Hw0.
    pose proof (push_new (ws w) (proj1 Hw)) as Es'. fold st0 in Es'.
    destruct (incr_inner_spec dbg st0 (length (ws w)) 0 new_uninit (proj1 Hw0) ltac:(lia) Es' (proj2 Hw0 _ _ (idx_pos _ _) Es')) as (st' & E1 & H1 & _ & H2).
    rewrite E1 in QF. cbn [bind] in QF.
    destruct (set_val_spec st' (length (ws w)) 0 v (Slot (0 + 1) None) H1 ltac:(lia)) as (st2 & E2 & _).
    { rewrite H2 by apply idx_pos. rewrite Z.eqb_refl. reflexivity. }
    rewrite E2 in QF. destruct QF as [->|[-> _]]; intros Q; injection Q as <- <-; congruence.
Qed.

(** A conversion that panics leaves one slot with a reference that nobody has. *)
Lemma conversion_panic f v cmps drp w e w' : sound (ws w) -> Forall (fun cd => cd = Code [] false) cmps ->
  run_call f (CAdd v cmps (Code [] true) drp) w = (e, w') -> e = Unwinds ->
  wt w' = wt w /\ wr w' = wr w /\ shape (ws w') /\
  exists k, 0 <= k /\
    match slot_of (ws w) k with Some s => refs s = 0 | None => k = 32 * Z.of_nat (length (ws w)) end /\
    slot_of (ws w') k = Some (Slot 1 (match slot_of (ws w) k with Some s => cont s | None => None end)) /\
    forall k' s', 0 <= k' -> k' <> k -> slot_of (ws w) k' = Some s' -> slot_of (ws w') k' = Some s'.
Proof.
  intros Hw Hs. assert (Forall silent cmps) as Hq.
  { eapply Forall_impl; [|exact Hs]. intros a ->. exists false. reflexivity. }
  destruct f as [|f]; [cbn; congruence|]. rewrite run_call_S.
  pose proof (quiet_find f v cmps 0 0 w Hq) as F.
  destruct (run_find f v cmps 0 0 w) as [[r e0] w1]. destruct F as (-> & F1 & F2 & F3). specialize (F3 Hs).
  destruct r as [fd|].
  2: { destruct e0; [destruct (F1 eq_refl eq_refl)|congruence|]. intros Q; injection Q as <- <-; intros; congruence. }
  destruct (F2 _ eq_refl) as [-> Ef]. rewrite found_start in Ef. unfold find in Ef.
  pose proof (find_chunk_spec eqb eqb_ok v (ws w) (proj1 Hw) 0) as FC. rewrite <- Ef in FC.
  destruct fd as [i j|i j|].
  - destruct FC as (_ & Hj & (s & Es & Ec) & _). rewrite Nat.sub_0_r in Es.
    assert (slot_of (ws w) (idx_to_offset i j) = Some s) as Es'.
    { rewrite <- Es, <- slot_of_nat. f_equal. unfold idx_to_offset. lia. }
    destruct (bump_sound _ _ _ _ Hw Hj Es') as (st' & -> & _). intros Q; injection Q as <- <-. congruence.
  - destruct FC as (_ & Hj & (s & Es & Er & Ec) & _). rewrite Nat.sub_0_r in Es.
    assert (slot_of (ws w) (idx_to_offset i j) = Some s) as Es'.
    { rewrite <- Es, <- slot_of_nat. f_equal. unfold idx_to_offset. lia. }
    destruct (bump_sound _ _ _ _ Hw Hj Es') as (st' & Eb & Hs' & Hg).
    destruct f as [|f]; [cbn; intros Q; injection Q as <- <-; congruence|].
    rewrite run_fill_S, Eb. destruct (quiet_code f true (with_store w st')) as [->| ->];
      intros Q; injection Q as <- <-; intros; try congruence.
    cbn [ws wt wr broken with_store]. split; auto. split; auto. split; auto.
    exists (idx_to_offset i j). rewrite Es'. split; [apply idx_pos|]. split; auto.
    rewrite Hg by apply idx_pos. rewrite Z.eqb_refl, Er. split; auto.
    intros k' s' Hk' Hne E'. rewrite Hg by auto. rewrite (proj2 (Z.eqb_neq _ _)) by auto. auto.
  - cbv zeta. set (st0 := ws w ++ [new_chunk]).
    assert (length st0 - 1 = length (ws w))%nat as -> by (unfold st0; rewrite app_length; cbn; lia).
    pose proof (sound_push _ Hw) as Hw0. fold st0 in Hw0.
    pose proof (push_new (ws w) (proj1 Hw)) as Es'. fold st0 in Es'.
    destruct (bump_sound st0 (length (ws w)) 0 new_uninit Hw0 ltac:(lia) Es') as (st' & Eb & Hs' & Hg).
    destruct f as [|f]; [cbn; intros Q; injection Q as <- <-; congruence|].
    rewrite run_fill_S. cbn [ws with_store]. rewrite Eb.
    match goal with |- context [run_code f (Code [] true) ?x] => destruct (quiet_code f true x) as [->| ->] end;
      intros Q; injection Q as <- <-; intros; try congruence.
    cbn [ws wt wr broken with_store]. split; auto. split; auto. split; auto.
    exists (idx_to_offset (length (ws w)) 0).
    assert (slot_of (ws w) (idx_to_offset (length (ws w)) 0) = None) as En.
    { destruct (slot_of (ws w) (idx_to_offset (length (ws w)) 0)) as [x|] eqn:Q; auto. exfalso.
      pose proof (slot_bound _ _ _ (proj1 Hw) (idx_pos _ _) Q) as L. unfold idx_to_offset in L. lia. }
    rewrite En. split; [apply idx_pos|]. split; [unfold idx_to_offset; lia|].
    rewrite Hg by apply idx_pos. rewrite Z.eqb_refl. split; auto.
    intros k' s' Hk' Hne E'. rewrite Hg by auto. rewrite (proj2 (Z.eqb_neq _ _)) by auto.
    unfold st0. rewrite (slot_of_push _ _ (proj1 Hw)) by auto. pose proof (slot_bound _ _ _ (proj1 Hw) Hk' E').
    rewrite (proj2 (Z.ltb_lt _ _)) by lia. auto.
Qed.

(** A destructor that panics: the new value is in place all the same, with a reference that nobody has. *)
Lemma destructor_panic f v w e w' : sound (ws w) ->
  run_call f (CAdd v [] (Code [] false) (Code [] true)) w = (e, w') -> e = Unwinds ->
  wt w' = wt w /\ shape (ws w') /\
  exists k s, 0 <= k /\ slot_of (ws w) k = Some s /\ refs s = 0 /\ cont s <> None /\
    slot_of (ws w') k = Some (Slot 1 (Some v)) /\
    forall k' s', 0 <= k' -> k' <> k -> slot_of (ws w) k' = Some s' -> slot_of (ws w') k' = Some s'.
Proof.
  intros Hw. destruct f as [|f]; [cbn; congruence|]. rewrite run_call_S.
  pose proof (quiet_find f v [] 0 0 w (Forall_nil _)) as F.
  destruct (run_find f v [] 0 0 w) as [[r e0] w1]. destruct F as (-> & F1 & F2 & F3). specialize (F3 (Forall_nil _)).
  destruct r as [fd|].
  2: { destruct e0; [destruct (F1 eq_refl eq_refl)|congruence|]. intros Q; injection Q as <- <-; intros; congruence. }
  destruct (F2 _ eq_refl) as [-> Ef]. rewrite found_start in Ef. unfold find in Ef.
  pose proof (find_chunk_spec eqb eqb_ok v (ws w) (proj1 Hw) 0) as FC. rewrite <- Ef in FC.
  destruct fd as [i j|i j|].
  - destruct FC as (_ & Hj & (s & Es & Ec) & _). rewrite Nat.sub_0_r in Es.
    assert (slot_of (ws w) (idx_to_offset i j) = Some s) as Es'.
    { rewrite <- Es, <- slot_of_nat. f_equal. unfold idx_to_offset. lia. }
    destruct (bump_sound _ _ _ _ Hw Hj Es') as (st' & -> & _). intros Q; injection Q as <- <-. congruence.
  - destruct FC as (_ & Hj & (s & Es & Er & Ec) & _). rewrite Nat.sub_0_r in Es.
    assert (slot_of (ws w) (idx_to_offset i j) = Some s) as Es'.
    { rewrite <- Es, <- slot_of_nat. f_equal. unfold idx_to_offset. lia. }
    destruct (bump_sound _ _ _ _ Hw Hj Es') as (st' & Eb & Hs' & Hg).
    destruct f as [|f]; [cbn; intros Q; injection Q as <- <-; congruence|].
    rewrite run_fill_S, Eb. destruct (quiet_code f false (with_store w st')) as [->| ->];
      [intros Q; injection Q as <- <-; intros; congruence|].
    cbn [ws with_store]. pose proof (Hg _ (idx_pos i j)) as G0. rewrite Z.eqb_refl in G0.
    rewrite slot_at_idx, G0 by auto. cbn [unwrap cont]. destruct (cont s) as [old|] eqn:Eo.
    2: { intros Q; injection Q as <- <-; intros; congruence. }
    destruct (quiet_code f true (with_store w st')) as [->| ->]; intros Q; injection Q as <- <-; intros; try congruence.
    cbn [ws wt broken with_store]. split; auto.
    assert (write st' i j v = slot_put st' i j (Slot (refs s + 1) (Some v))) as Ew.
    { unfold write. rewrite slot_at_idx, G0 by auto. reflexivity. }
    rewrite Ew. split; [apply shape_put; auto|]. exists (idx_to_offset i j), s. split; [apply idx_pos|]. split; auto. split; auto.
    split; [congruence|]. split.
    + rewrite put_idx by (auto; apply idx_pos). rewrite Z.eqb_refl, G0, Er. reflexivity.
    + intros k' s' Hk' Hne E'. rewrite put_idx by auto. rewrite (proj2 (Z.eqb_neq _ _)) by auto.
      rewrite Hg by auto. rewrite (proj2 (Z.eqb_neq _ _)) by auto. auto.
  - cbv zeta. set (st0 := ws w ++ [new_chunk]).
    assert (length st0 - 1 = length (ws w))%nat as -> by (unfold st0; rewrite app_length; cbn; lia).
    pose proof (sound_push _ Hw) as Hw0. fold st0 in Hw0.
    pose proof (push_new (ws w) (proj1 Hw)) as Es'. fold st0 in Es'.
    destruct (bump_sound st0 (length (ws w)) 0 new_uninit Hw0 ltac:(lia) Es') as (st' & Eb & Hs' & Hg).
    destruct f as [|f]; [cbn; intros Q; injection Q as <- <-; congruence|].
    rewrite run_fill_S. cbn [ws with_store]. rewrite Eb.
    match goal with |- context [run_code f (Code [] false) ?x] => destruct (quiet_code f false x) as [->| ->] end;
      [intros Q; injection Q as <- <-; intros; congruence|].
    cbn [ws with_store]. pose proof (Hg _ (idx_pos (length (ws w)) 0)) as G0. rewrite Z.eqb_refl in G0.
    rewrite slot_at_idx, G0 by (auto; lia). cbn [unwrap cont new_uninit]. intros Q; injection Q as <- <-; intros; congruence.
Qed.

Lemma behind_slot (st : store T) i j : shape st -> (j < 32)%nat ->
  behind st (idx_to_offset i j) = match slot_of st (idx_to_offset i j) with Some s => unwrap (cont s) | None => Panic end.
Proof.
  intros Hs Hj. unfold behind. rewrite idx_of_offset by auto. rewrite slot_at_idx by auto.
  destruct (slot_of st (idx_to_offset i j)); reflexivity.
Qed.

(** Exactly when the element's panic comes out of [add]. *)
Lemma code_panics f v pc pd w e w' k st' : sound (ws w) ->
  run_call f (CAdd v [] (Code [] pc) (Code [] pd)) w = (e, w') -> e <> Spent ->
  intern_add eqb dbg v (ws w) = Ok (k, st') ->
  (e = Unwinds <-> behind (ws w) k <> Ok v /\ (pc = true \/ (pd = true /\ exists old, behind (ws w) k = Ok old))).
Proof.
  intros Hw. destruct f as [|f]; [cbn; congruence|]. rewrite run_call_S.
  pose proof (quiet_find f v [] 0 0 w (Forall_nil _)) as F.
  destruct (run_find f v [] 0 0 w) as [[r e0] w1]. destruct F as (-> & F1 & F2 & F3). specialize (F3 (Forall_nil _)).
  destruct r as [fd|].
  2: { destruct e0; [destruct (F1 eq_refl eq_refl)|congruence|]. intros Q; injection Q as <- <-; intros; congruence. }
  destruct (F2 _ eq_refl) as [-> Ef]. rewrite found_start in Ef. unfold intern_add. rewrite <- Ef. unfold find in Ef.
  pose proof (find_chunk_spec eqb eqb_ok v (ws w) (proj1 Hw) 0) as FC. rewrite <- Ef in FC.
  destruct fd as [i j|i j|].
  - destruct FC as (_ & Hj & (s & Es & Ec) & _). rewrite Nat.sub_0_r in Es.
    assert (slot_of (ws w) (idx_to_offset i j) = Some s) as Es'.
    { rewrite <- Es, <- slot_of_nat. f_equal. unfold idx_to_offset. lia. }
    destruct (bump_sound _ _ _ _ Hw Hj Es') as (st1 & -> & _). intros Q; injection Q as <- <-. intros _.
    destruct (incr_inner dbg (ws w) i j); cbn [bind]; try discriminate. intros Q; injection Q as <- <-.
    rewrite behind_slot by (auto; apply Hw). rewrite Es', Ec. cbn [unwrap]. split; [discriminate|]. intros [N _]. destruct (N eq_refl).
  - destruct FC as (_ & Hj & (s & Es & Er & Ec) & _). rewrite Nat.sub_0_r in Es.
    assert (slot_of (ws w) (idx_to_offset i j) = Some s) as Es'.
    { rewrite <- Es, <- slot_of_nat. f_equal. unfold idx_to_offset. lia. }
    destruct (bump_sound _ _ _ _ Hw Hj Es') as (st1 & Eb & Hs' & Hg).
    destruct f as [|f]; [cbn; intros Q; injection Q as <- <-; congruence|].
    rewrite run_fill_S, Eb. intros Q Ne Q2.
    assert (k = idx_to_offset i j) as ->.
    { destruct (incr_inner dbg (ws w) i j) as [x| |]; cbn [bind] in Q2; try discriminate.
      destruct (set_val x i j v); cbn [bind] in Q2; congruence. }
    clear Q2. rewrite behind_slot by (auto; apply Hw). rewrite Es'.
    destruct (quiet_code f pc (with_store w st1)) as [Ec1|Ec1]; rewrite Ec1 in Q; [injection Q as <- <-; congruence|].
    destruct pc.
    { injection Q as <- <-. split; [|auto]. intros _. split; [|auto]. destruct (cont s); cbn [unwrap]; congruence. }
    cbn [ws with_store] in Q. pose proof (Hg _ (idx_pos i j)) as G0. rewrite Z.eqb_refl in G0.
    rewrite slot_at_idx, G0 in Q by auto. cbn [unwrap cont] in Q. destruct (cont s) as [old|] eqn:Eo; cbn [unwrap].
    + destruct (quiet_code f pd (with_store w st1)) as [Ed|Ed]; rewrite Ed in Q; [injection Q as <- <-; congruence|].
      destruct pd; injection Q as <- <-; (split; [|]); try discriminate; auto.
      * intros _. split; [congruence|right; eauto].
      * intros [_ [D|[D _]]]; discriminate.
    + injection Q as <- <-. split; [discriminate|]. intros [_ [D|[_ [old D]]]]; discriminate.
  - cbv zeta. set (st0 := ws w ++ [new_chunk]).
    assert (length st0 - 1 = length (ws w))%nat as -> by (unfold st0; rewrite app_length; cbn; lia).
    pose proof (sound_push _ Hw) as Hw0. fold st0 in Hw0.
    pose proof (push_new (ws w) (proj1 Hw)) as Es'. fold st0 in Es'.
    destruct (bump_sound st0 (length (ws w)) 0 new_uninit Hw0 ltac:(lia) Es') as (st1 & Eb & Hs' & Hg).
    destruct f as [|f]; [cbn; intros Q; injection Q as <- <-; congruence|].
    rewrite run_fill_S. cbn [ws with_store]. rewrite Eb. intros Q Ne Q2.
    assert (k = idx_to_offset (length (ws w)) 0) as ->.
    { destruct (incr_inner dbg st0 (length (ws w)) 0) as [x| |]; cbn [bind] in Q2; try discriminate.
      destruct (set_val x (length (ws w)) 0 v); cbn [bind] in Q2; try discriminate. unfold idx_to_offset. injection Q2 as <- _. lia. }
    clear Q2. rewrite behind_slot by (try lia; apply Hw).
    assert (slot_of (ws w) (idx_to_offset (length (ws w)) 0) = None) as En.
    { destruct (slot_of (ws w) (idx_to_offset (length (ws w)) 0)) as [x|] eqn:Qx; auto. exfalso.
      pose proof (slot_bound _ _ _ (proj1 Hw) (idx_pos _ _) Qx) as L. unfold idx_to_offset in L. lia. }
    rewrite En.
    match type of Q with context [run_code f (Code [] pc) ?x] => destruct (quiet_code f pc x) as [Ec1|Ec1] end; rewrite Ec1 in Q; [injection Q as <- <-; congruence|].
    destruct pc.
    { injection Q as <- <-. split; [|auto]. intros _. split; [discriminate|auto]. }
    cbn [ws with_store] in Q. pose proof (Hg _ (idx_pos (length (ws w)) 0)) as G0. rewrite Z.eqb_refl in G0.
    rewrite slot_at_idx, G0 in Q by (auto; lia). cbn [unwrap cont new_uninit] in Q. injection Q as <- <-.
    split; [discriminate|]. intros [_ [D|[_ [old D]]]]; discriminate.
Qed.

End Proofs.
